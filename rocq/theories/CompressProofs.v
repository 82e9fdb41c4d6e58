From Coq Require Import List ZArith Lia Bool Arith.
From Verif Require Import Util TensorSpec TensorLemmas LoopModel LoopProofs GatherLoopModel GatherLoopSpec GatherLoopProofs ArgLoopProofs ShapeOpsCopies CompressModel.
Import ListNotations.
Open Scope Z_scope.

(** The positions below [n] where the condition holds. *)
Definition sel (dc : Z -> bool) (n : nat) : list Z := filter dc (zseq 0 n).

Lemma sel_S dc n : sel dc (S n) = sel dc n ++ (if dc (Z.of_nat n) then [Z.of_nat n] else []).
Proof.
  unfold sel. replace (S n) with (n + 1)%nat by lia. rewrite zseq_app, filter_app. f_equal.
Qed.
Lemma sel_In dc n k : In k (sel dc n) -> 0 <= k < Z.of_nat n.
Proof. unfold sel. intros H. apply filter_In in H as [H _]. apply zseq_In in H. lia. Qed.
Lemma sel_mono dc n m : (n <= m)%nat -> exists r, sel dc m = sel dc n ++ r.
Proof. intros H. unfold sel. replace m with (n + (m - n))%nat by lia. rewrite zseq_app, filter_app. eauto. Qed.
Lemma sel_le dc n m : (n <= m)%nat -> (length (sel dc n) <= length (sel dc m))%nat.
Proof. intros H. destruct (sel_mono dc n m H) as [r ->]. rewrite app_length. lia. Qed.
Lemma sel_get dc n m k v : (n <= m)%nat -> zget (sel dc n) k = Some v -> zget (sel dc m) k = Some v.
Proof. intros H E. destruct (sel_mono dc n m H) as [r ->]. rewrite zget_app1; auto. apply zget_inv in E. lia. Qed.

Lemma indices_one n : indices [n] = map (fun k => [k]) (zrange n).
Proof. cbn [indices map]. induction (zrange n); cbn; congruence. Qed.

Section C.
Context {T : Type} (cond : mem bool) (dc : Z -> bool) (c : Z).
Hypothesis CS : mShape cond = [c].
Hypothesis CP : 0 <= c.
Hypothesis CD : forall k, 0 <= k < c -> mAt cond [k] = Some (dc k).

Lemma cond_load k : 0 <= k < c -> load cond [k] = Some (dc k).
Proof. intros K. rewrite load_ok; [auto|]. rewrite CS. apply valid_cons. split; auto. constructor. Qed.
Lemma count_ok : countTrue cond = Some (Z.of_nat (length (sel dc (Z.to_nat c)))).
Proof.
  unfold countTrue, iterate. rewrite CS, indices_one, foldM_map. unfold zrange.
  assert (G : forall n, (n <= Z.to_nat c)%nat -> foldM (fun k sum => currCond <- load cond [k] ;; Some (sum + (if currCond then 1 else 0))) (zseq 0 n) 0 = Some (Z.of_nat (length (sel dc n)))).
  { induction n as [|n IH]; intros H; [reflexivity|]. rewrite sel_S. replace (S n) with (n + 1)%nat by lia. rewrite zseq_app, foldM_app, IH by lia. cbn [obind zseq foldM].
    rewrite cond_load by lia. cbn [obind]. rewrite app_length, Nat2Z.inj_add. cbn [Z.add]. destruct (dc (Z.of_nat n)); reflexivity. }
  apply G. lia.
Qed.

Lemma skipTest_ok inLit s tot : length inLit = length s -> skipTest inLit s tot c = true -> 0 <= tot -> okshape s -> s <> [] -> tot * size s <= c.
Proof.
  revert inLit tot. induction s as [|d s IH]; intros [|l inLit] tot L E P Ok N; try discriminate; [congruence|].
  cbn [skipTest] in E. destruct l; [|discriminate]. cbv zeta in E. destruct (Z.ltb_spec c (tot * d)); [discriminate|]. apply okshape_cons in Ok as [D Ok].
  rewrite size_cons. destruct s as [|d' s]; [rewrite size_nil; lia|]. assert (tot * d * size (d' :: s) <= c); [|lia]. apply (IH inLit); auto; try congruence; try nia.
Qed.

Section Flat.
Context (x : mem T) (dv : index -> T) (condLit : bool) (inLit : list bool).
Let s := mShape x.
Hypothesis XD : forall i, valid s i -> mAt x i = Some (dv i).
Hypothesis Ok : okshape s.
Hypothesis LL : length inLit = length s.

(** The elements in row-major order. *)
Definition flatAt (k : Z) : option T := option_map dv (zget (indices s) k).

Lemma compressFlat_ok : (s = [] -> condLit = true -> 1 <= c) ->
  exists out, compressFlat condLit inLit x cond = Some out /\ mShape out = [Z.of_nat (length (sel dc (Z.to_nat c)))] /\
    (forall k p, zget (sel dc (Z.to_nat (Z.min c (size s)))) k = Some p -> mAt out [k] = flatAt p) /\
    (forall k, Z.of_nat (length (sel dc (Z.to_nat (Z.min c (size s))))) <= k -> mAt out [k] = None).
Proof.
  intros NS. unfold compressFlat. rewrite count_ok. cbn [obind]. rewrite CS. cbn [nth]. fold s.
  set (tot := Z.of_nat (length (sel dc (Z.to_nat c)))).
  set (sk := skipCondFlat condLit inLit s c).
  assert (SK : sk = true -> size s <= c).
  { unfold sk, skipCondFlat. intros E. apply andb_true_iff in E as [E1 E2]. destruct s as [|d s'] eqn:ES; [rewrite size_nil; auto|]. rewrite <- ES in *.
    assert (1 * size s <= c); [|lia]. apply (skipTest_ok inLit); auto; try lia; try congruence. }
  match goal with |- context [iterate s ?f _] => set (body := f) end.
  pose proof (indices_length s Ok) as IL. pose proof (size_nonneg s Ok) as SP.
  assert (G : forall p, (p <= length (indices s))%nat -> let q := Z.to_nat (Z.min c (Z.of_nat p)) in
    exists m, foldM body (firstn p (indices s)) (0, 0, alloc [tot]) = Some (Z.of_nat q, Z.of_nat (length (sel dc q)), m) /\ mShape m = [tot] /\
      (forall k v, zget (sel dc q) k = Some v -> mAt m [k] = flatAt v) /\ (forall k, Z.of_nat (length (sel dc q)) <= k -> mAt m [k] = None)).
  { induction p as [|p IH]; intros HP q.
    - exists (alloc [tot]). assert (q = O) as -> by lia. cbn [firstn foldM]. split; [reflexivity|]. split; [reflexivity|]. split; [|reflexivity].
      intros k v E. cbn in E. apply zget_inv in E. cbn in E. lia.
    - destruct IH as (m & F & MS & M1 & M2); [lia|].
      destruct (nth_error (indices s) p) as [i|] eqn:EI; [|apply nth_error_None in EI; lia].
      assert (firstn (S p) (indices s) = firstn p (indices s) ++ [i]) as ->.
      { clear -EI. revert p EI. induction (indices s) as [|a l IHl]; intros [|p] E; cbn in *; try discriminate; [congruence|]. f_equal. auto. }
      assert (VI : valid s i) by (apply indices_In; eapply nth_error_In; exact EI).
      rewrite foldM_app, F. cbn [obind foldM]. subst q. set (q0 := Z.to_nat (Z.min c (Z.of_nat p))) in *.
      unfold body at 1. destruct (Z.lt_ge_cases (Z.of_nat p) c) as [HC|HC].
      + assert (E0 : q0 = p) by lia. rewrite E0 in *. clear q0 E0. assert (Z.to_nat (Z.min c (Z.of_nat (S p))) = S p) as -> by lia.
        assert (sk || (Z.of_nat p <? c) = true) as -> by (apply orb_true_iff; right; lia).
        rewrite cond_load by lia. cbn [obind]. rewrite sel_S. destruct (dc (Z.of_nat p)) eqn:ED.
        * rewrite load_ok by exact VI. rewrite XD by exact VI. cbn [obind].
          assert (LT : Z.of_nat (length (sel dc p)) < tot).
          { unfold tot. assert (length (sel dc (S p)) <= length (sel dc (Z.to_nat c)))%nat by (apply sel_le; lia). rewrite sel_S, ED, app_length in H. cbn in H. lia. }
          rewrite store_ok by (rewrite MS; apply valid_cons; split; [lia|constructor]). cbn [obind fst snd].
          eexists. split; [rewrite app_length; cbn [length]; f_equal; f_equal; f_equal; lia|]. cbn [mShape mAt]. split; [auto|]. split.
          -- intros k v E. destruct (Z.lt_ge_cases k (Z.of_nat (length (sel dc p)))) as [K|K].
             ++ rewrite zget_app1 in E by lia. rewrite ieqb_neq by (intros Q; injection Q as Q; lia). auto.
             ++ rewrite zget_app2 in E by lia. assert (k = Z.of_nat (length (sel dc p))) as -> by (apply zget_inv in E; cbn in E; lia).
                rewrite ieqb_refl. rewrite Z.sub_diag in E. cbn in E. injection E as <-. unfold flatAt. rewrite zget_spec, Nat2Z.id, EI by lia. reflexivity.
          -- intros k K. rewrite app_length in K. cbn [length] in K. rewrite ieqb_neq by (intros Q; injection Q as Q; lia). apply M2. lia.
        * cbn [obind fst snd]. rewrite app_nil_r. exists m. split; [f_equal; f_equal; f_equal; lia|]. auto.
      + assert (E0 : q0 = Z.to_nat c) by lia. assert (Z.to_nat (Z.min c (Z.of_nat (S p))) = q0) as -> by lia.
        assert (sk || (Z.of_nat q0 <? c) = false) as ->.
        { apply orb_false_iff. split; [|lia]. destruct sk; auto. specialize (SK eq_refl). lia. }
        cbn [obind]. exists m. auto. }
  destruct (G (length (indices s)) (le_n _)) as (m & F & MS & M1 & M2). rewrite firstn_all in F. unfold iterate. rewrite F. cbn [obind snd].
  exists m. rewrite IL in M1, M2. auto.
Qed.
End Flat.

Section Axis.
Context (x : mem T) (dv : index -> T) (condLit axisLit : bool) (a : nat) (axis : Z).
Let s := mShape x.
Let d := nth a s 0.
Hypothesis XD : forall i, valid s i -> mAt x i = Some (dv i).
Hypothesis Ok : okshape s.
Hypothesis AX : names_axis (length s) a axis.

Definition ins (v : Z) (i : list Z) : list Z := firstn a i ++ v :: skipn a i.
Definition del (i : list Z) : list Z := firstn a i ++ skipn (S a) i.
Lemma ins_del v i : (a < length i)%nat -> ins v (del i) = upd a v i.
Proof.
  unfold ins, del. intros H. rewrite firstn_exact, skipn_exact by (rewrite firstn_length; lia).
  revert i H. clear. induction a as [|n IH]; intros [|y i] H; cbn in *; try lia; auto. f_equal. apply IH. lia.
Qed.
Lemma del_ins v i : (a <= length i)%nat -> del (ins v i) = i.
Proof.
  unfold ins, del. intros H. rewrite firstn_exact by (rewrite firstn_length; lia).
  change (firstn a i ++ v :: skipn a i) with (firstn a i ++ [v] ++ skipn a i). rewrite app_assoc. rewrite skipn_exact by (rewrite app_length, firstn_length; cbn; lia). apply firstn_skipn.
Qed.
Lemma del_upd v i : del (upd a v i) = del i.
Proof. unfold del. clear. revert i. induction a as [|n IH]; intros [|y i]; cbn; auto. f_equal. exact (IH i). Qed.
Lemma flat_map_skip (l : list Z) k n : (forall i, (k <= i < k + n)%nat -> i <> a) -> (k + n <= length l)%nat ->
  flat_map (fun i => if (i =? a)%nat then [] else [nth i l 0]) (seq k n) = firstn n (skipn k l).
Proof.
  intros H L. rewrite <- map_nth_seq by exact L. clear L. revert k H. induction n as [|n IH]; intros k H; cbn [seq flat_map map]; auto.
  destruct (Nat.eqb_spec k a) as [E|E]; [exfalso; apply (H k); [lia|exact E]|]. cbn [app]. f_equal. apply IH. intros i Hi. apply H. lia.
Qed.
Lemma innerUbs_del : innerUbs a s = del s.
Proof.
  destruct AX as [HA _]. unfold innerUbs, del. replace (length s) with (a + (1 + (length s - a - 1)))%nat at 1 by lia.
  rewrite !seq_app, !flat_map_app. rewrite flat_map_skip by (intros; lia). cbn [seq flat_map]. cbn [Nat.add]. rewrite Nat.eqb_refl. cbn [app]. change (skipn 0 s) with s. f_equal.
  rewrite flat_map_skip by (intros; lia). replace (a + 1)%nat with (S a) by lia. apply firstn_all2. rewrite skipn_length. lia.
Qed.
Lemma access_ins v i : S (length i) = length s -> (a < length s)%nat -> accessFct (length s) a v i = ins v i.
Proof.
  intros L HA. unfold accessFct, ins. apply nth_ext with (d := 0) (d' := 0).
  - rewrite map_length, seq_length, app_length, firstn_length. cbn [length]. rewrite skipn_length. lia.
  - intros k Hk. rewrite map_length, seq_length in Hk. set (g := fun j => _). rewrite (nth_indep _ 0 (g O)) by (rewrite map_length, seq_length; lia). rewrite map_nth, seq_nth by lia. unfold g. cbn [Nat.add].
    destruct (Nat.eqb_spec k a) as [->|N].
    + rewrite app_nth2 by (rewrite firstn_length; lia). rewrite firstn_length. replace (a - Nat.min a (length i))%nat with O by lia. reflexivity.
    + destruct (Nat.ltb_spec a k).
      * rewrite app_nth2 by (rewrite firstn_length; lia). rewrite firstn_length. replace (k - Nat.min a (length i))%nat with (S (k - 1 - a)) by lia. cbn [nth]. rewrite nth_skipn_add. f_equal. lia.
      * rewrite app_nth1 by (rewrite firstn_length; lia). rewrite nth_firstn_lt by lia. f_equal. lia.
Qed.

Lemma valid_del w i : valid (upd a w s) i -> valid (del s) (del i).
Proof.
  intros V. rewrite <- (del_upd w s). unfold del. apply valid_app; [|split; [now apply valid_firstn|now apply valid_skipn]].
  rewrite !firstn_length. apply valid_length in V. lia.
Qed.
Lemma valid_ins w v i : (a < length s)%nat -> valid (del s) i -> 0 <= v < w -> valid (upd a w s) (ins v i).
Proof.
  intros HA V B. unfold del in V. rewrite <- (ins_del w s HA). unfold ins, del.
  rewrite firstn_exact, skipn_exact by (rewrite firstn_length; lia).
  destruct (valid_split_app _ _ _ V) as (i1 & i2 & -> & V1 & V2). pose proof (valid_length _ _ V1) as L1. rewrite firstn_length in L1.
  rewrite firstn_exact, skipn_exact by lia. apply valid_app; [rewrite firstn_length; lia|]. split; auto. apply valid_cons. auto.
Qed.
Lemma nth_ins v i : (a <= length i)%nat -> nth a (ins v i) 0 = v.
Proof. intros H. unfold ins. rewrite app_nth2 by (rewrite firstn_length; lia). rewrite firstn_length. replace (a - Nat.min a (length i))%nat with O by lia. reflexivity. Qed.

Lemma compressAxis_ok :
  exists out, compressAxis condLit axisLit axis x cond = Some out /\ mShape out = upd a (Z.of_nat (length (sel dc (Z.to_nat c)))) s /\
    (forall i p, valid (mShape out) i -> zget (sel dc (Z.to_nat (Z.min c d))) (nth a i 0) = Some p -> mAt out i = Some (dv (upd a p i))) /\
    (forall i, valid (mShape out) i -> Z.of_nat (length (sel dc (Z.to_nat (Z.min c d)))) <= nth a i 0 -> mAt out i = None).
Proof.
  pose proof AX as [HA _]. unfold compressAxis. rewrite count_ok. cbn [obind]. rewrite CS. cbn [nth]. fold s. rewrite (normalAxis_ok _ _ _ AX). fold d. rewrite innerUbs_del.
  set (tot := Z.of_nat (length (sel dc (Z.to_nat c)))). set (sk := skipCondAxis condLit axisLit c d).
  assert (SK : sk = true -> d <= c) by (unfold sk, skipCondAxis; intros E; apply andb_true_iff in E as [_ E]; lia).
  assert (D0 : 0 <= d) by (unfold d; apply (proj1 (Forall_forall _ _) Ok), nth_In; exact HA).
  set (os := upd a tot s). assert (LO : length os = length s) by apply upd_length.
  assert (LD : S (length (del s)) = length s) by (unfold del; rewrite app_length, firstn_length, skipn_length; lia).
  match goal with |- context [iterate [d] ?f _] => set (body := f) end.
  unfold iterate. rewrite indices_one, foldM_map. unfold zrange.
  assert (G : forall p, (p <= Z.to_nat d)%nat -> let q := Z.to_nat (Z.min c (Z.of_nat p)) in
    exists m, foldM (fun k st => body [k] st) (zseq 0 p) (0, alloc os) = Some (Z.of_nat (length (sel dc q)), m) /\ mShape m = os /\
      (forall i v, valid os i -> zget (sel dc q) (nth a i 0) = Some v -> mAt m i = Some (dv (upd a v i))) /\
      (forall i, valid os i -> Z.of_nat (length (sel dc q)) <= nth a i 0 -> mAt m i = None)).
  { induction p as [|p IH]; intros HP q.
    - exists (alloc os). assert (q = O) as -> by lia. cbn [zseq foldM]. split; [reflexivity|]. split; [reflexivity|]. split; [|reflexivity].
      intros i v _ E. cbn in E. apply zget_inv in E. cbn in E. lia.
    - destruct IH as (m & F & MS & M1 & M2); [lia|]. subst q. assert (zseq 0 (S p) = zseq 0 p ++ zseq (0 + Z.of_nat p) 1) as -> by (rewrite <- zseq_app; f_equal; lia). rewrite foldM_app, F. cbn [obind zseq foldM].
      replace (0 + Z.of_nat p) with (Z.of_nat p) by lia. unfold body at 1. cbn [nth].
      destruct (Z.lt_ge_cases (Z.of_nat p) c) as [HC|HC].
      + assert (sk || (Z.of_nat p <? c) = true) as -> by (apply orb_true_iff; right; lia).
        rewrite cond_load by lia. cbn [obind].
        assert (Z.to_nat (Z.min c (Z.of_nat p)) = p) as E0 by lia. rewrite E0 in *. clear E0. assert (Z.to_nat (Z.min c (Z.of_nat (S p))) = S p) as -> by lia.
        rewrite sel_S. destruct (dc (Z.of_nat p)) eqn:ED.
        * assert (LT : Z.of_nat (length (sel dc p)) < tot).
          { unfold tot. assert (length (sel dc (S p)) <= length (sel dc (Z.to_nat c)))%nat by (apply sel_le; lia). rewrite sel_S, ED, app_length in H. cbn in H. lia. }
          cbn [fst snd]. set (w := Z.of_nat (length (sel dc p))) in *.
          destruct (iterate_stores (del s) (accessFct (length s) a w) (fun i => load x (accessFct (length s) a (Z.of_nat p) i)) m) as (m' & E & S' & R1 & R2).
          { intros i V. pose proof (valid_length _ _ V) as L. rewrite !access_ins by lia. split; [rewrite MS; apply valid_ins; auto; lia|].
            assert (VX : valid s (ins (Z.of_nat p) i)) by (rewrite <- (upd_nth_id a 0 s); apply valid_ins; auto; fold d; lia).
            rewrite load_ok by exact VX. rewrite XD by exact VX. eauto. }
          { intros i j Vi Vj E. pose proof (valid_length _ _ Vi). pose proof (valid_length _ _ Vj). rewrite !access_ins in E by lia. apply (f_equal del) in E. rewrite !del_ins in E by lia. exact E. }
          rewrite E. cbn [obind]. exists m'. split; [f_equal; f_equal; rewrite app_length; cbn [length]; lia|]. split; [congruence|]. split.
          -- intros i v V EZ. pose proof (valid_length _ _ V) as LV. destruct (Z.eq_dec (nth a i 0) w) as [EW|NW].
             ++ rewrite EW in EZ. unfold w in EZ. rewrite zget_app2 in EZ by lia. rewrite Z.sub_diag in EZ. cbn in EZ. injection EZ as <-.
                assert (VD : valid (del s) (del i)) by (eapply valid_del; exact V).
                assert (Ei : i = ins w (del i)) by (rewrite ins_del by lia; rewrite <- EW; symmetry; apply upd_nth_id).
                pose proof (valid_length _ _ VD) as LVD.
                rewrite Ei at 1. rewrite <- (access_ins w) by lia. rewrite R1 by exact VD. rewrite access_ins by lia. rewrite ins_del by lia.
                assert (VX : valid s (upd a (Z.of_nat p) i)) by (rewrite <- (ins_del (Z.of_nat p) i) by lia; rewrite <- (upd_nth_id a 0 s); apply valid_ins; auto; fold d; lia).
                rewrite load_ok by exact VX. auto.
             ++ rewrite R2. 2: { intros j Vj Ej. pose proof (valid_length _ _ Vj). rewrite access_ins in Ej by lia. apply NW. rewrite <- Ej. apply nth_ins. lia. }
                assert (nth a i 0 < w). { apply zget_inv in EZ. rewrite app_length in EZ. cbn [length] in EZ. lia. }
                rewrite zget_app1 in EZ by lia. auto.
          -- intros i V K. rewrite app_length in K. cbn [length] in K. rewrite R2; [apply M2; auto; lia|].
             intros j Vj Ej. pose proof (valid_length _ _ Vj). rewrite access_ins in Ej by lia. rewrite <- Ej, nth_ins in K by lia. lia.
        * rewrite app_nil_r. exists m. auto.
      + assert (sk || (Z.of_nat p <? c) = false) as ->.
        { apply orb_false_iff. split; [|lia]. destruct sk; auto. specialize (SK eq_refl). lia. }
        cbn [obind]. replace (Z.to_nat (Z.min c (Z.of_nat (S p)))) with (Z.to_nat (Z.min c (Z.of_nat p))) by lia. exists m. auto. }
  destruct (G (Z.to_nat d) (le_n _)) as (m & F & MS & M1 & M2). rewrite F. cbn [obind snd].
  exists m. rewrite Z2Nat.id in M1, M2 by lia. rewrite MS. auto.
Qed.
End Axis.
End C.
