(** Proofs about Concat, Flatten, Squeeze and Unsqueeze. *)
From Coq Require Import List ZArith Bool Arith Lia Permutation Sorted.
From Verif Require Import Util TensorSpec TensorLemmas ShapeOpsModel ShapeOpsSpec ShapeOpsProofs.
From Verif Require ConvProofs.
Import ListNotations.
Open Scope Z_scope.

(** ** Concat *)
Lemma upd_upd {A} a (v w : A) l : upd a v (upd a w l) = upd a v l.
Proof. revert a. induction l; intros [|a']; cbn; auto. now rewrite IHl. Qed.
Lemma upd_nth_id {A} a (d : A) l : upd a (nth a l d) l = l.
Proof. revert a. induction l; intros [|a']; cbn; auto. now rewrite IHl. Qed.
Lemma valid_upd_iff s a d idx : (a < length s)%nat -> (valid (upd a d s) idx <-> length idx = length s /\ 0 <= nth a idx 0 < d /\ forall j, j <> a -> (j < length s)%nat -> 0 <= nth j idx 0 < nth j s 0).
Proof.
  revert a idx. induction s as [|x s IH]; intros [|a] idx Ha; cbn [upd length] in *; try lia.
  - split.
    + intros H. inversion H; subst. split; [cbn; f_equal; symmetry; now apply valid_length in H4|]. split; [auto|]. intros [|j] Hj Hl; [lia|]. cbn. apply valid_nth'; auto. lia.
    + intros (HL & H1 & H2). destruct idx as [|i idx]; [discriminate|]. constructor; [auto|]. assert (Q : forall j, (j < length s)%nat -> 0 <= nth j idx 0 < nth j s 0) by (intros j Hj; apply (H2 (S j)); lia).
      injection HL as HL. clear - HL Q. revert idx HL Q. induction s as [|y s IH]; intros [|i idx] HL Q; try discriminate; constructor; [apply (Q O); cbn; lia|]. apply IH; [auto|]. intros j Hj. apply (Q (S j)). cbn. lia.
  - split.
    + intros H. inversion H; subst. apply IH in H4; [|lia]. destruct H4 as (HL & H1 & H2'). split; [cbn; lia|]. split; [auto|]. intros [|j] Hj Hl; [auto|]. cbn. apply H2'; lia.
    + intros (HL & H1 & H2). destruct idx as [|i idx]; [discriminate|]. constructor; [apply (H2 O); lia|]. apply IH; [lia|]. split; [cbn in HL; lia|]. split; [auto|]. intros j Hj Hl. apply (H2 (S j)); lia.
Qed.
Lemma shift_nth axis off idx j : nth j (shift axis off idx) 0 = if (j =? axis)%nat then (if (axis <? length idx)%nat then nth axis idx 0 + off else 0) else nth j idx 0.
Proof.
  unfold shift. destruct (Nat.eqb_spec j axis) as [->|E].
  - destruct (Nat.ltb_spec axis (length idx)); [now apply nth_upd_same|]. apply nth_overflow. now rewrite upd_length.
  - apply nth_upd_other. auto.
Qed.
Lemma shift_length axis off idx : length (shift axis off idx) = length idx.
Proof. apply upd_length. Qed.
Lemma shift_shift axis a b idx : shift axis a (shift axis b idx) = shift axis (b + a) idx.
Proof.
  unfold shift at 1 2. destruct (Nat.ltb_spec axis (length idx)).
  - rewrite nth_upd_same, upd_upd by auto. unfold shift. f_equal. lia.
  - unfold shift. assert (Q : forall v, upd axis v idx = idx).
    { intros v. clear - H. revert axis H. induction idx; intros [|axis] H; cbn in *; auto; try lia. now rewrite IHidx by lia. }
    now rewrite !Q.
Qed.
Lemma shift_0 axis idx : shift axis 0 idx = idx.
Proof. unfold shift. rewrite Z.add_0_r. apply upd_nth_id. Qed.
Lemma valid_shift base axis d e off idx : (axis < length base)%nat -> valid (upd axis d base) idx -> 0 <= nth axis idx 0 + off < e -> valid (upd axis e base) (shift axis off idx).
Proof.
  intros HA H HB. apply valid_upd_iff in H as (HL & H1 & H2); [|auto]. apply valid_upd_iff; [auto|]. rewrite shift_length. split; [auto|]. split.
  - rewrite shift_nth, Nat.eqb_refl. destruct (Nat.ltb_spec axis (length idx)); [lia|lia].
  - intros j Hj Hl. rewrite shift_nth. destruct (Nat.eqb_spec j axis); [tauto|]. now apply H2.
Qed.

Definition total {T} (axis : nat) (inputs : list (tensor T)) : Z := sumZ (map (fun x => nth axis (tShape x) 0) inputs).
Lemma concatCopy_ok {T} axis base W (x : tensor T) d off : (axis < length base)%nat -> 0 <= d -> tShape x = upd axis d base -> 0 <= off -> off + d <= W ->
  exists stores, concatCopy axis (upd axis W base) x off = Some stores /\ NoDup (map fst stores) /\
    (forall idx, In idx (map fst stores) <-> valid (upd axis W base) idx /\ off <= nth axis idx 0 < off + d) /\
    (forall idx v, In (idx, v) stores -> v = tAt x (shift axis (- off) idx)).
Proof.
  intros HA Hd Hx Ho HW. unfold concatCopy. rewrite Hx, nth_upd_same, upd_upd by auto.
  rewrite (collect_map _ (fun idx => (shift axis off idx, tAt x idx))).
  2:{ intros idx H. apply indices_In in H. unfold load. rewrite Hx. rewrite (proj2 (inBounds_valid _ _) H). cbn [obind]. fold (shift axis off idx).
      replace (inBounds _ _) with true; [reflexivity|]. symmetry. apply inBounds_valid. apply (valid_shift _ _ d); auto.
      apply valid_upd_iff in H; [|auto]. lia. }
  eexists. split; [reflexivity|]. rewrite map_map. cbn [fst]. split; [|split].
  - assert (ND := NoDup_indices (upd axis d base)). induction ND as [|i l Hi ND IH]; cbn; constructor; auto. rewrite in_map_iff. intros (j & E & Hj). apply Hi.
    assert (Q : shift axis (- off) (shift axis off j) = shift axis (- off) (shift axis off i)) by (f_equal; exact E).
    rewrite !shift_shift in Q. replace (off + - off) with 0 in Q by lia. rewrite !shift_0 in Q. now rewrite <- Q.
  - intros idx. rewrite in_map_iff. split.
    + intros (i & <- & Hi). apply indices_In in Hi. pose proof Hi as Hi'. apply valid_upd_iff in Hi' as (HL & H1 & H2); [|auto]. split; [apply (valid_shift _ _ d); auto; lia|].
      rewrite shift_nth, Nat.eqb_refl. destruct (Nat.ltb_spec axis (length i)); lia.
    + intros [HV HB]. exists (shift axis (- off) idx). split; [rewrite shift_shift; replace (- off + off) with 0 by lia; apply shift_0|]. apply indices_In. apply (valid_shift _ _ W); auto. lia.
  - intros idx v H. apply in_map_iff in H as (i & E & _). injection E as <- <-. rewrite shift_shift. replace (off + - off) with 0 by lia. now rewrite shift_0.
Qed.
Lemma concat_ok {T} (dflt : T) axis base W : (axis < length base)%nat -> forall inputs off, Forall (fun x => exists d, 0 <= d /\ tShape x = upd axis d base) inputs -> 0 <= off -> off + total axis inputs <= W ->
  exists stores, concatLoop axis (upd axis W base) inputs off = Some stores /\ NoDup (map fst stores) /\
    (forall idx, In idx (map fst stores) <-> valid (upd axis W base) idx /\ off <= nth axis idx 0 < off + total axis inputs) /\
    (forall idx v, In (idx, v) stores -> v = concat_at dflt axis inputs (shift axis (- off) idx)).
Proof.
  intros HA. induction inputs as [|x r IH]; intros off HF Ho HW; unfold total in *; cbn [map] in *; rewrite ?sumZ_cons in *.
  - exists []. split; [auto|]. split; [constructor|]. split; [intros idx; change (sumZ []) with 0; cbn; lia|intros ? ? []].
  - inversion HF as [|? ? (d & Hd & Hx) HF']; subst. assert (Ed : nth axis (tShape x) 0 = d) by (rewrite Hx; now apply nth_upd_same). rewrite Ed in *.
    assert (0 <= sumZ (map (fun x => nth axis (tShape x) 0) r)).
    { clear - HF' HA. induction HF' as [|y r (e & He & Hy) HF IH]; cbn [map]; [unfold sumZ; cbn; lia|]. rewrite sumZ_cons, Hy, nth_upd_same by auto. lia. }
    destruct (concatCopy_ok axis base W x d off HA Hd Hx Ho ltac:(lia)) as (s & Es & N1 & C1 & V1).
    destruct (IH (off + d) HF' ltac:(lia) ltac:(lia)) as (t & Et & N2 & C2 & V2).
    cbn [concatLoop]. rewrite Es. cbn [obind]. rewrite Ed, Et. cbn [obind]. exists (s ++ t). split; [auto|]. rewrite map_app. split; [|split].
    + apply ConvProofs.NoDup_app'; auto. intros idx H1 H2. apply C1 in H1. apply C2 in H2. lia.
    + intros idx. rewrite in_app_iff, C1, C2. destruct (Z.lt_ge_cases (nth axis idx 0) (off + d)); (split; [intros [[? ?]|[? ?]]; split; auto; lia|intros [? ?]; first [left; split; [assumption|lia]|right; split; [assumption|lia]]]).
    + intros idx v H1. cbn [concat_at].
      assert (LV : (forall W', valid (upd axis W' base) idx -> (axis < length idx)%nat)) by (intros W' Q; apply valid_length in Q; rewrite upd_length in Q; lia).
      apply in_app_iff in H1 as [H1|H1].
      * assert (K : In idx (map fst s)) by (apply in_map_iff; exists (idx, v); auto). apply C1 in K as [K1 K2]. apply LV in K1. rewrite shift_nth, Nat.eqb_refl, Ed. destruct (Nat.ltb_spec axis (length idx)); [|lia].
        destruct (Z.ltb_spec (nth axis idx 0 + - off) d); [|lia]. now apply V1.
      * assert (K : In idx (map fst t)) by (apply in_map_iff; exists (idx, v); auto). apply C2 in K as [K1 K2]. apply LV in K1. rewrite shift_nth, Nat.eqb_refl, Ed. destruct (Nat.ltb_spec axis (length idx)); [|lia].
        destruct (Z.ltb_spec (nth axis idx 0 + - off) d); [lia|]. rewrite shift_shift. replace (- off + - d) with (- (off + d)) by lia. now apply V2.
Qed.

(** The inferred shape. *)
Lemma nth_ext_upd axis W (l m : list Z) : length l = length m -> (forall j, j <> axis -> nth j l 0 = nth j m 0) -> upd axis W l = upd axis W m.
Proof.
  revert axis m. induction l as [|x l IH]; intros [|a] [|y m] HL H; cbn in *; try discriminate; auto.
  - f_equal. injection HL as HL. apply (nth_ext _ _ 0 0); [auto|]. intros n _. apply (H (S n)). lia.
  - f_equal; [apply (H O); lia|]. apply IH; [lia|]. intros j Hj. apply (H (S j)). lia.
Qed.
Definition fits (axis : nat) (base : list Z) (s : list (bool * Z)) : Prop := isEmptyInput s = true \/ exists d, map snd s = upd axis d base.
Definition axisSize (axis : nat) (s : list (bool * Z)) : Z := if isEmptyInput s then 0 else snd (nth axis s (false, 0)).
Lemma concatRest_ok axis base rest : forall dims tot, Forall (fits axis base) rest -> (axis < length base)%nat -> length dims = length base -> (forall j, j <> axis -> nth j (map snd dims) 0 = nth j base 0) ->
  let (dims', tot') := concatRest axis rest dims tot in upd axis tot' (map snd dims') = upd axis (tot + sumZ (map (axisSize axis) rest)) base.
Proof.
  induction rest as [|s rest IH]; intros dims tot HF HA HL HN; cbn [concatRest map].
  - change (sumZ []) with 0. rewrite Z.add_0_r. apply nth_ext_upd; [now rewrite map_length|auto].
  - rewrite sumZ_cons. inversion HF as [|? ? HS HF']; subst. unfold axisSize at 1. destruct (isEmptyInput s) eqn:E.
    + specialize (IH dims tot HF' HA HL HN). destruct (concatRest axis rest dims tot). rewrite IH. f_equal.
    + destruct HS as [HS|[d HS]]; [congruence|]. assert (LS : length s = length base) by (rewrite <- (map_length snd s), HS; apply upd_length).
      specialize (IH (map (fun e : (bool * Z) * (bool * Z) => if fst (snd e) then snd e else fst e) (combine dims s)) (tot + snd (nth axis s (false, 0))) HF' HA).
      assert (L' : length (map (fun e : (bool * Z) * (bool * Z) => if fst (snd e) then snd e else fst e) (combine dims s)) = length base) by (rewrite map_length, combine_length; lia).
      specialize (IH L').
      assert (N' : forall j, j <> axis -> nth j (map snd (map (fun e : (bool * Z) * (bool * Z) => if fst (snd e) then snd e else fst e) (combine dims s))) 0 = nth j base 0).
      { intros j Hj. assert (Hs : nth j (map snd s) 0 = nth j base 0) by (rewrite HS; apply nth_upd_other; lia).
        specialize (HN j Hj). destruct (Nat.lt_ge_cases j (length base)) as [Hl|Hl].
        - rewrite map_map. set (h := fun e : (bool * Z) * (bool * Z) => snd (if fst (snd e) then snd e else fst e)).
          rewrite (nth_indep _ 0 (h ((false, 0), (false, 0)))) by (rewrite map_length, combine_length; lia).
          rewrite (map_nth h), combine_nth by lia. unfold h. cbn [fst snd].
          rewrite (nth_indep (map snd dims) 0 (snd (false, 0))), map_nth in HN by (rewrite map_length; lia).
          rewrite (nth_indep (map snd s) 0 (snd (false, 0))), map_nth in Hs by (rewrite map_length; lia). destruct (fst (nth j s (false, 0))); auto.
        - rewrite !nth_overflow; auto; rewrite ?map_length, ?combine_length; lia. }
      specialize (IH N'). destruct (concatRest _ _ _ _). rewrite IH. f_equal. lia.
Qed.
Lemma concatDims_ok axis base inputs : (axis < length base)%nat -> Forall (fits axis base) inputs -> (exists s, In s inputs /\ isEmptyInput s = false) ->
  concatDims axis inputs = Some (upd axis (sumZ (map (axisSize axis) inputs)) base).
Proof.
  intros HA HF. induction HF as [|s rest HS HF IH]; intros (s1 & Hin & He); [destruct Hin|]. cbn [concatDims map]. rewrite sumZ_cons. unfold axisSize at 1. destruct (isEmptyInput s) eqn:E.
  - rewrite IH; [f_equal; f_equal|]. destruct Hin as [->|Hin]; [congruence|]. eauto.
  - destruct HS as [HS|[d HS]]; [congruence|]. pose proof (concatRest_ok axis base rest s (snd (nth axis s (false, 0))) HF HA) as Q.
    assert (LS : length s = length base) by (rewrite <- (map_length snd s), HS; apply upd_length). specialize (Q LS).
    specialize (Q ltac:(intros j Hj; rewrite HS; apply nth_upd_other; lia)). destruct (concatRest _ _ _ _). rewrite Q. reflexivity.
Qed.

(** ** Flatten *)
Lemma flattenIndex_app d1 : forall i1 d i acc pos, length d1 = length i1 -> flattenIndex (d1 ++ [d]) (i1 ++ [i]) acc pos = flattenIndex d1 i1 acc pos + i * (acc * prodZ d1).
Proof.
  induction d1 as [|x d1 IH]; intros [|y i1] d i acc pos HL; try discriminate; cbn [app flattenIndex]; [unfold prodZ; cbn; lia|].
  rewrite IH by (cbn in HL; lia). rewrite prodZ_cons. lia.
Qed.
Lemma flattenIndex_rm s idx : length s = length idx -> flattenIndex (rev s) (rev idx) 1 0 = rm s idx.
Proof.
  revert idx. induction s as [|d s IH]; intros [|i idx] HL; try discriminate; cbn [rev rm]; [reflexivity|]. rewrite flattenIndex_app by (rewrite !rev_length; cbn in HL; lia).
  rewrite IH by (cbn in HL; lia). rewrite (prodZ_perm _ _ (Permutation_sym (Permutation_rev s))). unfold size. lia.
Qed.
Lemma fold_mul l a : fold_left Z.mul l a = a * prodZ l.
Proof. revert a. induction l as [|x l IH]; intros a; cbn [fold_left]; [unfold prodZ; cbn; lia|]. rewrite IH, prodZ_cons. lia. Qed.
Lemma valid_firstn s idx a : valid s idx -> valid (firstn a s) (firstn a idx).
Proof. intros H. revert a. induction H; intros [|a]; cbn; constructor; auto; apply IHForall2. Qed.
Lemma valid_skipn s idx a : valid s idx -> valid (skipn a s) (skipn a idx).
Proof. intros H. revert a. induction H; intros [|a]; cbn; try constructor; auto; apply IHForall2. Qed.
Lemma flatten_ok {T} (x : tensor T) axis : okshape (tShape x) -> (axis <= length (tShape x))%nat ->
  let out := flattenAlloc (tShape x) axis in
  exists stores, flattenLoop x axis out = Some stores /\ NoDup (map fst stores) /\ (forall w, In w (map fst stores) <-> valid out w) /\
    forall w v, In (w, v) stores -> exists idx, valid (tShape x) idx /\ v = tAt x idx /\ rowmajor out w = rowmajor (tShape x) idx.
Proof.
  intros HO HA out. set (s := tShape x) in *. set (g := fun idx => [rm (firstn axis s) (firstn axis idx); rm (skipn axis s) (skipn axis idx)]).
  assert (EO : out = [size (firstn axis s); size (skipn axis s)]) by (unfold out, flattenAlloc; rewrite !fold_mul; unfold size; now rewrite !Z.mul_1_l).
  assert (GV : forall idx, valid s idx -> valid out (g idx)).
  { intros idx H. rewrite EO. repeat constructor; apply rm_bound; [apply valid_firstn, H|apply valid_firstn, H|apply valid_skipn, H|apply valid_skipn, H]. }
  assert (GR : forall idx, valid s idx -> rowmajor out (g idx) = rm s idx).
  { intros idx H. pose proof (valid_firstn _ _ axis H) as V1. apply valid_length in V1.
    pose proof (rm_app (firstn axis s) (skipn axis s) (firstn axis idx) (skipn axis idx) V1) as Q. rewrite !firstn_skipn in Q. rewrite Q, EO. unfold rowmajor, g. cbn [rm_acc]. lia. }
  unfold flattenLoop. fold s. rewrite (collect_map _ (fun idx => (g idx, tAt x idx))).
  2:{ intros idx H. apply indices_In in H. unfold load. fold s. rewrite (proj2 (inBounds_valid _ _) H). cbn [obind].
      rewrite !flattenIndex_rm; [|apply valid_length, valid_skipn, H|apply valid_length, valid_firstn, H]. fold (g idx). rewrite (proj2 (inBounds_valid _ _) (GV idx H)). reflexivity. }
  eexists. split; [reflexivity|]. rewrite map_map. cbn [fst].
  assert (INJ : forall i j, valid s i -> valid s j -> g i = g j -> i = j) by (intros i j Hi Hj E; apply (rm_inj s); auto; rewrite <- !GR by auto; now rewrite E).
  assert (OS : okshape (firstn axis s) /\ okshape (skipn axis s)) by (unfold okshape in *; rewrite <- Forall_app, firstn_skipn; auto).
  split; [|split].
  - assert (HIN : forall i, In i (indices s) -> valid s i) by (intros; now apply indices_In). assert (ND := NoDup_indices s). revert HIN. induction ND as [|i l Hi ND IH]; cbn; intros HIN; constructor.
    + rewrite in_map_iff. intros (j & E & Hj). apply Hi. rewrite <- (INJ j i); auto.
    + apply IH. auto.
  - intros w. rewrite in_map_iff. split.
    + intros (i & <- & Hi). apply GV. now apply indices_In.
    + rewrite EO. intros H. inversion H as [|? a ? ? Ha H']; subst. inversion H' as [|? b ? ? Hb H'']; subst. inversion H''; subst.
      destruct (unrm_spec (firstn axis s) a) as [U1 U2]; [tauto|auto|]. destruct (unrm_spec (skipn axis s) b) as [U3 U4]; [tauto|auto|].
      exists (unrm (firstn axis s) a ++ unrm (skipn axis s) b). pose proof (valid_length _ _ U1) as L1. rewrite firstn_length in L1.
      assert (LL : length (unrm (firstn axis s) a) = axis) by lia. split.
      * unfold g. rewrite firstn_app, skipn_app, LL, Nat.sub_diag. cbn [firstn skipn]. rewrite app_nil_r.
        assert (Q1 : firstn axis (unrm (firstn axis s) a) = unrm (firstn axis s) a) by (apply firstn_all2; lia).
        assert (Q2 : skipn axis (unrm (firstn axis s) a) = []) by (apply skipn_all2; lia). rewrite Q1, Q2. cbn [app]. now rewrite U2, U4.
      * apply indices_In. rewrite <- (firstn_skipn axis s) at 1. unfold valid. apply Forall2_app; [exact U1|exact U3].
  - intros w v H. apply in_map_iff in H as (i & E & Hi). injection E as <- <-. apply indices_In in Hi. exists i. split; [auto|]. split; [auto|]. rewrite GR by auto. symmetry. apply rowmajor_rm, valid_length, Hi.
Qed.
Lemma inferProduct_ok l s acc : agrees l s -> rel (inferProduct l acc) (fold_left Z.mul s acc).
Proof.
  intros H. revert acc. induction H as [|o d l s Ho H IH]; intros acc; cbn [inferProduct fold_left]; [intros v E; congruence|]. destruct o as [z|]; [|intros v E; discriminate]. rewrite (Ho z eq_refl). apply IH.
Qed.
Lemma agrees_firstn l s a : agrees l s -> agrees (firstn a l) (firstn a s).
Proof. intros H. revert a. induction H; intros [|a]; cbn; constructor; auto; apply IHForall2. Qed.
Lemma agrees_skipn l s a : agrees l s -> agrees (skipn a l) (skipn a s).
Proof. intros H. revert a. induction H; intros [|a]; cbn; try constructor; auto; apply IHForall2. Qed.
