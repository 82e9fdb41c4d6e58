(** Proofs about MatMul, NonZero and Range of constants. *)
From Coq Require Import List ZArith Lia Bool Arith.
From Verif Require Import Util TensorSpec TensorLemmas StridesModel StridesProofs
  ElementsModel ElementsSpec ElementsBase ElementsViews ElementsGather.
Import ListNotations.
Open Scope Z_scope.

(** ** Broadcast of two shapes *)
Lemma Forall2_app_inv2 {A B} (R : A -> B -> Prop) l1 l2 m1 m2 : length l1 = length m1 ->
  Forall2 R (l1 ++ l2) (m1 ++ m2) -> Forall2 R l1 m1 /\ Forall2 R l2 m2.
Proof.
  revert m1; induction l1; intros [|m m1] L H; try discriminate; simpl in *; auto.
  inversion H; subst. destruct (IHl1 m1) as [? ?]; auto.
Qed.

Lemma Forall2_rev' {A B} (R : A -> B -> Prop) l m : Forall2 R l m -> Forall2 R (rev l) (rev m).
Proof. induction 1; simpl; auto. apply Forall2_app; auto. Qed.

Definition bcr (s t : list Z) : Prop :=
  (length s <= length t)%nat /\ Forall2 (fun d D => d = 1 \/ d = D) s (firstn (length s) t).

Lemma bcr_broadcastable s t : bcr (rev s) (rev t) -> broadcastable s t.
Proof.
  intros [HL HF]. rewrite !rev_length in *. split; auto.
  rewrite firstn_rev in HF. apply Forall2_rev' in HF. now rewrite !rev_involutive in HF.
Qed.

Lemma bcr_refl l : bcr l l.
Proof.
  split; auto. rewrite firstn_all. induction l; constructor; auto.
Qed.

Lemma broadcast_rev_spec a b c : broadcast_rev a b = Some c -> okshape a -> okshape b ->
  okshape c /\ bcr a c /\ bcr b c.
Proof.
  revert b c; induction a as [|x a IH]; intros b c E Oa Ob.
  - simpl in E. injection E as <-. split; auto. split; [|apply bcr_refl]. split; simpl; [lia|constructor].
  - destruct b as [|y b].
    + simpl in E. injection E as <-. split; auto. split; [apply bcr_refl|]. split; simpl; [lia|constructor].
    + cbn [broadcast_rev] in E. destruct (broadcast_rev a b) as [r|] eqn:ER; [|discriminate].
      cbn [obind] in E. inversion Oa; inversion Ob; subst.
      destruct (IH b r ER) as (Or & [A1 A2] & [B1 B2]); auto.
      destruct (Z.eqb_spec x y) as [->|NE]; [|destruct (Z.eqb_spec x 1); [|destruct (Z.eqb_spec y 1); [|discriminate]]];
        injection E as <-; (split; [constructor; auto|]; split; split; simpl; [lia| |lia|]; constructor; auto).
Qed.

Lemma getBroadcastedShape_spec a b c : getBroadcastedShape a b = Some c -> okshape a -> okshape b ->
  okshape c /\ broadcastable a c /\ broadcastable b c.
Proof.
  unfold getBroadcastedShape. intros E Oa Ob. destruct (broadcast_rev (rev a) (rev b)) as [r|] eqn:ER; [|discriminate].
  cbn [obind] in E. injection E as <-.
  destruct (broadcast_rev_spec _ _ _ ER) as (O & A & B); try (apply Forall_rev; auto).
  split; [apply Forall_rev; auto|].
  split; apply bcr_broadcastable; now rewrite rev_involutive.
Qed.

(** Two shapes that broadcast to a common shape are accepted. *)
Lemma broadcast_rev_complete a b t : bcr a t -> bcr b t -> exists c, broadcast_rev a b = Some c.
Proof.
  revert b t; induction a as [|x a IH]; intros b t [LA FA] [LB FB]; [simpl; eauto|].
  destruct b as [|y b]; [simpl; eauto|]. destruct t as [|z t]; [simpl in LA; lia|].
  simpl in *. inversion FA; inversion FB; subst. cbn [broadcast_rev].
  destruct (IH b t) as (c & ->). { split; auto; lia. } { split; auto; lia. }
  cbn [obind]. destruct (Z.eqb_spec x y); eauto. destruct (Z.eqb_spec x 1); eauto.
  destruct (Z.eqb_spec y 1); eauto. exfalso. destruct H2, H8; lia.
Qed.

Lemma broadcastable_bcr s t : broadcastable s t -> bcr (rev s) (rev t).
Proof.
  intros [HL HF]. split; rewrite !rev_length; auto. rewrite firstn_rev. now apply Forall2_rev'.
Qed.

Lemma getBroadcastedShape_complete a b t : broadcastable a t -> broadcastable b t ->
  exists c, getBroadcastedShape a b = Some c.
Proof.
  intros A B. apply broadcastable_bcr in A, B. unfold getBroadcastedShape.
  destruct (broadcast_rev_complete _ _ _ A B) as (c & ->). cbn [obind]. eauto.
Qed.

(** The compiler's broadcast is exactly the NumPy rule. *)
Definition bdim (x y z : Z) : Prop := (x = y /\ z = x) \/ (x = 1 /\ z = y) \/ (y = 1 /\ z = x).

Lemma broadcast_rev_iff a : forall b c, broadcast_rev a b = Some c <->
  length c = Nat.max (length a) (length b) /\
  forall i, (i < length c)%nat -> bdim (nth i a 1) (nth i b 1) (nth i c 1).
Proof.
  induction a as [|x a IH]; intros b c.
  - cbn [broadcast_rev length Nat.max]. split.
    + intros E. injection E as <-. split; auto. intros i Hi. right; left. destruct i; auto.
    + intros [L H]. f_equal. apply nth_ext with 1 1; auto. intros i Hi. rewrite <- L in Hi.
      destruct (H i Hi) as [[? ?]|[[? ?]|[? ?]]]; destruct i; simpl in *; congruence.
  - destruct b as [|y b].
    + cbn [broadcast_rev length Nat.max]. split.
      * intros E. injection E as <-. split; auto. intros i Hi. right; right. destruct i; auto.
      * intros [L H]. f_equal. apply nth_ext with 1 1; auto. intros i Hi. cbn [length] in Hi. rewrite <- L in Hi.
        destruct (H i Hi) as [[? ?]|[[? ?]|[? ?]]]; destruct i; simpl in *; congruence.
    + cbn [broadcast_rev length Nat.max]. split.
      * intros E. destruct (broadcast_rev a b) as [r|] eqn:ER; [|discriminate]. cbn [obind] in E.
        apply IH in ER as [L H].
        assert (exists z, c = z :: r /\ bdim x y z) as (z & -> & Hz).
        { destruct (Z.eqb_spec x y); [|destruct (Z.eqb_spec x 1); [|destruct (Z.eqb_spec y 1); [|discriminate]]];
            injection E as <-; eexists; (split; [reflexivity|]); unfold bdim; auto. }
        split; [simpl; congruence|]. intros [|i] Hi; simpl in *; auto. apply H. lia.
      * intros [L H]. destruct c as [|z c]; [discriminate|]. cbn [length] in *.
        assert (ER : broadcast_rev a b = Some c).
        { apply IH. split; [congruence|]. intros i Hi. apply (H (S i)). lia. }
        rewrite ER. cbn [obind]. specialize (H O ltac:(lia)). simpl in H.
        destruct (Z.eqb_spec x y), (Z.eqb_spec x 1), (Z.eqb_spec y 1);
          destruct H as [[? ?]|[[? ?]|[? ?]]]; subst; auto; try congruence.
Qed.

Lemma getBroadcastedShape_iff a b c : getBroadcastedShape a b = Some c <-> is_broadcast a b c.
Proof.
  unfold getBroadcastedShape, is_broadcast, dim_back. split.
  - destruct (broadcast_rev (rev a) (rev b)) as [r|] eqn:ER; [|discriminate]. cbn [obind]. intros E. injection E as <-.
    apply broadcast_rev_iff in ER as [L H]. rewrite !rev_length in *. rewrite rev_involutive. auto.
  - intros [L H]. assert (ER : broadcast_rev (rev a) (rev b) = Some (rev c)).
    { apply broadcast_rev_iff. rewrite !rev_length. auto. }
    rewrite ER. cbn [obind]. now rewrite rev_involutive.
Qed.

(** ** MatMul *)
Section MatMul.
Context {W : Type}.
Variable junk : W.

Lemma nth_last2 l (a b : Z) : nth (length (l ++ [a; b]) - 2) (l ++ [a; b]) 0 = a.
Proof. rewrite app_length. cbn [length]. rewrite app_nth2 by lia. replace (_ - _ - _)%nat with O by lia. auto. Qed.
Lemma nth_last1 l (a b : Z) : nth (length (l ++ [a; b]) - 1) (l ++ [a; b]) 0 = b.
Proof. rewrite app_length. cbn [length]. rewrite app_nth2 by lia. replace (_ - _ - _)%nat with 1%nat by lia. auto. Qed.
Lemma drop_back2 l (a b : Z) : drop_back 2 (l ++ [a; b]) = l.
Proof.
  unfold drop_back. rewrite app_length. cbn [length]. replace (_ + 2 - 2)%nat with (length l) by lia.
  rewrite firstn_app, firstn_all, Nat.sub_diag. simpl. apply app_nil_r.
Qed.

Lemma upd_last1 (l : list Z) a b v n : n = (length l + 1)%nat -> upd n v (l ++ [a; b]) = l ++ [a; v].
Proof. intros ->. rewrite upd_app_r by lia. replace (_ - _)%nat with 1%nat by lia. reflexivity. Qed.
Lemma upd_last2 (l : list Z) a b v n : n = length l -> upd n v (l ++ [a; b]) = l ++ [v; b].
Proof. intros ->. rewrite upd_app_r by lia. rewrite Nat.sub_diag. reflexivity. Qed.

Lemma split_last2 (l : list Z) n : length l = (n + 2)%nat -> exists p a b, l = p ++ [a; b] /\ length p = n.
Proof.
  intros L. pose proof (firstn_skipn n l) as E. pose proof (skipn_length n l) as L2. rewrite L in L2.
  replace (n + 2 - n)%nat with 2%nat in L2 by lia.
  destruct (skipn n l) as [|a [|b [|]]]; try discriminate.
  exists (firstn n l), a, b. split; auto. rewrite firstn_length. lia.
Qed.

Lemma valid_last2 c M N idx : valid (c ++ [M; N]) idx ->
  exists b i j, idx = b ++ [i; j] /\ valid c b /\ 0 <= i < M /\ 0 <= j < N.
Proof.
  intros V. apply valid_split_app in V as (b & r & -> & Vb & Vr).
  inversion Vr as [|? i ? r' Hi Vr']; subst. inversion Vr' as [|? j ? r'' Hj Vr'']; subst. inversion Vr''; subst.
  exists b, i, j. auto.
Qed.

(** Left operand: positions of A[..., i, k]. *)
Lemma lhs_spec (e : elements W) lb vec M K c :
  wf e -> e_shape e = lb ++ opt_axis vec M ++ [K] -> (vec = true -> lb = []) -> broadcastable lb c ->
  exists nums st step, matMul_lhs e c M K = Some (nums, st, step) /\ length st = (length c + 2)%nat /\
    forall b i j k, valid c b -> 0 <= k < K -> (vec = false -> 0 <= i < M) ->
      zget nums (pos (b ++ [i; j]) st + k * step) = den e (bsel lb b ++ opt_axis vec i ++ [k]).
Proof.
  intros We Se HV HB. unfold matMul_lhs, getWideNumsAndExpandedStrides, expandStrides. rewrite Se.
  pose proof (wf_len _ We) as HL. rewrite Se in HL. pose proof (wf_unit _ We) as HU. rewrite Se in HU.
  destruct vec; cbn [opt_axis app] in *.
  - specialize (HV eq_refl). subst lb. cbn [app length Nat.eqb] in *.
    destruct (e_strides e) as [|sk [|]] eqn:ES; try discriminate. cbn [length].
    rewrite !app_length. cbn [length].
    replace (1 <=? length c + 1)%nat with true by (symmetry; apply Nat.leb_le; lia). cbn [obind fst snd].
    replace (length c + 1 - 1)%nat with (length c) by lia.
    match goal with |- context [length (?x ++ [sk])] => replace (length (x ++ [sk])) with (length c + 1)%nat
      by (rewrite app_length, repeat_length; auto) end.
    replace (length c + 1 - 1)%nat with (length c) by lia.
    rewrite firstn_app, repeat_length, Nat.sub_diag. cbn [firstn]. rewrite app_nil_r.
    rewrite firstn_all2 by (rewrite repeat_length; lia).
    rewrite skipn_app, repeat_length, Nat.sub_diag. rewrite skipn_all2 by (rewrite repeat_length; lia). cbn [skipn app].
    replace (Nat.eqb (length (repeat 0 (length c) ++ [0; sk])%Z) (length c + 2)%nat) with true.
    2:{ symmetry. rewrite app_length, repeat_length. apply Nat.eqb_refl. }
    cbn [negb]. eexists _, _, _. split; [reflexivity|].
    replace (length c + 2 - 1)%nat with (length (repeat 0%Z (length c)) + 1)%nat by (rewrite repeat_length; lia).
    rewrite upd_last1 by auto. split. { rewrite app_length, repeat_length. auto. }
    intros b i j k Vb Hk _. rewrite den_wide, ES. f_equal.
    rewrite pos_app by (rewrite repeat_length; symmetry; now apply valid_length).
    rewrite pos_repeat0. rewrite app_nth2 by (rewrite ?repeat_length; lia).
    rewrite ?repeat_length; replace (length c + 1 - length c)%nat with 1%nat by lia. unfold bsel. cbn [map2 app nth getStridesPosition].
    ring.
  - assert (IV : (length (lb ++ [M; K]) =? 1)%nat = false) by (rewrite app_length; apply Nat.eqb_neq; cbn [length]; lia).
    rewrite IV. clear IV. cbn [app]. rewrite app_length in HL. cbn [length] in HL.
    destruct (split_last2 _ _ HL) as (bst & sm & sk & ES & LB). rewrite ES in *.
    rewrite !app_length. cbn [length]. destruct HB as [LE HB].
    replace (length bst + 2 <=? length c + 2)%nat with true by (symmetry; apply Nat.leb_le; lia). cbn [obind fst snd].
    replace (length c + 2 - (length bst + 2))%nat with (length c - length lb)%nat by lia.
    rewrite app_assoc. set (xst := repeat 0 (length c - length lb) ++ bst).
    assert (LX : length xst = length c) by (unfold xst; rewrite app_length, repeat_length; lia).
    replace (Nat.eqb (length (xst ++ [sm; sk])%Z) (length c + 2)%nat) with true.
    2:{ symmetry. rewrite app_length. cbn [length]. rewrite LX. apply Nat.eqb_refl. }
    cbn [negb]. eexists _, _, _. split; [reflexivity|].
    rewrite upd_last1 by lia. split. { rewrite app_length. cbn [length]. lia. }
    intros b i j k Vb Hk Hi. rewrite den_wide, ES. f_equal.
    rewrite pos_app by (rewrite LX; symmetry; now apply valid_length).
    apply Forall2_app_inv2 in HU as [HU1 HU2]; [|lia].
    assert (BV : valid lb (bsel lb b)) by (eapply bsel_valid; eauto; split; auto).
    rewrite pos_app by (rewrite LB; symmetry; now apply valid_length).
    replace (pos b xst) with (pos (bsel lb b) bst) by (symmetry; apply (bsel_pos lb c bst b); auto; split; auto).
    
    rewrite app_nth2 by lia. replace (length c + 2 - 1 - length xst)%nat with 1%nat by lia.
    cbn [nth getStridesPosition]. ring.
Qed.

(** Right operand: positions of B[..., k, j]. *)
Lemma rhs_spec (e : elements W) rb vec N K c :
  wf e -> e_shape e = rb ++ [K] ++ opt_axis vec N -> (vec = true -> rb = []) -> broadcastable rb c ->
  exists nums st step, matMul_rhs e c K N = Some (nums, st, step) /\ length st = (length c + 2)%nat /\
    forall b i j k, valid c b -> 0 <= k < K -> (vec = false -> 0 <= j < N) ->
      zget nums (pos (b ++ [i; j]) st + k * step) = den e (bsel rb b ++ [k] ++ opt_axis vec j).
Proof.
  intros We Se HV HB. unfold matMul_rhs, getWideNumsAndExpandedStrides, expandStrides. rewrite Se.
  pose proof (wf_len _ We) as HL. rewrite Se in HL. pose proof (wf_unit _ We) as HU. rewrite Se in HU.
  destruct vec; cbn [opt_axis app] in *.
  - specialize (HV eq_refl). subst rb. cbn [app length Nat.eqb] in *.
    destruct (e_strides e) as [|sk [|]] eqn:ES; try discriminate. cbn [length].
    rewrite !app_length. cbn [length].
    replace (1 <=? length c + 1)%nat with true by (symmetry; apply Nat.leb_le; lia). cbn [obind fst snd].
    replace (length c + 1 - 1)%nat with (length c) by lia. rewrite <- app_assoc. cbn [app].
    replace (Nat.eqb (length (repeat 0 (length c) ++ [sk; 0])%Z) (length c + 2)%nat) with true.
    2:{ symmetry. rewrite app_length, repeat_length. apply Nat.eqb_refl. }
    cbn [negb]. eexists _, _, _. split; [reflexivity|].
    replace (length c + 2 - 2)%nat with (length (repeat 0%Z (length c))) by (rewrite repeat_length; lia).
    rewrite upd_last2 by auto. split. { rewrite app_length, repeat_length. auto. }
    intros b i j k Vb Hk _. rewrite den_wide, ES. f_equal.
    rewrite pos_app by (rewrite repeat_length; symmetry; now apply valid_length).
    rewrite pos_repeat0. rewrite app_nth2 by lia.
    rewrite Nat.sub_diag. unfold bsel. cbn [map2 app nth getStridesPosition].
    ring.
  - assert (IV : (length (rb ++ [K; N]) =? 1)%nat = false) by (rewrite app_length; apply Nat.eqb_neq; cbn [length]; lia).
    rewrite IV. clear IV. cbn [app]. rewrite app_length in HL. cbn [length] in HL.
    destruct (split_last2 _ _ HL) as (bst & sk & sn & ES & LB). rewrite ES in *.
    rewrite !app_length. cbn [length]. destruct HB as [LE HB].
    replace (length bst + 2 <=? length c + 2)%nat with true by (symmetry; apply Nat.leb_le; lia). cbn [obind fst snd].
    replace (length c + 2 - (length bst + 2))%nat with (length c - length rb)%nat by lia.
    rewrite app_assoc. set (xst := repeat 0 (length c - length rb) ++ bst).
    assert (LX : length xst = length c) by (unfold xst; rewrite app_length, repeat_length; lia).
    replace (Nat.eqb (length (xst ++ [sk; sn])%Z) (length c + 2)%nat) with true.
    2:{ symmetry. rewrite app_length. cbn [length]. rewrite LX. apply Nat.eqb_refl. }
    cbn [negb]. eexists _, _, _. split; [reflexivity|].
    rewrite upd_last2 by lia. split. { rewrite app_length. cbn [length]. lia. }
    intros b i j k Vb Hk Hj. rewrite den_wide, ES. f_equal.
    rewrite pos_app by (rewrite LX; symmetry; now apply valid_length).
    apply Forall2_app_inv2 in HU as [HU1 HU2]; [|lia].
    assert (BV : valid rb (bsel rb b)) by (eapply bsel_valid; eauto; split; auto).
    rewrite pos_app by (rewrite LB; symmetry; now apply valid_length).
    replace (pos b xst) with (pos (bsel rb b) bst) by (symmetry; apply (bsel_pos rb c bst b); auto; split; auto).
    
    rewrite app_nth2 by lia. replace (length c + 2 - 2 - length xst)%nat with O by lia.
    cbn [nth getStridesPosition]. ring.
Qed.

Lemma dot_loop (add mul : W -> W -> W) lnums rnums lstep rstep n : forall a (xs ys : list W) acc lp rp,
  Forall2 (fun k w => zget lnums (lp + (k - a) * lstep) = Some w) (zseq a n) xs ->
  Forall2 (fun k w => zget rnums (rp + (k - a) * rstep) = Some w) (zseq a n) ys ->
  exists lp' rp',
  foldM (fun _ (st : W * Z * Z) =>
           let '(acc, lp, rp) := st in
           x <- zget lnums lp ;; y <- zget rnums rp ;;
           Some (add acc (mul x y), lp + lstep, rp + rstep)) (zseq a n) (acc, lp, rp) =
  Some (fold_left add (map2 mul xs ys) acc, lp', rp').
Proof.
  induction n; intros a xs ys acc lp rp FX FY.
  - inversion FX; inversion FY; subst. simpl. eauto.
  - cbn [zseq] in *. inversion FX as [|? x ? xs' Ex FX']; inversion FY as [|? y ? ys' Ey FY']; subst.
    rewrite Z.sub_diag, Z.mul_0_l, Z.add_0_r in Ex, Ey. cbn [foldM]. rewrite Ex, Ey. cbn [obind map2 fold_left].
    apply (IHn (a + 1) xs' ys').
    + clear - FX'. remember (zseq (a + 1) n) as l eqn:E. clear E. induction FX'; constructor; auto.
      rewrite <- H. f_equal. ring.
    + clear - FY'. remember (zseq (a + 1) n) as l eqn:E. clear E. induction FY'; constructor; auto.
      rewrite <- H. f_equal. ring.
Qed.

Lemma read_list (nums : list W) (f : Z -> Z) K (P : Z -> option W) :
  (forall k, 0 <= k < K -> zget nums (f k) = P k /\ exists w, P k = Some w) ->
  exists xs, Forall2 (fun k w => zget nums (f k) = Some w) (zrange K) xs /\
             Forall2 (fun k w => P k = Some w) (zrange K) xs.
Proof.
  intros H. assert (G : forall l, (forall k, In k l -> 0 <= k < K) ->
    exists xs, Forall2 (fun k w => zget nums (f k) = Some w) l xs /\ Forall2 (fun k w => P k = Some w) l xs).
  { induction l; intros Hl; [exists []; split; constructor|].
    destruct IHl as (xs & A & B); [intros; apply Hl; now right|].
    destruct (H a) as (E & w & Ew); [apply Hl; now left|]. exists (w :: xs).
    split; constructor; auto. congruence. }
  apply G. intros k. now rewrite zrange_In.
Qed.

Lemma matMul_spec (zero : W) (add mul : W -> W -> W) (l r : elements W) lb rb vl vr M K N c dl dr :
  const junk l (lb ++ opt_axis vl M ++ [K]) dl ->
  const junk r (rb ++ [K] ++ opt_axis vr N) dr ->
  (vl = true -> lb = [] /\ M = 1) -> (vr = true -> rb = [] /\ N = 1) ->
  getBroadcastedShape lb rb = Some c ->
  let rsh := c ++ opt_axis vl M ++ opt_axis vr N in
  exists e out, matMul junk zero add mul l r = Some e /\ const junk e rsh out /\
    forall b i j, valid c b -> valid (opt_axis vl M) i -> valid (opt_axis vr N) j ->
      exists xs ys,
        Forall2 (fun k w => elem (lb ++ opt_axis vl M ++ [K]) dl (bsel lb b ++ i ++ [k]) = Some w) (zrange K) xs /\
        Forall2 (fun k w => elem (rb ++ [K] ++ opt_axis vr N) dr (bsel rb b ++ [k] ++ j) = Some w) (zrange K) ys /\
        elem rsh out (b ++ i ++ j) = Some (fold_left add (map2 mul xs ys) zero).
Proof.
  intros Cl Cr HVl HVr HC rsh.
  destruct (const_data _ _ _ _ Cl) as [Ol Dl]. destruct (const_data _ _ _ _ Cr) as [Or Dr].
  assert (C1 := Cl). assert (C2 := Cr). apply const_iff in C1 as (Wl & Sl & Rl), C2 as (Wr & Sr & Rr).
  assert (Olb : okshape lb) by (apply Forall_app in Ol; tauto).
  assert (Orb : okshape rb) by (apply Forall_app in Or; tauto).
  assert (HK : 0 <= K).
  { apply Forall_app in Ol as [_ Ol]. apply Forall_app in Ol as [_ Ol]. now inversion Ol. }
  assert (HM : 0 <= M).
  { destruct vl; [destruct HVl; auto; lia|]. apply Forall_app in Ol as [_ Ol]. now inversion Ol. }
  assert (HN : 0 <= N).
  { destruct vr; [destruct HVr; auto; lia|]. apply Forall_app in Or as [_ Or]. inversion Or as [|? ? ? Or']. now inversion Or'. }
  destruct (getBroadcastedShape_spec _ _ _ HC Olb Orb) as (Oc & Bl & Br).
  destruct (lhs_spec l lb vl M K c Wl Sl) as (ln & lst & lstep & EL & LL & GL); auto.
  { intros ->. now destruct HVl. }
  destruct (rhs_spec r rb vr N K c Wr Sr) as (rn & rst & rstep & ER & LR & GR); auto.
  { intros ->. now destruct HVr. }
  assert (OkM : okshape (c ++ [M; N])) by (apply Forall_app; split; auto; repeat constructor; auto).
  assert (OkR : okshape rsh).
  { unfold rsh, okshape. rewrite !Forall_app. split; auto. split; [destruct vl|destruct vr]; simpl; repeat constructor; auto. }
  assert (SZ : size (c ++ [M; N]) = size rsh).
  { unfold rsh. rewrite !size_app, !size_cons, size_nil.
    destruct vl, vr; cbn [opt_axis]; rewrite ?size_cons, ?size_nil; try rewrite (proj2 (HVl eq_refl)); try rewrite (proj2 (HVr eq_refl)); ring. }
  set (row := fun b i k => den l (bsel lb b ++ opt_axis vl i ++ [k])).
  set (col := fun b j k => den r (bsel rb b ++ [k] ++ opt_axis vr j)).
  (* per-element result *)
  assert (EL1 : forall b i j, valid c b -> 0 <= i < M -> 0 <= j < N -> exists xs ys,
     Forall2 (fun k w => row b i k = Some w) (zrange K) xs /\
     Forall2 (fun k w => col b j k = Some w) (zrange K) ys /\
     exists lp' rp', foldM (fun _ (st : W * Z * Z) =>
           let '(acc, lp, rp) := st in
           x <- zget ln lp ;; y <- zget rn rp ;;
           Some (add acc (mul x y), lp + lstep, rp + rstep)) (zrange K) (zero, pos (b ++ [i; j]) lst, pos (b ++ [i; j]) rst) =
       Some (fold_left add (map2 mul xs ys) zero, lp', rp')).
  { intros b i j Vb Hi Hj.
    destruct (read_list ln (fun k => pos (b ++ [i; j]) lst + k * lstep) K (row b i)) as (xs & X1 & X2).
    { intros k Hk. split; [apply GL; auto|]. apply den_some; auto. rewrite Sl.
      apply valid_app. { apply valid_length. eapply bsel_valid; eauto. }
      split; [eapply bsel_valid; eauto|]. destruct vl; simpl; repeat constructor; lia. }
    destruct (read_list rn (fun k => pos (b ++ [i; j]) rst + k * rstep) K (col b j)) as (ys & Y1 & Y2).
    { intros k Hk. split; [apply GR; auto|]. apply den_some; auto. rewrite Sr.
      apply valid_app. { apply valid_length. eapply bsel_valid; eauto. }
      split; [eapply bsel_valid; eauto|]. destruct vr; simpl; repeat constructor; lia. }
    exists xs, ys. split; auto. split; auto. unfold zrange in *. apply dot_loop.
    - clear X2 Y1 Y2. revert X1. generalize (zseq 0 (Z.to_nat K)). intros ks X1. induction X1; constructor; auto.
      rewrite <- H. f_equal. ring.
    - clear Y2 X1 X2. revert Y1. generalize (zseq 0 (Z.to_nat K)). intros ks Y1. induction Y1; constructor; auto.
      rewrite <- H. f_equal. ring. }
  (* run the outer loop *)
  assert (EQM : matMul junk zero add mul l r =
    fromWideNums junk rsh (fun dst =>
        foldM (fun it d =>
          v <- (acc <- foldM (fun _ (st : W * Z * Z) =>
                   let '(acc, lp, rp) := st in
                   x <- zget ln lp ;; y <- zget rn rp ;;
                   Some (add acc (mul x y), lp + lstep, rp + rstep))
                 (zrange K) (zero, off it 0, off it 1) ;;
                Some (fst (fst acc))) ;;
          zset d (flattenedIndex it) v)
        (StridesRange (c ++ [M; N]) [lst; rst]) dst)).
  { assert (LRK : (length (e_shape l) =? 1)%nat = vl /\ (length (e_shape l) =? 0)%nat = false /\
      (if vl then 1 else nth (length (e_shape l) - 2) (e_shape l) 0) = M /\
      nth (length (e_shape l) - 1) (e_shape l) 0 = K /\
      drop_back (if vl then 1 else 2) (e_shape l) = lb).
    { rewrite Sl. destruct vl; simpl opt_axis; cbn [app].
      - destruct HVl as [-> ->]; auto.
      - rewrite nth_last2, nth_last1, drop_back2. rewrite app_length. cbn [length].
        repeat split; auto; apply Nat.eqb_neq; lia. }
    assert (RRK : (length (e_shape r) =? 1)%nat = vr /\ (length (e_shape r) =? 0)%nat = false /\
      (if vr then 1 else nth (length (e_shape r) - 1) (e_shape r) 0) = N /\
      nth (if vr then 0 else length (e_shape r) - 2)%nat (e_shape r) 0 = K /\
      drop_back (if vr then 1 else 2) (e_shape r) = rb).
    { rewrite Sr. destruct vr; simpl opt_axis; cbn [app].
      - destruct HVr as [-> ->]; auto.
      - rewrite nth_last2, nth_last1, drop_back2. rewrite app_length. cbn [length].
        repeat split; auto; apply Nat.eqb_neq; lia. }
    destruct LRK as (L1 & L2 & L3 & L4 & L5), RRK as (R1 & R2 & R3 & R4 & R5).
    unfold matMul. rewrite L1, L2, R1, R2. cbn [orb]. rewrite L3, L4, R3, R4, L5, R5, Z.eqb_refl. cbn [negb].
    rewrite HC. cbn [obind]. rewrite EL, ER. cbn [obind]. reflexivity. }
  rewrite EQM. clear EQM.
  destruct (fill_range (c ++ [M; N]) [lst; rst]
    (fun it => acc <- foldM (fun _ (st : W * Z * Z) =>
                   let '(acc, lp, rp) := st in
                   x <- zget ln lp ;; y <- zget rn rp ;;
                   Some (add acc (mul x y), lp + lstep, rp + rstep))
                 (zrange K) (zero, off it 0, off it 1) ;;
                Some (fst (fst acc)))
    (fun k => match (acc <- foldM (fun _ (st : W * Z * Z) =>
                   let '(acc, lp, rp) := st in
                   x <- zget ln lp ;; y <- zget rn rp ;;
                   Some (add acc (mul x y), lp + lstep, rp + rstep))
                 (zrange K) (zero, pos (unrm (c ++ [M; N]) k) lst, pos (unrm (c ++ [M; N]) k) rst) ;;
                Some (fst (fst acc))) with Some v => v | None => junk end) (alloc junk rsh)) as (d & E & D & G); auto.
  { assert (LEN : length (c ++ [M; N]) = (length c + 2)%nat) by (rewrite app_length; auto).
    unfold all_len. rewrite LEN. repeat constructor; auto. }
  { unfold is_data. rewrite SZ. now apply alloc_is_data. }
  { intros k Hk. unfold off, mk_item. cbn [offsets map nth].
    destruct (unrm_spec (c ++ [M; N]) k OkM Hk) as [V _].
    apply valid_last2 in V as (b & i & j & EV & Vb & Hi & Hj). rewrite EV.
    destruct (EL1 b i j Vb Hi Hj) as (xs & ys & _ & _ & lp' & rp' & F). rewrite F. reflexivity. }
  match goal with |- context [fromWideNums junk ?S ?F] => rewrite (fromWideNums_spec junk S F d E) end.
  assert (DO : is_data rsh d) by (unfold is_data in *; rewrite <- SZ; auto).
  destruct (fresh_wf _ d OkR DO) as [F1 F2].
  eexists _, d. split; [reflexivity|]. split; [apply const_iff; auto|].
  intros b i j Vb Vi Vj.
  (* scalar coordinates *)
  assert (XI : exists i0, i = opt_axis vl i0 /\ 0 <= i0 < M).
  { destruct vl; cbn [opt_axis] in Vi; inversion Vi as [|? x ? ? Hx V']; subst.
    - exists 0. rewrite (proj2 (HVl eq_refl)). split; auto; lia.
    - inversion V'; subst. exists x. auto. }
  assert (XJ : exists j0, j = opt_axis vr j0 /\ 0 <= j0 < N).
  { destruct vr; cbn [opt_axis] in Vj; inversion Vj as [|? x ? ? Hx V']; subst.
    - exists 0. rewrite (proj2 (HVr eq_refl)). split; auto; lia.
    - inversion V'; subst. exists x. auto. }
  destruct XI as (i0 & -> & Hi), XJ as (j0 & -> & Hj).
  destruct (EL1 b i0 j0 Vb Hi Hj) as (xs & ys & X & Y & lp' & rp' & F).
  assert (VBl := bsel_valid _ _ _ Bl Vb). assert (VBr := bsel_valid _ _ _ Br Vb).
  exists xs, ys. split; [|split].
  - clear - X Cl VBl Vi. unfold row in X.
    assert (HKs : forall k, In k (zrange K) -> 0 <= k < K) by (intros; now apply zrange_In).
    induction X; constructor; auto.
    + rewrite (const_elem _ _ _ _ _ Cl); auto. apply valid_app; [now apply valid_length|]. split; auto.
      apply valid_app; [now apply valid_length|]. split; auto. repeat constructor; apply HKs; now left.
    + apply IHX. intros; apply HKs; now right.
  - clear - Y Cr VBr Vj. unfold col in Y.
    assert (HKs : forall k, In k (zrange K) -> 0 <= k < K) by (intros; now apply zrange_In).
    induction Y; constructor; auto.
    + rewrite (const_elem _ _ _ _ _ Cr); auto. apply valid_app; [now apply valid_length|]. split; auto.
      constructor; auto. apply HKs; now left.
    + apply IHY. intros; apply HKs; now right.
  - assert (VM : valid (c ++ [M; N]) (b ++ [i0; j0])).
    { apply valid_app; [now apply valid_length|]. split; auto. repeat constructor; lia. }
    assert (VR : valid rsh (b ++ opt_axis vl i0 ++ opt_axis vr j0)).
    { apply valid_app; [now apply valid_length|]. split; auto. apply valid_app; [now apply valid_length|]. auto. }
    assert (RM : rm rsh (b ++ opt_axis vl i0 ++ opt_axis vr j0) = rm (c ++ [M; N]) (b ++ [i0; j0])).
    { unfold rsh. rewrite !rm_app by (now apply valid_length). rewrite !size_app, !size_cons, size_nil.
      destruct vl, vr; cbn [opt_axis rm]; rewrite ?size_cons, ?size_nil;
        try pose proof (proj2 (HVl eq_refl)) as EM; try pose proof (proj2 (HVr eq_refl)) as EN;
        try (assert (i0 = 0) by lia; subst i0); try (assert (j0 = 0) by lia; subst j0);
        try rewrite EM; try rewrite EN; ring. }
    rewrite elem_rm by auto. rewrite RM, G by (now apply rm_bound). rewrite unrm_rm by auto. rewrite F. reflexivity.
Qed.
End MatMul.

(** ** NonZero and Range *)
Section NonZero.
Context {W : Type}.
Variable junk : W.

Lemma nonZeroIndices_spec (isZero : W -> bool) e s data : const junk e s data ->
  nonZeroIndices isZero e =
  Some (List.concat (filter (fun idx => match elem s data idx with Some w => negb (isZero w) | None => false end) (indices s))).
Proof.
  intros C. destruct (const_data _ _ _ _ C) as [Ok D]. assert (C' := C). apply const_iff in C' as (We & Se & _).
  unfold nonZeroIndices. rewrite Se, range_explicit by (auto; constructor).
  rewrite foldM_map, indices_unrm by auto. unfold zrange.
  assert (GEN : forall n a acc, 0 <= a -> a + Z.of_nat n <= size s ->
    foldM (fun k acc => v <- atFlatIndex e (flattenedIndex (mk_item [] s k)) ;;
        Some (if isZero v then acc else acc ++ it_index (mk_item [] s k))) (zseq a n) acc =
    Some (acc ++ List.concat (filter (fun idx => match elem s data idx with Some w => negb (isZero w) | None => false end)
            (map (unrm s) (zseq a n))))).
  { induction n; intros a acc Ha Hn; cbn [zseq map foldM filter List.concat].
    - now rewrite app_nil_r.
    - unfold mk_item. cbn [flattenedIndex it_index]. rewrite (atFlat_correct junk e s data) by (auto; lia).
      destruct (unrm_spec s a Ok) as [V E]; [lia|]. rewrite elem_rm, E by auto.
      destruct (zget_some data a) as (w & Ew). { rewrite D. lia. }
      rewrite Ew. cbn [obind]. rewrite IHn by lia. destruct (isZero w); cbn [negb List.concat]; auto.
      now rewrite <- app_assoc. }
  rewrite GEN; auto; try lia. pose proof (size_nonneg _ Ok). lia.
Qed.

Lemma concat_uniform {A} (l : list (list A)) n : Forall (fun x => length x = n) l ->
  length (List.concat l) = (length l * n)%nat.
Proof. induction 1; simpl; auto. rewrite app_length. lia. Qed.

Lemma concat_uniform_nth {A} (l : list (list A)) n q x k : Forall (fun x => length x = n) l ->
  nth_error l q = Some x -> (k < n)%nat -> nth_error (List.concat l) (q * n + k) = nth_error x k.
Proof.
  intros H; revert q; induction H as [|y l Hy HF IH]; intros [|q] E Hk; try discriminate; simpl in *.
  - injection E as ->. apply nth_error_app1. lia.
  - rewrite nth_error_app2 by lia. replace (n + q * n + k - length y)%nat with (q * n + k)%nat by lia. auto.
Qed.

Lemma inner_fill (ind : list Z) rank count i : 0 <= rank -> 0 <= i < count ->
  Z.of_nat (length ind) = count * rank ->
  forall n a (d : list Z), 0 <= a -> a + Z.of_nat n <= rank -> Z.of_nat (length d) = rank * count ->
  exists d', foldM (fun j d => v <- zget ind (i * rank + j) ;; zset d (j * count + i) v) (zseq a n) d = Some d' /\
    length d' = length d /\
    (forall j i', 0 <= j < rank -> 0 <= i' < count ->
       zget d' (j * count + i') = if (i' =? i) && (a <=? j) && (j <? a + Z.of_nat n) then zget ind (i * rank + j)
                                  else zget d (j * count + i')).
Proof.
  intros Hr Hi HL. induction n; intros a d Ha Hn Ld.
  - exists d. split; auto. split; auto. intros j i' Hj Hi'.
    destruct (Z.eqb_spec i' i), (Z.leb_spec a j), (Z.ltb_spec j (a + Z.of_nat 0)); cbn [andb]; auto; lia.
  - cbn [zseq foldM]. destruct (zget_some ind (i * rank + a)) as (v & Ev); [nia|]. rewrite Ev. cbn [obind].
    rewrite zset_some by nia. cbn [obind].
    destruct (IHn (a + 1) (upd (Z.to_nat (a * count + i)) v d)) as (d' & E & L & G); try lia.
    { rewrite upd_length. auto. }
    exists d'. split; auto. rewrite upd_length in L. split; auto. intros j i' Hj Hi'.
    rewrite G by auto. rewrite zget_upd by nia.
    destruct (Z.eqb_spec i' i), (Z.leb_spec (a + 1) j), (Z.ltb_spec j (a + 1 + Z.of_nat n)),
      (Z.leb_spec a j), (Z.ltb_spec j (a + Z.of_nat (S n))), (Z.eqb_spec (j * count + i') (a * count + i));
      cbn [andb]; auto; try lia; try (exfalso; nia).
    + assert (j = a) by lia. subst. auto.
Qed.

Lemma nonZero_spec (isZero : W -> bool) e s data : const junk e s data -> s <> [] ->
  let found := filter (fun idx => match elem s data idx with Some w => negb (isZero w) | None => false end) (indices s) in
  exists out, nonZero isZero e = Some ([Z.of_nat (length s); Z.of_nat (length found)], out) /\
    is_data [Z.of_nat (length s); Z.of_nat (length found)] out /\
    forall j i idx, nth_error found i = Some idx -> (j < length s)%nat ->
      elem [Z.of_nat (length s); Z.of_nat (length found)] out [Z.of_nat j; Z.of_nat i] = Some (nth j idx 0).
Proof.
  intros C NE found. destruct (const_data _ _ _ _ C) as [Ok D]. assert (C' := C). apply const_iff in C' as (We & Se & _).
  unfold nonZero. rewrite (nonZeroIndices_spec isZero e s data C). cbn [obind]. fold found. rewrite Se.
  assert (FU : Forall (fun x => length x = length s) found).
  { apply Forall_forall. intros x Hx. apply filter_In in Hx as [Hx _]. apply indices_valid in Hx; auto.
    symmetry. now apply valid_length. }
  assert (LC := concat_uniform _ _ FU).
  assert (RP : (0 < length s)%nat) by (destruct s; [congruence|simpl; lia]).
  destruct (Z.eqb_spec (Z.of_nat (length s)) 0) as [|NZ]; [lia|]. rewrite LC.
  set (rank := Z.of_nat (length s)) in *. set (count := Z.of_nat (length found)).
  replace (Z.of_nat (length found * length s)) with (count * rank) by (unfold count, rank; lia).
  rewrite Z_mod_mult, Z_div_mult by lia. cbn [Z.eqb negb].
  set (ind := List.concat found) in *.
  assert (LI : Z.of_nat (length ind) = count * rank) by (rewrite LC; unfold count, rank; lia).
  assert (OUT : forall n a (d : list Z), 0 <= a -> a + Z.of_nat n <= count -> Z.of_nat (length d) = rank * count ->
    exists d', foldM (fun i d => foldM (fun j d => v <- zget ind (i * rank + j) ;; zset d (j * count + i) v) (zrange rank) d)
                 (zseq a n) d = Some d' /\ length d' = length d /\
      forall j i', 0 <= j < rank -> 0 <= i' < count ->
        zget d' (j * count + i') = if (a <=? i') && (i' <? a + Z.of_nat n) then zget ind (i' * rank + j) else zget d (j * count + i')).
  { induction n; intros a d Ha Hn Ld.
    - exists d. split; auto. split; auto. intros j i' Hj Hi'.
      destruct (Z.leb_spec a i'), (Z.ltb_spec i' (a + Z.of_nat 0)); cbn [andb]; auto; lia.
    - cbn [zseq foldM]. unfold zrange at 1.
      destruct (inner_fill ind rank count a) with (n := Z.to_nat rank) (a := 0) (d := d) as (d1 & E1 & L1 & G1); try lia.
      rewrite E1. cbn [obind].
      destruct (IHn (a + 1) d1) as (d' & E & L & G); try lia.
      exists d'. split; auto. split; [lia|]. intros j i' Hj Hi'. rewrite G, G1 by auto.
      destruct (Z.leb_spec (a + 1) i'), (Z.ltb_spec i' (a + 1 + Z.of_nat n)), (Z.leb_spec a i'),
        (Z.ltb_spec i' (a + Z.of_nat (S n))), (Z.eqb_spec i' a), (Z.leb_spec 0 j), (Z.ltb_spec j (0 + Z.of_nat (Z.to_nat rank)));
        cbn [andb]; auto; try lia. subst. auto. }
  destruct (OUT (Z.to_nat count) 0 (repeat 0 (Z.to_nat (rank * count)))) as (d & E & L & G); try lia.
  { rewrite repeat_length. unfold rank, count. nia. }
  unfold zrange at 2. rewrite E. cbn [obind]. rewrite repeat_length in L.
  exists d. split; auto. split.
  - unfold is_data. rewrite !size_cons, size_nil. rewrite L. unfold rank, count. nia.
  - intros j i idx EI Hj. assert (i < length found)%nat by (apply nth_error_Some; congruence).
    unfold elem, rowmajor. cbn [rm_acc].
    replace ((0 * rank + Z.of_nat j) * count + Z.of_nat i) with (Z.of_nat j * count + Z.of_nat i) by lia.
    rewrite G by (unfold rank, count; lia).
    destruct (Z.leb_spec 0 (Z.of_nat i)), (Z.ltb_spec (Z.of_nat i) (0 + Z.of_nat (Z.to_nat count))); cbn [andb];
      try (unfold count in *; lia).
    rewrite zget_spec by (unfold rank; lia).
    replace (Z.to_nat (Z.of_nat i * rank + Z.of_nat j)) with (i * length s + j)%nat by (unfold rank; lia).
    unfold ind. rewrite (concat_uniform_nth _ _ _ _ _ FU EI Hj).
    apply nth_error_nth'. rewrite Forall_forall in FU. rewrite (FU idx); auto. eapply nth_error_In; eauto.
Qed.

Lemma range_loop_spec (add : W -> W -> W) delta n : forall x k, (k < n)%nat ->
  nth_error (range_loop add delta x n) k = Some (Nat.iter k (fun y => add y delta) x).
Proof.
  induction n; intros x k Hk; [lia|]. destruct k; cbn [range_loop nth_error]; auto.
  rewrite IHn by lia. f_equal. clear. induction k; simpl; auto. f_equal. auto.
Qed.

Lemma range_loop_length (add : W -> W -> W) delta n x : length (range_loop add delta x n) = n.
Proof. revert x; induction n; simpl; auto. Qed.

Lemma range_spec (add : W -> W -> W) n start delta : 0 <= n ->
  exists e out, range junk add [n] start delta = Some e /\ const junk e [n] out /\
    forall k, 0 <= k < n -> elem [n] out [k] = Some (Nat.iter (Z.to_nat k) (fun y => add y delta) start).
Proof.
  intros Hn. assert (Ok : okshape [n]) by (repeat constructor; auto).
  set (d := range_loop add delta start (Z.to_nat n)).
  assert (D : is_data [n] d).
  { unfold is_data, d. rewrite range_loop_length, size_cons, size_nil. lia. }
  destruct (fresh_wf _ d Ok D) as [F1 F2].
  eexists _, d. split; [|split; [apply const_iff; split; [exact F1|split; [reflexivity|exact F2]]|]].
  - unfold range. rewrite (fromWideNums_spec junk [n] _ d); auto. unfold d. do 2 f_equal.
    unfold alloc. rewrite repeat_length. unfold getNumElements. rewrite prodZ_cons. unfold prodZ. simpl. f_equal. lia.
  - intros k Hk. unfold elem, rowmajor. cbn [rm_acc]. replace (0 * n + k) with k by lia.
    rewrite zget_spec by lia. unfold d. apply range_loop_spec. lia.
Qed.
End NonZero.
