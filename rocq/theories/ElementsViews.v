(** Zero-copy views (transpose, expand, reshape, transform) and elementwise
    folding (combine, where, equal). *)
From Coq Require Import List ZArith Lia Bool Arith Permutation.
From Verif Require Import Util TensorSpec TensorLemmas StridesModel StridesProofs StridesReshape
  ElementsModel ElementsSpec ElementsBase.
Import ListNotations.
Open Scope Z_scope.

Section Views.
Context {W : Type}.
Implicit Types e : elements W.
Variable junk : W.

(** What every reader of a constant sees: shape [s], row-major content [data]. *)
Definition const e (s : shape) (data : list W) : Prop :=
  wf e /\ e_shape e = s /\ getWideNums junk e = Some data.

Lemma const_iff e s data : const e s data <-> wf e /\ e_shape e = s /\ repr e data.
Proof.
  split; intros (H & <- & G); (split; [auto|split; [auto|]]);
    destruct (getWideNums_repr junk e H) as (d & E & R).
  - rewrite E in G. injection G as <-. auto.
  - rewrite E. f_equal. eapply repr_unique; eauto. apply (wf_ok _ H).
Qed.

Lemma const_elem e s data idx : const e s data -> valid s idx -> elem s data idx = den e idx.
Proof. intros (H & <- & [D E])%const_iff V. now apply E. Qed.

Lemma const_data e s data : const e s data -> okshape s /\ is_data s data.
Proof. intros (H & <- & [D E])%const_iff. split; auto. apply (wf_ok _ H). Qed.

(** Constants given by a denotation. *)
Lemma wf_const e s : wf e -> e_shape e = s ->
  exists data, const e s data /\ is_data s data /\ forall idx, valid s idx -> elem s data idx = den e idx.
Proof.
  intros H <-. destruct (getWideNums_repr junk e H) as (d & E & R).
  exists d. split; [apply const_iff; auto|]. apply R.
Qed.

(** ** Readers *)
Lemma read_any e s data dst : const e s data -> is_data s dst -> readWideNums e dst = Some data.
Proof.
  intros (H & <- & R)%const_iff D. destruct (readWideNums_repr e dst H D) as (d & E & R2).
  rewrite E. f_equal. eapply repr_unique; eauto. apply (wf_ok _ H).
Qed.

Lemma splat_zero st : areStridesSplat st = true -> st = repeat 0 (length st).
Proof.
  unfold areStridesSplat. induction st; cbn [forallb length repeat]; intros H; auto.
  apply andb_true_iff in H as [E H]. apply Z.eqb_eq in E. subst. f_equal; auto.
Qed.

Lemma isSplat_pos e idx : isSplat e = true -> pos idx (e_strides e) = 0.
Proof.
  unfold isSplat. intros H. apply andb_true_iff in H as [H _].
  rewrite (splat_zero _ H). apply pos_repeat0.
Qed.

Lemma splat_den e idx : isSplat e = true -> den e idx = splatValue e.
Proof. intros H. rewrite den_wide, (isSplat_pos _ _ H). auto. Qed.

Lemma isSplat_some e : isSplat e = true -> exists v, splatValue e = Some v.
Proof.
  unfold isSplat. intros H. apply andb_true_iff in H as [_ H].
  apply zget_some. rewrite bufferAsWideNums_length. destruct (e_buf e); simpl in *; [discriminate|lia].
Qed.

Lemma atFlat_correct e s data k : const e s data -> 0 <= k < size s -> atFlatIndex e k = zget data k.
Proof.
  intros (H & <- & R)%const_iff Hk. assert (Ok := wf_ok _ H).
  rewrite <- (repr_zget e data k Ok R Hk), den_wide. unfold atFlatIndex, flatIndexToBufferPos.
  destruct (unrm_spec (e_shape e) k Ok Hk) as [V E].
  destruct (Z.eqb_spec k 0); cbn [orb].
  - cbn [obind]. f_equal. subst k. clear - H Ok V E.
    assert (unrm (e_shape e) 0 = repeat 0 (length (e_shape e))) as ->.
    { clear. induction (e_shape e); cbn [unrm length repeat]; auto.
      rewrite Zdiv_0_l, Zmod_0_l. f_equal; auto. }
    now rewrite pos_repeat0_l.
  - destruct (areStridesContiguous (e_shape e) (e_strides e)) eqn:EC.
    + cbn [obind]. apply contiguous_iff in EC; [|symmetry; apply (wf_len _ H)].
      rewrite EC, default_pos, E; auto.
    + destruct (isSplat e) eqn:ES.
      * cbn [obind]. now rewrite isSplat_pos.
      * rewrite unflatten_correct by auto. reflexivity.
Qed.

(** ** transform *)
Lemma applyT_compose t (f : W -> W) w : applyT (composeTransforms t f) w = f (applyT t w).
Proof. destruct t; reflexivity. Qed.

Lemma transform_wf e f : wf e -> wf (transform e f).
Proof. intros []; constructor; auto. Qed.

Lemma transform_den e f idx : den (transform e f) idx = option_map f (den e idx).
Proof.
  unfold den. simpl. destruct (zget (e_buf e) _); simpl; auto. now rewrite applyT_compose.
Qed.

(** ** transpose *)
Lemma isIdentity_spec perm : isIdentityPermutation perm = true -> perm = seq 0 (length perm).
Proof.
  unfold isIdentityPermutation. generalize 0%nat. induction perm; simpl; intros n H; auto.
  apply andb_true_iff in H as [E H]. apply Nat.eqb_eq in E. simpl in E. subst. f_equal. auto.
Qed.

Lemma transposeDims_seq l : transposeDims l (seq 0 (length l)) = l.
Proof.
  unfold transposeDims. induction l; simpl; auto. f_equal. rewrite <- seq_shift, map_map. auto.
Qed.

Lemma transpose_eq e perm : wf e -> is_perm (length (e_shape e)) perm ->
  transpose e perm = Elements (transposeDims (e_shape e) perm) (transposeDims (e_strides e) perm)
    (e_buf e) (e_tr e).
Proof.
  intros H HP. unfold transpose. destruct (isIdentityPermutation perm) eqn:EI; auto.
  apply isIdentity_spec in EI. pose proof (is_perm_length _ _ HP) as HL.
  rewrite EI, HL. rewrite transposeDims_seq.
  rewrite <- (wf_len _ H), transposeDims_seq. destruct e; auto.
Qed.

Lemma Forall_transpose (P : Z -> Prop) l perm : is_perm (length l) perm -> Forall P l -> Forall P (transposeDims l perm).
Proof.
  intros HP%is_perm_bound HF. unfold transposeDims. apply Forall_map.
  eapply Forall_impl; [|exact HP]. simpl. intros p Hp. rewrite Forall_nth in HF. apply HF. auto.
Qed.

Lemma Forall2_nth' {A B} (R : A -> B -> Prop) (l : list A) (m : list B) da db k :
  Forall2 R l m -> (k < length l)%nat -> R (nth k l da) (nth k m db).
Proof.
  intros H; revert k; induction H; simpl; intros; [lia|]. destruct k; auto. apply IHForall2. lia.
Qed.

Lemma Forall2_transpose (R : Z -> Z -> Prop) l m perm : is_perm (length l) perm ->
  Forall2 R l m -> Forall2 R (transposeDims l perm) (transposeDims m perm).
Proof.
  intros HP%is_perm_bound HF. unfold transposeDims. induction HP; simpl; constructor; auto.
  apply Forall2_nth'; auto.
Qed.

Lemma transpose_wf e perm : wf e -> is_perm (length (e_shape e)) perm -> wf (transpose e perm).
Proof.
  intros H HP. rewrite transpose_eq by auto. assert (HL := wf_len _ H).
  assert (HP' : is_perm (length (e_strides e)) perm) by now rewrite HL.
  constructor; simpl.
  - now rewrite !transposeDims_length.
  - apply Forall_transpose; auto. apply (wf_ok _ H).
  - apply Forall2_transpose; auto. apply (wf_unit _ H).
  - apply Forall_transpose; auto. apply (wf_nonneg _ H).
  - intros j V. rewrite <- (transpose_untranspose (length (e_shape e)) j perm).
    + rewrite pos_transpose; auto.
      * apply (wf_bounds _ H). eapply untranspose_valid; eauto.
      * rewrite untranspose_length. apply is_perm_length in HP. lia.
    + auto.
    + apply valid_length in V. rewrite transposeDims_length in V.
      apply is_perm_length in HP. lia.
  - intros Hs p Hp. rewrite transpose_size in Hs by auto.
    destruct (wf_cover _ H Hs p Hp) as (idx & V & E).
    exists (transposeDims idx perm). split; [now apply transpose_valid|].
    rewrite pos_transpose; auto. apply valid_length in V. lia.
  - rewrite transpose_size by auto. intros E NE.
    apply Forall2_transpose; auto. apply (wf_empty _ H E NE).
Qed.

Lemma transpose_den e perm idx : wf e -> is_perm (length (e_shape e)) perm -> valid (e_shape e) idx ->
  den (transpose e perm) (transposeDims idx perm) = den e idx.
Proof.
  intros H HP V. rewrite transpose_eq by auto. unfold den; simpl.
  rewrite pos_transpose; auto.
  - now rewrite (wf_len _ H).
  - rewrite (wf_len _ H). apply valid_length in V. auto.
Qed.

(** ** expand *)
Lemma bsel_valid s t idx : broadcastable s t -> valid t idx -> valid s (bsel s idx).
Proof.
  intros [HL HB] V. unfold bsel. rewrite <- (valid_length _ _ V).
  assert (V2 : valid (skipn (length t - length s) t) (skipn (length t - length s) idx)).
  { rewrite <- (firstn_skipn (length t - length s) t) in V at 1.
    rewrite <- (firstn_skipn (length t - length s) idx) in V.
    apply valid_app in V; [tauto|]. rewrite !firstn_length.
    apply f_equal. rewrite <- (firstn_skipn (length t - length s) t) at 1.
    pose proof (valid_length _ _ V) as VL. rewrite !app_length, !firstn_length, !skipn_length in VL.
    rewrite app_length, !firstn_length, !skipn_length. lia. }
  revert V2. generalize (skipn (length t - length s) idx). clear - HB.
  induction HB; intros l0 V; inversion V; subst; [constructor|]. cbn [map2].
  constructor; [|apply IHHB; auto]. destruct (Z.eqb_spec x 1); lia.
Qed.

Lemma bsel_pos s t st idx : broadcastable s t -> valid t idx -> length st = length s -> unit_zero s st ->
  pos idx (repeat 0 (length t - length s) ++ st) = pos (bsel s idx) st.
Proof.
  intros [HL HB] V HS HU. unfold bsel. pose proof (valid_length _ _ V) as VL.
  rewrite <- (firstn_skipn (length t - length s) idx) at 1.
  rewrite pos_app by (rewrite repeat_length, firstn_length; lia).
  rewrite pos_repeat0. rewrite <- VL. cbn [Z.add].
  assert (L2 : length (skipn (length t - length s) idx) = length s) by (rewrite skipn_length; lia).
  revert L2. generalize (skipn (length t - length s) idx). clear - HU.
  induction HU; intros [|i l0] L; simpl in L; try discriminate; auto.
  cbn [map2 getStridesPosition]. rewrite IHHU by lia. destruct (Z.eqb_spec x 1); auto.
  rewrite H by auto. lia.
Qed.

Lemma broadcastable_size s t : okshape s -> okshape t -> broadcastable s t -> 0 < size t -> 0 < size s.
Proof.
  intros Os Ot [HL HB] Hs.
  assert (Forall (fun d => 0 < d) s).
  { apply size_pos_of in Hs; auto.
    rewrite <- (firstn_skipn (length t - length s) t) in Hs. apply Forall_app in Hs as [_ Hs].
    clear - HB Hs. induction HB; [constructor|]. inversion Hs; subst. constructor; auto.
    destruct H; lia. }
  now apply prodZ_pos.
Qed.

(** Every source index is selected by some target index. *)
Lemma bsel_surj s t idx : okshape t -> broadcastable s t -> 0 < size t -> valid s idx ->
  exists j, valid t j /\ bsel s j = idx.
Proof.
  intros Ot [HL HB] Hs V. exists (repeat 0 (length t - length s) ++ idx).
  pose proof (valid_length _ _ V) as VL.
  apply size_pos_of in Hs; auto.
  split.
  - rewrite <- (firstn_skipn (length t - length s) t) at 1.
    rewrite <- (firstn_skipn (length t - length s) t) in Hs. apply Forall_app in Hs as [Hs1 Hs2].
    apply valid_app.
    + rewrite repeat_length, firstn_length. lia.
    + split.
      * assert (L : length (firstn (length t - length s) t) = (length t - length s)%nat)
          by (rewrite firstn_length; lia).
        rewrite <- L at 2. clear - Hs1. induction Hs1; simpl; constructor; auto. lia.
      * revert idx V VL. clear - HB Hs2.
        induction HB; intros idx V VL; inversion V; subst; inversion Hs2; subst; constructor; auto.
        -- destruct H; lia.
        -- apply IHHB; auto.
  - unfold bsel. rewrite app_length, repeat_length.
    replace (length t - length s + length idx - length s)%nat with (length t - length s)%nat by lia.
    rewrite skipn_app, repeat_length.
    rewrite skipn_all2 by (rewrite repeat_length; lia).
    rewrite Nat.sub_diag. simpl. clear - V. induction V; simpl; auto. f_equal; auto.
    destruct (Z.eqb_spec x 1); lia.
Qed.

Lemma expandStrides_some s t st : broadcastable s t -> length st = length s ->
  expandStrides st t = Some (repeat 0 (length t - length s) ++ st).
Proof.
  intros [HL _] HS. unfold expandStrides. rewrite HS.
  destruct (Nat.leb_spec (length s) (length t)); auto; lia.
Qed.

Lemma Forall2_app_l {A B} (R : A -> B -> Prop) l1 l2 m1 m2 :
  Forall2 R l1 m1 -> Forall2 R l2 m2 -> Forall2 R (l1 ++ l2) (m1 ++ m2).
Proof. intros. apply Forall2_app; auto. Qed.

Lemma Forall2_repeat0 (R : Z -> Z -> Prop) l n : length l = n -> (forall d, R d 0) -> Forall2 R l (repeat 0 n).
Proof. intros <- H. induction l; simpl; constructor; auto. Qed.

Lemma expand_wf e t st tr : wf e -> okshape t -> broadcastable (e_shape e) t ->
  expandStrides (e_strides e) t = Some st ->
  wf (Elements t st (e_buf e) tr).
Proof.
  intros H Ot HB HE. assert (HL := wf_len _ H).
  rewrite (expandStrides_some (e_shape e)) in HE by auto. injection HE as <-.
  assert (HB' := HB). destruct HB' as [Hle HB2].
  assert (Lf : length (firstn (length t - length (e_shape e)) t) = (length t - length (e_shape e))%nat)
    by (rewrite firstn_length; lia).
  constructor; simpl.
  - rewrite app_length, repeat_length. lia.
  - auto.
  - unfold unit_zero. rewrite <- (firstn_skipn (length t - length (e_shape e)) t) at 1.
    apply Forall2_app_l; [apply Forall2_repeat0; auto|].
    pose proof (wf_unit _ H) as HU. clear - HB2 HU. revert HB2. generalize (skipn (length t - length (e_shape e)) t).
    revert HU. generalize (e_shape e) (e_strides e). unfold unit_zero.
    induction 1; intros l0 HB; inversion HB; subst; constructor; auto.
    intros ->. apply H. destruct H2; auto.
  - apply Forall_app. split; [|apply (wf_nonneg _ H)].
    clear. induction (length t - length (e_shape e))%nat; simpl; constructor; auto. lia.
  - intros idx V. rewrite bsel_pos; auto; [|apply (wf_unit _ H)].
    apply (wf_bounds _ H). eapply bsel_valid; eauto.
  - intros Hs p Hp. destruct (wf_cover _ H) with (p := p) as (idx & V & E); auto.
    { eapply broadcastable_size; eauto. apply (wf_ok _ H). }
    destruct (bsel_surj (e_shape e) t idx) as (j & Vj & Ej); auto.
    exists j. split; auto. rewrite bsel_pos; auto; [|apply (wf_unit _ H)]. now rewrite Ej.
  - intros E0 NE.
    rewrite <- (firstn_skipn (length t - length (e_shape e)) t) at 1.
    apply Forall2_app_l; [apply Forall2_repeat0; auto|].
    pose proof (wf_ok _ H) as Ok. pose proof (wf_unit _ H) as HU.
    destruct (Z.eq_dec (size (e_shape e)) 0) as [Ez|Ez].
    + pose proof (wf_empty _ H Ez NE) as HE. clear - HB2 HU HE. unfold unit_zero in HU.
      revert HB2 HU. generalize (skipn (length t - length (e_shape e)) t).
      induction HE; intros l0 HB HU; inversion HB; inversion HU; subst; constructor; auto.
      intros ->. destruct H2; auto.
    + assert (HP : Forall (fun d => 0 < d) (e_shape e)).
      { apply size_pos_of; auto. pose proof (size_nonneg _ Ok). lia. }
      clear - HB2 HU HP. unfold unit_zero in HU.
      revert HB2 HU. generalize (skipn (length t - length (e_shape e)) t), (e_strides e).
      induction HP; intros l0 l1 HB HU; inversion HB; inversion HU; subst; try discriminate; constructor; auto.
      intros ->. match goal with Q : _ = 1 \/ _ = 0 |- _ => destruct Q; [auto|lia] end.
Qed.

Lemma expandAndTransform_spec e t f : wf e -> okshape t -> broadcastable (e_shape e) t ->
  exists e', expandAndTransform e t f = Some e' /\ e_shape e' = t /\ wf e' /\
    forall idx, valid t idx -> den e' idx = option_map f (den e (bsel (e_shape e) idx)).
Proof.
  intros H Ot HB. unfold expandAndTransform.
  pose proof (expandStrides_some _ _ _ HB (wf_len _ H)) as HE. rewrite HE. cbn [obind].
  eexists. split; [reflexivity|]. simpl. split; auto. split; [eapply expand_wf; eauto|].
  intros idx V. unfold den; simpl. rewrite bsel_pos; auto; [|apply (wf_len _ H)|apply (wf_unit _ H)].
  destruct (zget (e_buf e) _); simpl; auto. now rewrite applyT_compose.
Qed.

Lemma bsel_self s idx : valid s idx -> bsel s idx = idx.
Proof.
  intros V. unfold bsel. rewrite (valid_length _ _ V), Nat.sub_diag. simpl.
  induction V; simpl; auto. f_equal; auto. destruct (Z.eqb_spec x 1); lia.
Qed.

Lemma expand_spec e t : wf e -> okshape t -> broadcastable (e_shape e) t ->
  exists e', expand e t = Some e' /\ e_shape e' = t /\ wf e' /\
    forall idx, valid t idx -> den e' idx = den e (bsel (e_shape e) idx).
Proof.
  intros H Ot HB. unfold expand. destruct (list_eq_dec Z.eq_dec t (e_shape e)).
  - exists e. repeat (split; auto). intros idx V. subst. now rewrite bsel_self.
  - pose proof (expandStrides_some _ _ _ HB (wf_len _ H)) as HE. rewrite HE. cbn [obind].
    eexists. split; [reflexivity|]. simpl. split; auto. split; [eapply expand_wf; eauto|].
    intros idx V. unfold den; simpl. rewrite bsel_pos; auto; [apply (wf_len _ H)|apply (wf_unit _ H)].
Qed.

Lemma expanded_read e t l : wf e -> broadcastable (e_shape e) t ->
  getWideNumsAndExpandedStrides e t = Some l ->
  length (snd l) = length t /\
  forall idx, valid t idx -> zget (fst l) (pos idx (snd l)) = den e (bsel (e_shape e) idx).
Proof.
  intros H HB. unfold getWideNumsAndExpandedStrides.
  rewrite (expandStrides_some _ _ _ HB (wf_len _ H)). cbn [obind]. intros E. injection E as <-. simpl.
  split.
  - destruct HB as [HB _]. rewrite app_length, repeat_length, (wf_len _ H). lia.
  - intros idx V. rewrite den_wide, bsel_pos; auto; [apply (wf_len _ H)|apply (wf_unit _ H)].
Qed.

Lemma expanded_some e t : wf e -> broadcastable (e_shape e) t ->
  exists l, getWideNumsAndExpandedStrides e t = Some l.
Proof.
  intros H HB. unfold getWideNumsAndExpandedStrides.
  rewrite (expandStrides_some _ _ _ HB (wf_len _ H)). cbn [obind]. eauto.
Qed.

Definition lift2 (f : W -> W -> W) (a b : option W) : option W :=
  x <- a ;; y <- b ;; Some (f x y).

(** ** combine *)
Lemma combine_spec (l r : elements W) t f : wf l -> wf r -> okshape t ->
  broadcastable (e_shape l) t -> broadcastable (e_shape r) t ->
  exists e, combine2 junk l r t f = Some e /\ e_shape e = t /\ wf e /\
    forall idx, valid t idx ->
      den e idx = lift2 f (den l (bsel (e_shape l) idx)) (den r (bsel (e_shape r) idx)).
Proof.
  intros Hl Hr Ot Bl Br. unfold combine2.
  destruct (isSplat l) eqn:El; [|destruct (isSplat r) eqn:Er].
  - destruct (isSplat_some _ El) as (x & Ex). rewrite Ex. cbn [obind].
    destruct (expandAndTransform_spec r t (fun n => f x n) Hr Ot Br) as (e & E & S & We & D).
    exists e. repeat (split; auto). intros idx V. rewrite D by auto.
    rewrite (splat_den l) by auto. rewrite Ex. unfold lift2. simpl.
    destruct (den r _); auto.
  - destruct (isSplat_some _ Er) as (x & Ex). rewrite Ex. cbn [obind].
    destruct (expandAndTransform_spec l t (fun n => f n x) Hl Ot Bl) as (e & E & S & We & D).
    exists e. repeat (split; auto). intros idx V. rewrite D by auto.
    rewrite (splat_den r) by auto. rewrite Ex. unfold lift2. simpl.
    destruct (den l _); auto.
  - destruct (expanded_some _ _ Hl Bl) as (lp & ELp), (expanded_some _ _ Hr Br) as (rp & ERp).
    rewrite ELp, ERp. cbn [obind].
    destruct (expanded_read _ _ _ Hl Bl ELp) as [Ll Gl], (expanded_read _ _ _ Hr Br ERp) as [Lr Gr].
    destruct (fromWideNums_range junk t [snd lp; snd rp]
      (fun it => x <- zget (fst lp) (off it 0) ;; y <- zget (fst rp) (off it 1) ;; Some (f x y))
      (fun k => lift2 f (den l (bsel (e_shape l) (unrm t k))) (den r (bsel (e_shape r) (unrm t k)))))
      as (e & E & S & We & D); auto.
    + repeat constructor; auto.
    + intros k Hk. destruct (unrm_spec t k Ot Hk) as [V _].
      unfold off, mk_item. cbn [offsets map nth]. rewrite Gl, Gr by auto. split; auto.
      destruct (den_some l (bsel (e_shape l) (unrm t k))) as (v1 & ->); auto; [eapply bsel_valid; eauto|].
      destruct (den_some r (bsel (e_shape r) (unrm t k))) as (v2 & ->); auto; [eapply bsel_valid; eauto|].
      unfold lift2; simpl; eauto.
    + exists e. split; [exact E|]. split; auto. split; auto. intros idx V. rewrite D by auto.
      now rewrite unrm_rm.
Qed.

(** ** where *)
Lemma fill_inplace {A} s sts (f : item -> A -> option A) (g : Z -> A -> A) (dst : list A) :
  okshape s -> all_len (length s) sts -> is_data s dst ->
  (forall k x, 0 <= k < size s -> zget dst k = Some x -> f (mk_item sts s k) x = Some (g k x)) ->
  exists dst', foldM (fun it d => r <- zget d (flattenedIndex it) ;; v <- f it r ;;
                                  zset d (flattenedIndex it) v)
      (StridesRange s sts) dst = Some dst' /\
    is_data s dst' /\ (forall k, 0 <= k < size s -> zget dst' k = option_map (g k) (zget dst k)).
Proof.
  intros Ok HA HD Hf. rewrite range_explicit by auto. rewrite foldM_map. unfold zrange.
  pose proof (size_nonneg _ Ok) as Hn. unfold is_data in *.
  assert (forall n a (d : list A), 0 <= a -> a + Z.of_nat n = size s ->
    Z.of_nat (length d) = size s ->
    (forall k, a <= k < size s -> zget d k = zget dst k) ->
    exists dst', foldM (fun b d => r <- zget d (flattenedIndex (mk_item sts s b)) ;;
        v <- f (mk_item sts s b) r ;; zset d (flattenedIndex (mk_item sts s b)) v) (zseq a n) d = Some dst' /\
    Z.of_nat (length dst') = size s /\
    (forall k, 0 <= k < a -> zget dst' k = zget d k) /\
    (forall k, a <= k < size s -> zget dst' k = option_map (g k) (zget dst k))) as GEN.
  { induction n; intros a d Ha Hsz HL HS.
    - exists d. simpl. repeat (split; auto). intros; lia.
    - cbn [zseq foldM]. cbn [mk_item flattenedIndex].
      rewrite HS by lia. destruct (zget_some dst a) as (x & Ex); [lia|]. rewrite Ex. cbn [obind].
      change (Item a (unrm s a) (map (pos (unrm s a)) sts)) with (mk_item sts s a).
      rewrite (Hf a x) by (auto; lia). cbn [obind]. rewrite zset_some by lia. cbn [obind].
      destruct (IHn (a + 1) (upd (Z.to_nat a) (g a x) d)) as (d' & E & L & P1 & P2); try lia.
      + rewrite upd_length. auto.
      + intros k Hk. rewrite zget_upd by lia. destruct (Z.eqb_spec k a); [lia|]. apply HS. lia.
      + exists d'. split; [exact E|]. split; auto. split.
        * intros k Hk. rewrite P1 by lia. rewrite zget_upd by lia. destruct (Z.eqb_spec k a); auto; lia.
        * intros k Hk. destruct (Z.eq_dec k a).
          -- subst. rewrite P1 by lia. rewrite zget_upd by lia. rewrite Z.eqb_refl, Ex. auto.
          -- apply P2. lia. }
  destruct (GEN (Z.to_nat (size s)) 0 dst) as (d' & E & L & _ & P); try lia; auto.
  exists d'. split; [exact E|]. split; auto.
Qed.

Lemma where_spec truth (c l r : elements W) t : wf c -> wf l -> wf r -> okshape t ->
  broadcastable (e_shape c) t -> broadcastable (e_shape l) t -> broadcastable (e_shape r) t ->
  exists e, where_ junk truth c l r t = Some e /\ e_shape e = t /\ wf e /\
    forall idx, valid t idx ->
      den e idx = (b <- den c (bsel (e_shape c) idx) ;;
                   if truth b then den l (bsel (e_shape l) idx) else den r (bsel (e_shape r) idx)).
Proof.
  intros Hc Hl Hr Ot Bc Bl Br. unfold where_.
  destruct (isSplat c) eqn:Ec; [|destruct (isSplat l && isSplat r) eqn:Elr].
  - destruct (isSplat_some _ Ec) as (x & Ex). rewrite Ex. cbn [obind].
    destruct (truth x) eqn:Tx.
    + destruct (expand_spec l t Hl Ot Bl) as (e & E & S & We & D).
      exists e. repeat (split; auto). intros idx V. rewrite D by auto.
      rewrite (splat_den c), Ex by auto. simpl. now rewrite Tx.
    + destruct (expand_spec r t Hr Ot Br) as (e & E & S & We & D).
      exists e. repeat (split; auto). intros idx V. rewrite D by auto.
      rewrite (splat_den c), Ex by auto. simpl. now rewrite Tx.
  - apply andb_true_iff in Elr as [El Er].
    destruct (isSplat_some _ El) as (x & Ex), (isSplat_some _ Er) as (y & Ey).
    rewrite Ex, Ey. cbn [obind].
    destruct (expandAndTransform_spec c t (fun n => if truth n then x else y) Hc Ot Bc) as (e & E & S & We & D).
    exists e. repeat (split; auto). intros idx V. rewrite D by auto.
    rewrite (splat_den l), (splat_den r), Ex, Ey by auto.
    destruct (den c _); simpl; auto. destruct (truth w); auto.
  - destruct (expanded_some _ _ Hl Bl) as (lp & ELp), (expanded_some _ _ Hr Br) as (rp & ERp),
      (expanded_some _ _ Hc Bc) as (cp & ECp).
    rewrite ELp, ERp, ECp. cbn [obind].
    destruct (expanded_read _ _ _ Hl Bl ELp) as [Ll Gl], (expanded_read _ _ _ Hr Br ERp) as [Lr Gr],
      (expanded_read _ _ _ Hc Bc ECp) as [Lc Gc].
    destruct (restride_correct t (snd cp) (fst cp) (alloc junk t)) as (d1 & E1 & D1 & G1); auto.
    { now apply alloc_is_data. }
    { intros idx V. destruct (den_some c (bsel (e_shape c) idx)) as (v & Ev); [auto|eapply bsel_valid; eauto|].
      rewrite <- Gc in Ev by auto. now apply zget_inv in Ev. }
    destruct (fill_inplace t [snd lp; snd rp]
      (fun it res => if truth res then zget (fst lp) (off it 0) else zget (fst rp) (off it 1))
      (fun k res => match (if truth res then den l (bsel (e_shape l) (unrm t k)) else den r (bsel (e_shape r) (unrm t k))) with
                    Some v => v | None => junk end) d1)
      as (d2 & E2 & D2 & G2); auto.
    { repeat constructor; auto. }
    { intros k x Hk _. destruct (unrm_spec t k Ot Hk) as [V _].
      unfold off, mk_item. cbn [offsets map nth]. rewrite Gl, Gr by auto.
      destruct (den_some l (bsel (e_shape l) (unrm t k))) as (v1 & ->); auto; [eapply bsel_valid; eauto|].
      destruct (den_some r (bsel (e_shape r) (unrm t k))) as (v2 & ->); auto; [eapply bsel_valid; eauto|].
      destruct (truth x); auto. }
    match goal with |- context [fromWideNums junk t ?F] => rewrite (fromWideNums_spec junk t F d2) end.
    2:{ rewrite E1. cbn [obind]. exact E2. }
    destruct (fresh_wf t d2 Ot D2) as [F1 [F2 F3]].
    eexists; split; [reflexivity|]. simpl. split; auto. split; auto.
    intros idx V. rewrite <- F3 by auto. simpl. rewrite elem_rm by auto.
    rewrite G2 by (now apply rm_bound). rewrite <- elem_rm by auto. rewrite G1, Gc by auto.
    destruct (den_some c (bsel (e_shape c) idx)) as (v & ->); auto; [eapply bsel_valid; eauto|].
    simpl. rewrite unrm_rm by auto.
    destruct (den_some l (bsel (e_shape l) idx)) as (v1 & ->); auto; [eapply bsel_valid; eauto|].
    destruct (den_some r (bsel (e_shape r) idx)) as (v2 & ->); auto; [eapply bsel_valid; eauto|].
    destruct (truth v); auto.
Qed.

(** ** equal / allEqual *)
Lemma foldM_and {A} (f : A -> option bool) (l : list A) b0 :
  (forall a, In a l -> exists b, f a = Some b) ->
  exists b, foldM (fun a acc => x <- f a ;; Some (acc && x)) l b0 = Some b /\
    (b = true <-> b0 = true /\ forall a, In a l -> f a = Some true).
Proof.
  revert b0; induction l; intros b0 H; simpl.
  - exists b0. split; auto. tauto.
  - destruct (H a) as (x & Ex); [now left|]. rewrite Ex. cbn [obind].
    destruct (IHl (b0 && x)) as (b & E & I). { intros; apply H; now right. }
    exists b. split; auto. rewrite I, andb_true_iff. split.
    + intros [[? ?] ?]. split; auto. intros a' [<-|]; auto. congruence.
    + intros [? Q]. split; [split; auto|auto]. specialize (Q a (or_introl eq_refl)). congruence.
Qed.

Lemma equal_spec eqw (l r : elements W) t : wf l -> wf r -> okshape t ->
  broadcastable (e_shape l) t -> broadcastable (e_shape r) t ->
  exists b, equal eqw t l r = Some b /\
    (b = true <-> forall idx x y, valid t idx -> den l (bsel (e_shape l) idx) = Some x ->
        den r (bsel (e_shape r) idx) = Some y -> eqw x y = true).
Proof.
  intros Hl Hr Ot Bl Br. unfold equal.
  destruct (expanded_some _ _ Hl Bl) as (lp & ELp), (expanded_some _ _ Hr Br) as (rp & ERp).
  rewrite ELp, ERp. cbn [obind].
  destruct (expanded_read _ _ _ Hl Bl ELp) as [Ll Gl], (expanded_read _ _ _ Hr Br ERp) as [Lr Gr].
  rewrite range_explicit by (auto; repeat constructor; auto). rewrite foldM_map.
  set (f := fun k => x <- den l (bsel (e_shape l) (unrm t k)) ;; y <- den r (bsel (e_shape r) (unrm t k)) ;; Some (eqw x y)).
  destruct (foldM_and f (zrange (size t)) true) as (b & E & I).
  { intros k Hk. apply zrange_In in Hk. destruct (unrm_spec t k Ot Hk) as [V _]. unfold f.
    destruct (den_some l (bsel (e_shape l) (unrm t k))) as (v1 & ->); auto; [eapply bsel_valid; eauto|].
    destruct (den_some r (bsel (e_shape r) (unrm t k))) as (v2 & ->); auto; [eapply bsel_valid; eauto|].
    simpl; eauto. }
  exists b. split.
  - rewrite <- E. apply foldM_ext. intros k acc Hk. apply zrange_In in Hk.
    destruct (unrm_spec t k Ot Hk) as [V _].
    unfold f, off, mk_item. cbn [offsets map nth]. rewrite Gl, Gr by auto.
    destruct (den l _); simpl; auto. destruct (den r _); simpl; auto.
  - rewrite I. split.
    + intros [_ Q] idx x y V Ex Ey. pose proof (rm_bound _ _ V) as B.
      specialize (Q (rm t idx)). rewrite zrange_In in Q. specialize (Q B).
      unfold f in Q. rewrite unrm_rm, Ex, Ey in Q by auto. simpl in Q. congruence.
    + intros Q. split; auto. intros k Hk. apply zrange_In in Hk.
      destruct (unrm_spec t k Ot Hk) as [V _]. unfold f.
      destruct (den_some l (bsel (e_shape l) (unrm t k))) as (v1 & E1); auto; [eapply bsel_valid; eauto|].
      destruct (den_some r (bsel (e_shape r) (unrm t k))) as (v2 & E2); auto; [eapply bsel_valid; eauto|].
      rewrite E1, E2. simpl. f_equal. eapply Q; eauto.
Qed.

Lemma allEqual_spec eqw e n : wf e -> 0 < size (e_shape e) ->
  (allEqual eqw e n = true <-> forall idx x, valid (e_shape e) idx -> den e idx = Some x -> eqw n x = true).
Proof.
  intros H Hs. unfold allEqual. rewrite forallb_forall. split.
  - intros Q idx x V E. apply Q. rewrite den_wide in E.
    unfold zget in E. destruct (_ <? 0); [discriminate|]. eapply nth_error_In; eauto.
  - intros Q x Hx. apply In_nth_error in Hx as (k & E).
    assert (Hk : 0 <= Z.of_nat k < Z.of_nat (length (e_buf e))).
    { assert (k < length (bufferAsWideNums e))%nat by (apply nth_error_Some; congruence).
      rewrite bufferAsWideNums_length in H0. lia. }
    destruct (wf_cover _ H Hs _ Hk) as (idx & V & P).
    apply (Q idx); auto. rewrite den_wide, P, zget_spec, Nat2Z.id by lia. auto.
Qed.

(** ** reshape *)
Lemma wf_legal e : wf e -> 0 < size (e_shape e) -> legal_strides (e_shape e) (e_strides e).
Proof.
  intros H Hs. split; [apply (wf_len _ H)|].
  apply size_pos_of in Hs; [|apply (wf_ok _ H)].
  pose proof (wf_unit _ H) as HU. pose proof (wf_nonneg _ H) as HN. clear H.
  unfold unit_zero in HU. induction HU; simpl; [constructor|].
  inversion Hs; inversion HN; subst. constructor; auto. repeat split; simpl; auto.
Qed.

Lemma legal_unit_zero s st : legal_strides s st -> unit_zero s st /\ Forall (fun k => 0 <= k) st.
Proof.
  intros [HL HF]. revert st HL HF; induction s; intros [|k st] HL HF; try discriminate.
  - split; constructor.
  - simpl in *. inversion HF; subst. destruct (IHs st) as [? ?]; auto.
    destruct H1 as (A1 & A2 & A3). simpl in *. split; constructor; auto.
Qed.

Lemma reshape_spec e r : wf e -> okshape r -> size r = size (e_shape e) -> 0 < size r ->
  exists e', reshape junk e r = Some e' /\ e_shape e' = r /\ wf e' /\
    forall i j, valid (e_shape e) i -> valid r j -> rm (e_shape e) i = rm r j -> den e' j = den e i.
Proof.
  intros H Okr Hsz Hs. unfold reshape. assert (Ok := wf_ok _ H).
  destruct (list_eq_dec Z.eq_dec r (e_shape e)) as [->|NE].
  { exists e. repeat (split; auto). intros i j Vi Vj E. f_equal. symmetry. eapply rm_inj; eauto. }
  destruct (reshapeStrides_spec (e_shape e) (e_strides e) r) as [->|(rs & -> & [AL AG] & LG)].
  - apply wf_legal; auto. lia.
  - now apply size_pos_of.
  - auto.
  - destruct (wf_const e _ H eq_refl) as (data & C & D & G).
    assert (HD : is_data (e_shape e) (alloc junk r)).
    { unfold is_data. rewrite <- Hsz. now apply alloc_is_data. }
    assert (fromWideNums junk r (restrideArray (e_shape e) (e_strides e) (bufferAsWideNums e)) =
            Some (Elements r (getDefaultStrides r) data None) /\
            fromWideNums junk r (readWideNums e) = Some (Elements r (getDefaultStrides r) data None)) as [E1 E2].
    { split.
      - apply fromWideNums_spec.
        destruct (restride_correct (e_shape e) (e_strides e) (bufferAsWideNums e) (alloc junk r)) as (o & -> & Do & Go); auto.
        + apply (wf_len _ H).
        + rewrite bufferAsWideNums_length. apply (wf_bounds _ H).
        + f_equal. eapply data_ext; eauto. intros. rewrite G, Go, den_wide; auto.
      - apply fromWideNums_spec. eapply read_any; eauto. }
    assert (match e_tr e with
      | None => fromWideNums junk r (restrideArray (e_shape e) (e_strides e) (e_buf e))
      | Some _ => fromWideNums junk r (readWideNums e) end = Some (Elements r (getDefaultStrides r) data None)) as ->.
    { destruct (e_tr e) eqn:ET; auto. rewrite <- E1. unfold bufferAsWideNums. rewrite ET.
      now rewrite map_ext with (g := fun x => x), map_id. }
    assert (Dr : is_data r data) by (unfold is_data in *; lia).
    destruct (fresh_wf r data Okr Dr) as [F1 [F2 F3]].
    eexists; split; [reflexivity|]. simpl. split; auto. split; auto.
    intros i j Vi Vj E. rewrite <- F3 by auto. simpl. rewrite elem_rm, <- E by auto.
    rewrite <- elem_rm by auto. auto.
  - eexists; split; [reflexivity|]. simpl. split; auto.
    destruct (legal_unit_zero _ _ LG) as [U N].
    assert (TR : forall j, valid r j -> exists i, valid (e_shape e) i /\ rm (e_shape e) i = rm r j).
    { intros j V. pose proof (rm_bound _ _ V). destruct (unrm_spec (e_shape e) (rm r j)); auto; [lia|]. eauto. }
    assert (TR2 : forall i, valid (e_shape e) i -> exists j, valid r j /\ rm (e_shape e) i = rm r j).
    { intros i V. pose proof (rm_bound _ _ V). destruct (unrm_spec r (rm (e_shape e) i)); auto; [lia|]. eauto. }
    split.
    + constructor; simpl; auto.
      * intros j V. destruct (TR j V) as (i & Vi & E). rewrite <- (AG i j) by auto. now apply (wf_bounds _ H).
      * intros _ p Hp. destruct (wf_cover _ H) with (p := p) as (i & V & E); auto; [lia|].
        destruct (TR2 i V) as (j & Vj & Ej). exists j. split; auto. now rewrite <- (AG i j).
      * lia.
    + intros i j Vi Vj E. unfold den; simpl. now rewrite <- (AG i j).
Qed.

End Views.
