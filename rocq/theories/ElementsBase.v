(** Well-formed constants and their denotation; reading them out. *)
From Coq Require Import List ZArith Lia Bool Arith.
From Verif Require Import Util TensorSpec TensorLemmas StridesModel StridesProofs StridesReshape ElementsModel.
Import ListNotations.
Open Scope Z_scope.

Section Base.
Context {W : Type}.
Implicit Types e : elements W.

(** The element of a constant at a multi-index, as any reader sees it. *)
Definition den e (idx : list Z) : option W :=
  option_map (applyT (e_tr e)) (zget (e_buf e) (getStridesPosition idx (e_strides e))).

(** Invariant of every constant the builder produces. *)
Record wf e : Prop := {
  wf_len : length (e_strides e) = length (e_shape e);
  wf_ok : okshape (e_shape e);
  wf_unit : unit_zero (e_shape e) (e_strides e);
  wf_nonneg : Forall (fun k => 0 <= k) (e_strides e);
  wf_bounds : in_bounds (e_shape e) (e_strides e) (Z.of_nat (length (e_buf e)));
  wf_cover : 0 < size (e_shape e) -> forall p, 0 <= p < Z.of_nat (length (e_buf e)) ->
      exists idx, valid (e_shape e) idx /\ getStridesPosition idx (e_strides e) = p;
  wf_empty : size (e_shape e) = 0 -> e_buf e <> [] ->
      Forall2 (fun d k => d = 0 -> k = 0) (e_shape e) (e_strides e)
}.

(** [data] is the row-major content of [e]. *)
Definition repr e (data : list W) : Prop :=
  is_data (e_shape e) data /\
  forall idx, valid (e_shape e) idx -> elem (e_shape e) data idx = den e idx.

Lemma den_wide e idx : den e idx = zget (bufferAsWideNums e) (pos idx (e_strides e)).
Proof. unfold den, bufferAsWideNums. now rewrite zget_map. Qed.

Lemma repr_unique e d1 d2 : okshape (e_shape e) -> repr e d1 -> repr e d2 -> d1 = d2.
Proof.
  intros Ok [D1 E1] [D2 E2]. eapply data_ext; eauto. intros. rewrite E1, E2; auto.
Qed.

Lemma elem_rm {A} s (data : list A) idx : valid s idx -> elem s data idx = zget data (rm s idx).
Proof. intros. unfold elem. rewrite rowmajor_rm; auto. now apply valid_length. Qed.

Lemma bufferAsWideNums_length e : length (bufferAsWideNums e) = length (e_buf e).
Proof. apply map_length. Qed.

Lemma den_some e idx : wf e -> valid (e_shape e) idx -> exists v, den e idx = Some v.
Proof.
  intros Hwf V. rewrite den_wide. apply zget_some. rewrite bufferAsWideNums_length.
  now apply (wf_bounds _ Hwf).
Qed.

(** Row-major content exists for each well-formed constant. *)
Lemma alloc_is_data (junk : W) s : okshape s -> is_data s (alloc junk s).
Proof.
  intros Ok. unfold is_data, alloc. rewrite repeat_length. pose proof (size_nonneg _ Ok).
  unfold getNumElements. fold (size s). lia.
Qed.

Lemma contiguous_length e : wf e ->
  areStridesContiguous (e_shape e) (e_strides e) = true ->
  Z.of_nat (length (e_buf e)) = size (e_shape e).
Proof.
  intros H HC. apply contiguous_iff in HC; [|symmetry; apply (wf_len _ H)].
  pose proof (wf_ok _ H) as Ok. pose proof (size_nonneg _ Ok).
  destruct (Z.eq_dec (size (e_shape e)) 0) as [E0|E0].
  - destruct (e_buf e) eqn:EB; [simpl; lia|]. exfalso.
    assert (e_buf e <> []) as NE by congruence.
    pose proof (wf_empty _ H E0 NE) as HE. rewrite HC in HE. clear - HE E0 Ok.
    revert E0 Ok HE. generalize (e_shape e). induction l; intros E0 Ok HE; [now rewrite size_nil in E0|].
    rewrite defaultStrides_cons in HE. inversion HE; subst.
    apply okshape_cons in Ok as [Ha Ok]. rewrite size_cons in E0.
    destruct (Z.eq_dec (size l) 0); [auto|].
    assert (a = 0) by nia. subst. specialize (H2 eq_refl). simpl in H2. lia.
  - apply Z.le_antisymm.
    + assert (HC2 := wf_cover _ H ltac:(lia)).
      destruct (Z.eq_dec (Z.of_nat (length (e_buf e))) 0); [lia|].
      destruct (HC2 (Z.of_nat (length (e_buf e)) - 1)) as (idx & V & E); [lia|].
      rewrite HC, default_pos in E by auto. pose proof (rm_bound _ _ V). lia.
    + destruct (unrm_spec (e_shape e) (size (e_shape e) - 1)) as [V E]; auto; [lia|].
      pose proof (wf_bounds _ H _ V) as B. rewrite HC, default_pos in B by auto. lia.
Qed.

Lemma readWideNums_repr e dst : wf e -> is_data (e_shape e) dst ->
  exists data, readWideNums e dst = Some data /\ repr e data.
Proof.
  intros H HD. unfold readWideNums.
  destruct (areStridesContiguous (e_shape e) (e_strides e)) eqn:EC.
  - pose proof (contiguous_length _ H EC) as HL. unfold is_data in HD.
    destruct (Nat.eqb_spec (length (e_buf e)) (length dst)); [|lia].
    exists (bufferAsWideNums e). split; auto. split.
    + unfold is_data. rewrite bufferAsWideNums_length. auto.
    + intros idx V. rewrite elem_rm, den_wide by auto.
      apply contiguous_iff in EC; [|symmetry; apply (wf_len _ H)].
      now rewrite EC, default_pos.
  - destruct (restride_correct (e_shape e) (e_strides e) (bufferAsWideNums e) dst)
      as (out & E & D & G).
    + apply (wf_ok _ H).
    + apply (wf_len _ H).
    + auto.
    + rewrite bufferAsWideNums_length. apply (wf_bounds _ H).
    + exists out. split; auto. split; auto. intros. rewrite G, den_wide; auto.
Qed.

Lemma getWideNums_repr (junk : W) e : wf e ->
  exists data, getWideNums junk e = Some data /\ repr e data.
Proof.
  intros H. unfold getWideNums.
  destruct (areStridesContiguous (e_shape e) (e_strides e)) eqn:EC.
  - destruct (readWideNums_repr e (alloc junk (e_shape e)) H) as (data & E & R).
    { apply alloc_is_data, (wf_ok _ H). }
    unfold readWideNums in E. rewrite EC in E.
    destruct (_ =? _)%nat; [|discriminate]. injection E as <-. eauto.
  - apply readWideNums_repr; auto. apply alloc_is_data, (wf_ok _ H).
Qed.

Lemma wf_repr e : wf e -> exists data, repr e data.
Proof.
  intros H. destruct (bufferAsWideNums e) as [|w l] eqn:EB.
  - exists []. split.
    + unfold is_data. simpl. pose proof (size_nonneg _ (wf_ok _ H)).
      destruct (Z.eq_dec (size (e_shape e)) 0); auto.
      destruct (unrm_spec (e_shape e) 0) as [V _]; [apply (wf_ok _ H)|lia|].
      pose proof (wf_bounds _ H _ V) as B. rewrite <- bufferAsWideNums_length, EB in B. simpl in B. lia.
    + intros idx V. pose proof (wf_bounds _ H _ V) as B.
      rewrite <- bufferAsWideNums_length, EB in B. simpl in B. lia.
  - destruct (getWideNums_repr w e H) as (d & _ & R). eauto.
Qed.

Lemma repr_zget e data k : okshape (e_shape e) -> repr e data -> 0 <= k < size (e_shape e) ->
  den e (unrm (e_shape e) k) = zget data k.
Proof.
  intros Ok [D E] Hk. destruct (unrm_spec (e_shape e) k) as [V R]; auto.
  rewrite <- E, elem_rm, R; auto.
Qed.

(** The value read at the k-th item of a strided iteration over [e]. *)
Lemma item_value e data k : okshape (e_shape e) -> repr e data -> 0 <= k < size (e_shape e) ->
  zget (bufferAsWideNums e) (off (mk_item [e_strides e] (e_shape e) k) 0) = zget data k.
Proof.
  intros. rewrite <- (repr_zget e data k) by auto. rewrite den_wide. reflexivity.
Qed.

(** A freshly filled row-major constant. *)
Lemma fresh_wf s (data : list W) : okshape s -> is_data s data ->
  wf (Elements s (getDefaultStrides s) data None) /\
  repr (Elements s (getDefaultStrides s) data None) data.
Proof.
  intros Ok D. split.
  - constructor; simpl.
    + apply defaultStrides_length.
    + auto.
    + apply default_unit_zero.
    + clear D. induction Ok; [constructor|]. rewrite defaultStrides_cons.
      constructor; auto. destruct (x =? 1); [lia|]. now apply size_nonneg.
    + intros idx V. rewrite default_pos by auto. rewrite D. now apply rm_bound.
    + intros Hs p Hp. rewrite D in Hp. destruct (unrm_spec s p) as [V E]; auto.
      exists (unrm s p). rewrite default_pos; auto.
    + intros E0 NE. unfold is_data in D. destruct data; [congruence|simpl in D; lia].
  - split; auto. simpl. intros idx V. rewrite elem_rm, den_wide by auto.
    unfold bufferAsWideNums; simpl. rewrite map_id, default_pos; auto.
Qed.

Lemma fromWideNums_spec (junk : W) s fill data :
  fill (alloc junk s) = Some data ->
  fromWideNums junk s fill = Some (Elements s (getDefaultStrides s) data None).
Proof. intros E. unfold fromWideNums. now rewrite E. Qed.

(** Filling from any strided iteration. *)
Lemma fromWideNums_range (junk : W) s sts (f : item -> option W) (g : Z -> option W) :
  okshape s -> all_len (length s) sts ->
  (forall k, 0 <= k < size s -> f (mk_item sts s k) = g k /\ exists v, g k = Some v) ->
  exists e, fromWideNums junk s (fun dst =>
      foldM (fun it d => v <- f it ;; zset d (flattenedIndex it) v) (StridesRange s sts) dst) = Some e /\
    e_shape e = s /\ wf e /\
    (forall idx, valid s idx -> den e idx = g (rm s idx)).
Proof.
  intros Ok HA Hf.
  destruct (fill_range s sts f (fun k => match g k with Some v => v | None => junk end) (alloc junk s))
    as (data & E & D & G); auto.
  - now apply alloc_is_data.
  - intros k Hk. destruct (Hf k Hk) as (-> & v & ->). auto.
  - match goal with |- context [fromWideNums junk s ?F] => rewrite (fromWideNums_spec junk s F data E) end.
    destruct (fresh_wf s data Ok D) as [F1 [F2 F3]].
    eexists; split; [reflexivity|]. simpl. split; auto. split; auto.
    intros idx V. rewrite <- F3 by auto. simpl. rewrite elem_rm by auto.
    pose proof (rm_bound _ _ V) as B. rewrite G by auto.
    destruct (Hf _ B) as (_ & v & ->). auto.
Qed.

(** * Sequences of buffer writes *)
Definition writes (ws : list (Z * W)) (dst : list W) : option (list W) :=
  foldM (fun w d => zset d (fst w) (snd w)) ws dst.

Lemma writes_spec ws dst :
  Forall (fun w => 0 <= fst w < Z.of_nat (length dst)) ws ->
  exists dst', writes ws dst = Some dst' /\ length dst' = length dst /\
    (forall p, ~ In p (map fst ws) -> zget dst' p = zget dst p) /\
    (forall ws1 p v ws2, ws = ws1 ++ (p, v) :: ws2 -> ~ In p (map fst ws2) -> zget dst' p = Some v).
Proof.
  revert dst; induction ws as [|[t w] ws IH]; intros dst HF.
  - exists dst. repeat split; auto. intros [|] * E; discriminate.
  - inversion HF as [|? ? Ht HF']; subst. simpl in Ht. unfold writes in *. cbn [foldM fst snd].
    rewrite zset_some by lia. cbn [obind].
    destruct (IH (upd (Z.to_nat t) w dst)) as (dst' & E & L & N & P).
    { eapply Forall_impl; [|exact HF']. intros. rewrite upd_length. auto. }
    exists dst'. rewrite upd_length in L. split; auto. split; auto. split.
    + intros p Hp. simpl in Hp. rewrite N by tauto. rewrite zget_upd by lia.
      destruct (Z.eqb_spec p t); auto. subst; tauto.
    + intros ws1 p v ws2 EQ Hn. destruct ws1 as [|x ws1]; simpl in EQ; inversion EQ; subst.
      * rewrite N by auto. rewrite zget_upd by lia. now rewrite Z.eqb_refl.
      * eapply P; eauto.
Qed.

(** Writes with distinct targets. *)
Lemma writes_nodup ws dst :
  Forall (fun w => 0 <= fst w < Z.of_nat (length dst)) ws -> NoDup (map fst ws) ->
  exists dst', writes ws dst = Some dst' /\ length dst' = length dst /\
    (forall p, ~ In p (map fst ws) -> zget dst' p = zget dst p) /\
    (forall p v, In (p, v) ws -> zget dst' p = Some v).
Proof.
  intros HF ND. destruct (writes_spec ws dst HF) as (dst' & E & L & N & P).
  exists dst'. repeat split; auto. intros p v Hin.
  apply in_split in Hin as (w1 & w2 & ->).
  eapply P; eauto. rewrite map_app in ND. simpl in ND. apply NoDup_remove_2 in ND.
  rewrite in_app_iff in ND. tauto.
Qed.

End Base.
