From Coq Require Import List ZArith Lia Bool Arith Permutation.
From Verif Require Import Util TensorSpec TensorLemmas StridesModel.
Import ListNotations.
Open Scope Z_scope.

Notation pos := getStridesPosition.

(** Legal strides: every axis of size 1 has stride 0. *)
Definition unit_zero (s st : list Z) : Prop := Forall2 (fun d k => d = 1 -> k = 0) s st.

Lemma pos_app i1 i2 s1 s2 : length i1 = length s1 ->
  pos (i1 ++ i2) (s1 ++ s2) = pos i1 s1 + pos i2 s2.
Proof.
  revert s1; induction i1; destruct s1; simpl; intros; try discriminate; auto.
  rewrite IHi1 by lia. lia.
Qed.

Lemma pos_repeat0 i n : pos i (repeat 0 n) = 0.
Proof. revert i; induction n; destruct i; simpl; auto. rewrite IHn; lia. Qed.

Lemma pos_repeat0_l n st : pos (repeat 0 n) st = 0.
Proof. revert st; induction n; destruct st; simpl; auto. Qed.

(** ** Default strides *)
Lemma defaultStrides_mult_snd s : snd (defaultStrides_mult s) = size s.
Proof.
  induction s; simpl; auto. destruct (defaultStrides_mult s); simpl in *.
  subst. rewrite size_cons; lia.
Qed.

Lemma defaultStrides_cons d s :
  getDefaultStrides (d :: s) = (if d =? 1 then 0 else size s) :: getDefaultStrides s.
Proof.
  unfold getDefaultStrides; simpl. rewrite <- (defaultStrides_mult_snd s).
  destruct (defaultStrides_mult s); auto.
Qed.

Lemma defaultStrides_length s : length (getDefaultStrides s) = length s.
Proof. induction s; auto. rewrite defaultStrides_cons; simpl; auto. Qed.

Lemma default_pos s idx : valid s idx -> pos idx (getDefaultStrides s) = rm s idx.
Proof.
  induction 1; auto. rewrite defaultStrides_cons; simpl. rewrite IHForall2.
  destruct (Z.eqb_spec x 1); try lia. assert (y = 0) by lia. subst; lia.
Qed.

Lemma default_unit_zero s : unit_zero s (getDefaultStrides s).
Proof.
  induction s; [constructor|]. rewrite defaultStrides_cons. constructor; auto.
  intros ->. reflexivity.
Qed.

Lemma contiguous_mult_spec s st : length s = length st ->
  contiguous_mult s st = (areStridesContiguous s st, size s) /\
  (areStridesContiguous s st = true <-> st = getDefaultStrides s).
Proof.
  revert st; induction s; destruct st; simpl; intros; try discriminate.
  - split; auto. unfold areStridesContiguous; simpl. unfold getDefaultStrides. simpl. tauto.
  - unfold areStridesContiguous in *. simpl. destruct (IHs st) as [E1 E2]; [lia|].
    rewrite E1. simpl. rewrite size_cons. split; [f_equal; lia|].
    rewrite defaultStrides_cons, andb_true_iff, E2, Z.eqb_eq.
    split; [intros [-> ->]; auto | injection 1; auto].
Qed.

Lemma contiguous_iff s st : length s = length st ->
  areStridesContiguous s st = true <-> st = getDefaultStrides s.
Proof. intros; now apply contiguous_mult_spec. Qed.

(** ** Iteration *)
Lemma pos_upd idx st a v : (a < length idx)%nat -> length idx = length st ->
  pos (upd a v idx) st = pos idx st + (v - nth a idx 0) * nth a st 0.
Proof.
  revert st a; induction idx; simpl; intros st n Hn HL; [lia|].
  destruct st; [discriminate|]. destruct n; simpl; [lia|].
  rewrite IHidx; simpl in HL; lia.
Qed.

Lemma map2_compose (f g : Z -> list Z -> Z) (o : list Z) (st : list (list Z)) :
  map2 f (map2 g o st) st = map2 (fun x s => f (g x s) s) o st.
Proof. revert st; induction o; destruct st; simpl; auto. f_equal; auto. Qed.

Lemma map2_map_l (h : list Z -> Z) (f : Z -> list Z -> Z) st :
  map2 f (map h st) st = map (fun s => f (h s) s) st.
Proof. induction st; simpl; auto. f_equal; auto. Qed.

Definition all_len (n : nat) (sts : list (list Z)) := Forall (fun st => length st = n) sts.

(** Offsets always track the position of the index. *)
Lemma inc_loop_offsets s sts axis idx :
  all_len (length idx) sts -> (axis <= length idx)%nat ->
  snd (inc_loop s sts axis idx (map (pos idx) sts))
  = map (pos (fst (inc_loop s sts axis idx (map (pos idx) sts)))) sts
  \/ exists a, (a < axis)%nat /\ nth a idx 0 + 1 <> nth a s 0 /\
        ~ (nth a idx 0 + 1 < nth a s 0).
Proof.
  revert idx; induction axis; simpl; intros idx Hall Hax; auto.
  destruct (Z.ltb_spec (nth axis idx 0 + 1) (nth axis s 0)).
  - left. simpl. rewrite map2_map_l. apply map_ext_in. intros st Hin.
    rewrite pos_upd; [lia|lia|]. symmetry. eapply Forall_forall in Hall; eauto.
  - rewrite map2_compose, map2_map_l.
    destruct (Z.eq_dec (nth axis idx 0 + 1) (nth axis s 0)).
    + replace (map _ sts) with (map (pos (upd axis 0 idx)) sts).
      * destruct (IHaxis (upd axis 0 idx)) as [E | (a & Ha & Hn)]; auto.
        -- now rewrite upd_length.
        -- rewrite upd_length; lia.
        -- right. exists a. rewrite nth_upd_other in Hn by lia. split; [lia|auto].
      * apply map_ext_in. intros st Hin.
        rewrite pos_upd; [lia|lia|]. symmetry. eapply Forall_forall in Hall; eauto.
    + right. exists axis. split; [lia|]. lia.
Qed.

Lemma inc_loop_fst s sts axis idx o1 sts2 o2 :
  fst (inc_loop s sts axis idx o1) = fst (inc_loop s sts2 axis idx o2).
Proof.
  revert idx o1 o2; induction axis; simpl; intros; auto.
  destruct (_ <? _); simpl; auto.
Qed.

Lemma rm_upd s idx a v : (a < length idx)%nat -> length idx = length s ->
  rm s (upd a v idx) = rm s idx + (v - nth a idx 0) * size (skipn (S a) s).
Proof.
  revert s a; induction idx; simpl; intros s n Hn HL; [lia|].
  destruct s; [discriminate|]. destruct n; [simpl; lia|].
  cbn [upd rm nth]. rewrite IHidx by (simpl in HL; lia). simpl skipn. lia.
Qed.

Lemma valid_upd s idx a v : valid s idx -> 0 <= v < nth a s 0 -> valid s (upd a v idx).
Proof.
  intros H; revert a; induction H; intros a Hv; [constructor|].
  destruct a; simpl in *; constructor; auto. apply IHForall2; auto.
Qed.

Lemma valid_nth s idx a : valid s idx -> (a < length idx)%nat -> 0 <= nth a idx 0 < nth a s 0.
Proof.
  intros H; revert a; induction H; simpl; intros; [lia|].
  destruct a; auto. apply IHForall2; lia.
Qed.

Lemma size_skipn_S s a : (a < length s)%nat ->
  size (skipn a s) = nth a s 0 * size (skipn (S a) s).
Proof.
  revert a; induction s; simpl; intros; [lia|]. destruct a0; auto.
  exact (IHs a0 ltac:(lia)).
Qed.

Lemma inc_loop_index s axis idx :
  valid s idx -> (axis <= length idx)%nat ->
  rm s idx + size (skipn axis s) < size s ->
  let idx' := fst (inc_loop s [] axis idx []) in
  valid s idx' /\ rm s idx' = rm s idx + size (skipn axis s).
Proof.
  revert idx; induction axis; intros idx V Hax Hlt.
  - simpl in Hlt. pose proof (rm_bound _ _ V). lia.
  - pose proof (valid_length _ _ V) as HL.
    pose proof (valid_nth _ _ axis V ltac:(lia)) as Hn.
    pose proof (rm_upd s idx axis) as RU.
    pose proof (size_skipn_S s axis ltac:(lia)) as SS.
    cbn [inc_loop map2]. cbv zeta.
    destruct (Z.ltb_spec (nth axis idx 0 + 1) (nth axis s 0)); cbn [fst].
    + split.
      * apply valid_upd; auto; lia.
      * rewrite RU by lia. lia.
    + assert (nth axis idx 0 + 1 = nth axis s 0) by lia.
      assert (valid s (upd axis 0 idx)) by (apply valid_upd; auto; lia).
      assert (rm s (upd axis 0 idx) + size (skipn axis s) = rm s idx + size (skipn (S axis) s)).
      { rewrite RU by lia. nia. }
      destruct (IHaxis (upd axis 0 idx)) as [V' E']; auto.
      * rewrite upd_length; lia.
      * lia.
      * split; auto. lia.
Qed.

(** Invariant of the iterator. *)
Definition item_at (s : list Z) (sts : list (list Z)) (k : Z) (it : item) : Prop :=
  flattenedIndex it = k /\ valid s (it_index it) /\ rm s (it_index it) = k /\
  offsets it = map (pos (it_index it)) sts.

Lemma begin_item_at s sts :
  okshape s -> 0 < size s -> item_at s sts 0 (begin_item s sts).
Proof.
  intros Ok Hs. unfold begin_item, item_at; simpl. repeat split.
  - apply size_pos_of in Hs; auto. clear Ok. induction Hs; simpl; constructor; auto. lia.
  - clear. induction s; simpl; auto.
  - rewrite <- (map_id (repeat _ _)). induction sts; simpl; auto.
    rewrite pos_repeat0_l. f_equal. auto.
Qed.

Lemma increment_at s sts k it :
  all_len (length s) sts -> item_at s sts k it -> k + 1 < size s ->
  item_at s sts (k + 1) (increment s sts it).
Proof.
  intros Hall (F & V & R & O) Hk. unfold increment.
  pose proof (valid_length _ _ V) as HL.
  pose proof (inc_loop_index s (length s) (it_index it) V ltac:(lia)) as HI.
  rewrite skipn_all, size_nil in HI. specialize (HI ltac:(lia)).
  pose proof (inc_loop_offsets s sts (length s) (it_index it)) as HO.
  rewrite O.
  destruct (inc_loop s sts (length s) (it_index it) (map (pos (it_index it)) sts))
    as [ix of] eqn:E.
  assert (ix = fst (inc_loop s [] (length s) (it_index it) [])) as Eix.
  { replace ix with (fst (ix, of)) by auto. rewrite <- E. apply inc_loop_fst. }
  simpl in *. cbv zeta in HI. rewrite <- Eix in HI. destruct HI as [HV HR].
  unfold item_at; simpl. repeat split; auto; try lia.
  destruct HO as [HO | (a & Ha & Hn1 & Hn2)].
  - now rewrite <- HL.
  - lia.
  - exact HO.
  - pose proof (valid_nth _ _ a V ltac:(lia)). lia.
Qed.

Lemma items_from_nth s sts n it k j :
  all_len (length s) sts -> item_at s sts k it ->
  k + Z.of_nat n <= size s -> (j < n)%nat ->
  exists x, nth_error (items_from s sts n it) j = Some x /\ item_at s sts (k + Z.of_nat j) x.
Proof.
  intros Hall. revert it k j; induction n; intros it k j I Hk Hj; [lia|].
  destruct j; cbn [items_from nth_error].
  - exists it. split; auto. replace (k + Z.of_nat 0) with k by lia. auto.
  - destruct (IHn (increment s sts it) (k + 1) j) as (x & E & Ix); try lia.
    + apply increment_at; auto. lia.
    + exists x. split; auto. replace (k + Z.of_nat (S j)) with (k + 1 + Z.of_nat j) by lia. auto.
Qed.

Lemma items_from_length s sts n it : length (items_from s sts n it) = n.
Proof. revert it; induction n; simpl; auto. Qed.

Lemma range_length s sts : length (StridesRange s sts) = Z.to_nat (size s).
Proof. apply items_from_length. Qed.

Lemma range_nth s sts k :
  okshape s -> all_len (length s) sts -> 0 <= k < size s ->
  exists x, zget (StridesRange s sts) k = Some x /\ item_at s sts k x.
Proof.
  intros Ok Hall Hk. unfold StridesRange, getNumElements. fold (size s).
  destruct (items_from_nth s sts (Z.to_nat (size s)) (begin_item s sts) 0 (Z.to_nat k))
    as (x & E & Ix); auto; try lia.
  - apply begin_item_at; auto; lia.
  - exists x. rewrite zget_spec by lia. split; auto.
    replace (0 + Z.of_nat (Z.to_nat k)) with k in Ix by lia. auto.
Qed.

(** The visited items, as an explicit list. *)
Definition mk_item (sts : list (list Z)) (s : list Z) (k : Z) : item :=
  Item k (unrm s k) (map (pos (unrm s k)) sts).

Lemma item_at_mk s sts k it : item_at s sts k it -> it = mk_item sts s k.
Proof.
  intros (F & V & R & O). destruct it; simpl in *; subst.
  unfold mk_item. rewrite unrm_rm; auto. eapply valid_okshape; eauto.
Qed.

Lemma range_explicit s sts : okshape s -> all_len (length s) sts ->
  StridesRange s sts = map (mk_item sts s) (zrange (size s)).
Proof.
  intros Ok Hall. pose proof (size_nonneg _ Ok). apply zget_ext.
  - rewrite range_length, map_length, zrange_length. auto.
  - intros i Hi. rewrite range_length in Hi.
    destruct (range_nth s sts i) as (x & E & Ix); auto; try lia.
    rewrite E, zget_map. unfold zrange. rewrite zget_zseq by lia. simpl.
    f_equal. now apply item_at_mk.
Qed.

(** Filling a buffer with [dst[k] = f k] for k = 0,1,.. in order. *)
Lemma fill_zseq {A} (f : Z -> option A) (g : Z -> A) n a (dst : list A) :
  0 <= a -> Z.of_nat (length dst) = a + Z.of_nat n ->
  (forall k, a <= k < a + Z.of_nat n -> f k = Some (g k)) ->
  exists dst', foldM (fun k d => v <- f k ;; zset d k v) (zseq a n) dst = Some dst' /\
    length dst' = length dst /\
    (forall k, zget dst' k = if (a <=? k) && (k <? a + Z.of_nat n) then Some (g k) else zget dst k).
Proof.
  revert a dst; induction n; intros a dst Ha HL Hf; cbn [zseq foldM].
  - exists dst; split; auto; split; auto. intros.
    destruct (Z.leb_spec a k), (Z.ltb_spec k (a + Z.of_nat 0)); simpl; auto; lia.
  - rewrite Hf by lia. cbn [obind]. rewrite zset_some by lia. cbn [obind].
    destruct (IHn (a + 1) (upd (Z.to_nat a) (g a) dst)) as (dst' & E & L & G); try lia.
    + rewrite upd_length; lia.
    + intros; apply Hf; lia.
    + exists dst'. split; auto. rewrite upd_length in L. split; auto.
      intros k. rewrite G, zget_upd by lia.
      destruct (Z.leb_spec (a+1) k), (Z.leb_spec a k), (Z.ltb_spec k (a + 1 + Z.of_nat n)),
        (Z.ltb_spec k (a + Z.of_nat (S n))), (Z.eqb_spec k a); simpl; auto; try lia; subst; auto.
Qed.

Lemma fill_range {A} s sts (f : item -> option A) (g : Z -> A) (dst : list A) :
  okshape s -> all_len (length s) sts -> is_data s dst ->
  (forall k, 0 <= k < size s -> f (mk_item sts s k) = Some (g k)) ->
  exists dst', foldM (fun it d => v <- f it ;; zset d (flattenedIndex it) v)
      (StridesRange s sts) dst = Some dst' /\
    is_data s dst' /\ (forall k, 0 <= k < size s -> zget dst' k = Some (g k)).
Proof.
  intros Ok Hall HD Hf. pose proof (size_nonneg _ Ok).
  rewrite range_explicit, foldM_map by auto. unfold zrange.
  destruct (fill_zseq (fun k => f (mk_item sts s k)) g (Z.to_nat (size s)) 0 dst)
    as (dst' & E & L & G); try lia.
  - unfold is_data in HD. lia.
  - intros; apply Hf; lia.
  - exists dst'. split; [exact E|]. split; [unfold is_data in *; lia|].
    intros k Hk. rewrite G.
    destruct (Z.leb_spec 0 k), (Z.ltb_spec k (0 + Z.of_nat (Z.to_nat (size s)))); simpl; auto; lia.
Qed.

(** ** restrideArray *)
Definition in_bounds (s st : list Z) (n : Z) : Prop :=
  forall idx, valid s idx -> 0 <= pos idx st < n.

Lemma restride_correct {A} (s st : list Z) (src dst : list A) :
  okshape s -> length st = length s -> is_data s dst ->
  in_bounds s st (Z.of_nat (length src)) ->
  exists out, restrideArray s st src dst = Some out /\ is_data s out /\
    forall idx, valid s idx -> elem s out idx = zget src (pos idx st).
Proof.
  intros Ok HL HD HB. unfold restrideArray, expandStrides.
  rewrite HL, Nat.leb_refl, Nat.sub_diag. cbn [repeat app obind].
  destruct src as [|a0 src'].
  { assert (size s = 0).
    { destruct (Z.eq_dec (size s) 0); auto. pose proof (size_nonneg _ Ok).
      destruct (unrm_spec s 0); auto; [lia|]. specialize (HB _ H0). simpl in HB. lia. }
    exists dst. unfold StridesRange, getNumElements. fold (size s). rewrite H.
    simpl. repeat split; auto. intros idx V. pose proof (rm_bound _ _ V). lia. }
  set (src := a0 :: src') in *. clearbody src. clear src'.
  destruct (fill_range s [st] (fun it => zget src (off it 0))
     (fun k => nth (Z.to_nat (pos (unrm s k) st)) src a0) dst) as (out & E & D & G); auto.
  - repeat constructor; auto.
  - intros k Hk. destruct (unrm_spec s k); auto.
    unfold off, mk_item; simpl. specialize (HB _ H).
    rewrite zget_spec by lia. apply nth_error_nth'. lia.
  - exists out. split; [exact E|]. split; auto. intros idx V.
    unfold elem. rewrite rowmajor_rm by (apply valid_length; auto).
    pose proof (rm_bound _ _ V). rewrite G by auto. rewrite unrm_rm by auto.
    specialize (HB _ V). rewrite zget_spec by lia. symmetry. apply nth_error_nth'. lia.
Qed.

(** ** unflattenIndex *)
Lemma unflatten_loop_spec rs k acc :
  Forall (fun d => 0 < d) rs -> 0 <= k < size (rev rs) -> rs <> [] ->
  unflatten_loop rs k acc = Some (unrm (rev rs) k ++ acc).
Proof.
  intros H; revert k acc; induction H as [|d rs Hd Hrs IH]; intros k acc Hk Hne; [congruence|].
  destruct rs as [|d2 rs].
  - cbn [rev app] in *. rewrite size_cons, size_nil in Hk. cbn [unflatten_loop unrm app].
    rewrite size_nil, Z.div_1_r. destruct (Z.ltb_spec k d); auto; lia.
  - set (r := d2 :: rs) in *. cbn [rev] in Hk |- *. rewrite size_app, size_cons, size_nil in Hk.
    change (unflatten_loop (d :: r) k acc) with
      (if 0 <? d then unflatten_loop r (k / d) (k mod d :: acc) else None).
    destruct (Z.ltb_spec 0 d); [|lia].
    rewrite IH; [|split; [apply Z.div_pos; lia | apply Z.div_lt_upper_bound; lia] | discriminate].
    f_equal.
    assert (forall s k, okshape s -> 0 < size s -> 0 <= k < size s * d ->
       unrm (s ++ [d]) k = unrm s (k / d) ++ [k mod d]) as G.
    { clear - Hd. induction s; intros k Ok Hs Hk; cbn [app unrm].
      - rewrite size_nil in *. rewrite Z.div_1_r. f_equal. rewrite Z.mod_small; auto. lia.
      - apply okshape_cons in Ok as [Ha Ok].
        rewrite size_cons in Hs, Hk. rewrite size_app, size_cons, size_nil.
        pose proof (size_nonneg _ Ok). assert (0 < size s) by nia.
        rewrite Z.mul_1_r. rewrite IHs; auto; [|apply Z.mod_pos_bound; nia].
        cbn [app]. rewrite (Z.mul_comm (size s) d).
        rewrite <- Z.div_div by lia. f_equal. f_equal.
        + rewrite Z.rem_mul_r by lia.
          rewrite (Z.mul_comm d), Z.div_add by lia.
          rewrite (Z.div_small (k mod d)) by (apply Z.mod_pos_bound; lia). reflexivity.
        + rewrite Z.rem_mul_r by lia. rewrite (Z.mul_comm d), Z.mod_add by lia.
          rewrite Z.mod_mod by lia. auto. }
    assert (Hp : Forall (fun x => 0 < x) (rev r)) by (apply Forall_rev; auto).
    rewrite G.
    + rewrite <- app_assoc. auto.
    + unfold okshape. eapply Forall_impl; [|exact Hp]. simpl; intros; lia.
    + apply prodZ_pos; auto.
    + lia.
Qed.

Lemma unflatten_correct s k : okshape s -> 0 <= k < size s ->
  unflattenIndex s k = Some (unrm s k).
Proof.
  intros Ok Hk. unfold unflattenIndex. destruct s as [|d s]; [reflexivity|].
  set (t := d :: s) in *.
  rewrite unflatten_loop_spec.
  - rewrite rev_involutive, app_nil_r. auto.
  - apply Forall_rev. apply size_pos_of; auto. lia.
  - now rewrite rev_involutive.
  - intros E. apply (f_equal (@length Z)) in E. rewrite rev_length in E. discriminate.
Qed.
