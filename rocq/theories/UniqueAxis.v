(** Lifting the registration loop to tensors. *)
From Coq Require Import List ZArith Lia Bool Arith Permutation Sorted.
From Verif Require Import Util TensorSpec TensorLemmas OMTensorLayoutModel OMTensorLayoutProofs UniqueModel UniqueSpec UniqueProofs UniqueLoop.
Import ListNotations.
Open Scope Z_scope.

(** ** Without axis *)
Section Flat.
Context {V : Type}.
Variables veqb vlt : V -> V -> bool.
Notation sing := (fun v : V => [v]).

Lemma zget_sing (l : list V) i x : zget (map sing l) i = Some [x] <-> zget l i = Some x.
Proof. rewrite zget_map. destruct (zget l i); cbn [option_map]; split; intros H; inversion H; auto. Qed.
Lemma first_occ_sing (l : list V) x i : first_occ (map sing l) [x] i <-> first_occ l x i.
Proof.
  unfold first_occ. rewrite zget_sing. split; intros [H1 H2]; split; auto; intros j Hj; specialize (H2 j Hj); rewrite zget_sing in *; auto.
Qed.
Lemma occurs_sing (l : list V) x c : occurs [x] (map sing l) c <-> occurs x l c.
Proof.
  split.
  - revert c. induction l; intros c H; cbn [map] in H; inversion H; subst; constructor; auto. congruence.
  - induction 1; cbn [map]; constructor; auto. congruence.
Qed.
Lemma sing_concat (u : list (list V)) l : (forall x, In x u -> In x (map sing l)) -> u = map sing (concat u).
Proof.
  induction u as [|a u IH]; intros H; auto. cbn [concat]. rewrite map_app, <- IH by (intros; apply H; now right).
  assert (In a (map sing l)) by (apply H; now left). apply in_map_iff in H0 as (v & <- & _). reflexivity.
Qed.
Lemma SS_map {A B} (f : A -> B) (R : B -> B -> Prop) (R' : A -> A -> Prop) l :
  (forall a b, R (f a) (f b) -> R' a b) -> StronglySorted R (map f l) -> StronglySorted R' l.
Proof.
  intros H. induction l; cbn [map]; intros S; constructor; inversion S; subst; auto.
  rewrite Forall_forall in *. intros x Hx. apply H, H3. now apply in_map.
Qed.

Lemma items_sing sorted l u : unique_items (lex_less (fun x y => vlt x y = true)) sorted (map sing l) (map sing u) ->
  unique_items (fun x y => vlt x y = true) sorted l u.
Proof.
  intros [ND SM OR]. constructor.
  - eapply NoDup_map_inv; eauto.
  - intros x. split; intros H.
    + assert (In [x] (map sing u)) by (apply in_map_iff; eauto). apply SM in H0. apply in_map_iff in H0 as (y & E & ?). injection E as ->. auto.
    + assert (In [x] (map sing l)) by (apply in_map_iff; eauto). apply SM in H0. apply in_map_iff in H0 as (y & E & ?). injection E as ->. auto.
  - destruct sorted.
    + revert OR. apply SS_map. intros a b H. inversion H; subst; auto. inversion H1.
    + revert OR. apply SS_map. intros a b (i & j & F1 & F2 & L). exists i, j. rewrite first_occ_sing in F1, F2. auto.
Qed.

Lemma incl_len {A} (u v : list A) : NoDup u -> incl u v -> (length u <= length v)%nat.
Proof. apply NoDup_incl_length. Qed.
End Flat.

(** ** With axis *)
Lemma offset_rm s idx : length s = length idx -> offset (omStrides s) idx = rm s idx.
Proof.
  intros H. rewrite <- computeElemOffset_rm by auto. unfold offset, computeElemOffset. rewrite fold_add_acc.
  assert (E : map2 Z.mul (omStrides s) idx = map2 Z.mul idx (omStrides s)).
  { clear H. generalize (omStrides s) as st. revert idx. induction idx; destruct st; simpl; auto. f_equal; auto. lia. }
  rewrite E. lia.
Qed.

Lemma in_indices s idx : okshape s -> (In idx (indices s) <-> valid s idx).
Proof.
  intros OK. split; [now apply indices_valid|]. intros HV. pose proof (indices_nth s idx HV) as E.
  apply zget_In. eauto.
Qed.

Lemma valid_rev s idx : valid s idx -> valid (rev s) (rev idx).
Proof.
  induction 1; simpl; [constructor|]. apply Forall2_app; auto.
Qed.
Lemma okshape_rev s : okshape s -> okshape (rev s).
Proof. unfold okshape. rewrite !Forall_forall. intros H x Hx. apply H. now apply in_rev. Qed.

Lemma in_loopOrder s d : okshape s -> (In d (loopOrder s) <-> valid s d).
Proof.
  intros OK. unfold loopOrder. rewrite in_map_iff. split.
  - intros (x & <- & Hx). apply in_indices in Hx; [|now apply okshape_rev]. apply valid_rev in Hx. now rewrite rev_involutive in Hx.
  - intros HV. exists (rev d). split; [apply rev_involutive|]. apply in_indices; [now apply okshape_rev|]. now apply valid_rev.
Qed.

Lemma NoDup_indices s : NoDup (indices s).
Proof.
  induction s as [|d s IH]; cbn [indices]; [repeat constructor; simpl; auto|].
  unfold zrange. generalize 0 as a. induction (Z.to_nat d) as [|m IHm]; intros a; cbn [zseq flat_map]; [constructor|].
  assert (ND1 : NoDup (map (cons a) (indices s))).
  { apply FinFun.Injective_map_NoDup; auto. intros x y H. congruence. }
  clear IH.
  assert (DJ : forall x, In x (map (cons a) (indices s)) -> ~ In x (flat_map (fun i => map (cons i) (indices s)) (zseq (a + 1) m))).
  { intros x H1 H2. apply in_map_iff in H1 as (y & <- & _). apply in_flat_map in H2 as (i & Hi & H2).
    apply in_map_iff in H2 as (z & E & _). injection E as -> _. apply zseq_In in Hi. lia. }
  specialize (IHm (a + 1)). induction ND1; cbn [app]; auto. constructor.
  - rewrite in_app_iff. intros [?|?]; [contradiction|]. eapply DJ; eauto. now left.
  - apply IHND1. intros y Hy. apply DJ. now right.
Qed.
Lemma NoDup_loopOrder s : NoDup (loopOrder s).
Proof.
  unfold loopOrder. apply FinFun.Injective_map_NoDup; [|apply NoDup_indices].
  intros x y H. rewrite <- (rev_involutive x), H. apply rev_involutive.
Qed.

Lemma upd_upd {A} a (x y : A) l : upd a x (upd a y l) = upd a x l.
Proof. revert a; induction l as [|z l IH]; intros [|a]; simpl; auto. f_equal. auto. Qed.
Lemma valid_upd s idx a i d : valid s idx -> 0 <= i < d -> valid (upd a d s) (upd a i idx).
Proof. intros H; revert a; induction H; intros [|a] Hi; simpl; constructor; auto. now apply IHForall2. Qed.
Lemma upd_nth_same {A} (s : list A) a i : nth_error s a = Some i -> upd a i s = s.
Proof. revert a. induction s as [|z s IH]; intros [|a]; simpl; intros; auto; try discriminate; [congruence|]. f_equal. auto. Qed.
Lemma valid_nth s idx a : valid s idx -> (a < length s)%nat -> exists d i, nth_error s a = Some d /\ nth_error idx a = Some i /\ 0 <= i < d.
Proof. intros H; revert a; induction H; intros [|a] HL; simpl in *; try lia; [eauto|]. apply IHForall2. lia. Qed.
Lemma okshape_upd s a d : okshape s -> 0 <= d -> okshape (upd a d s).
Proof. intros H; revert a; induction H; intros [|a] Hd; simpl; constructor; auto. now apply IHForall. Qed.

Lemma foldM_collect {A B} (f : A -> option B) l : (forall x, In x l -> exists y, f x = Some y) ->
  forall acc, exists r, foldM (fun x acc => v <- f x ;; Some (acc ++ [v])) l acc = Some (acc ++ r) /\ map Some r = map f l.
Proof.
  induction l as [|x l IH]; intros H acc; cbn [foldM].
  - exists []. rewrite app_nil_r. auto.
  - destruct (H x (or_introl eq_refl)) as (y & E). rewrite E. cbn [obind].
    destruct (IH (fun z Hz => H z (or_intror Hz)) (acc ++ [y])) as (r & E2 & M). exists (y :: r).
    rewrite E2, <- app_assoc. split; auto. cbn [map]. now rewrite E, M.
Qed.

Section Axis.
Context {V : Type}.
Variables (s : list Z) (a : nat) (data : list V) (n : Z).
Hypothesis OK : okshape s.
Hypothesis R6 : (length s <= 6)%nat.
Hypothesis HA : nth_error s a = Some n.
Hypothesis HD : is_data s data.

Lemma aLt : (a < length s)%nat.
Proof. apply nth_error_Some. congruence. Qed.
Lemma okn : 0 <= n.
Proof. unfold okshape in OK. rewrite Forall_forall in OK. apply OK. eapply nth_error_In; eauto. Qed.

Lemma elem_get idx : valid s idx -> zget data (offset (omStrides s) idx) = elem s data idx /\ exists v, elem s data idx = Some v.
Proof.
  intros HV. pose proof (valid_length _ _ HV) as HL. rewrite offset_rm by auto. unfold elem. rewrite rowmajor_rm by auto.
  split; auto. apply zget_some. pose proof (rm_bound s idx HV). unfold is_data in HD. lia.
Qed.

Lemma valid_slot d i : valid (upd a 1 s) d -> 0 <= i < n -> valid s (upd a i d).
Proof.
  intros HV Hi. pose proof (valid_upd (upd a 1 s) d a i n HV Hi) as H. rewrite upd_upd in H. now rewrite (upd_nth_same s a n HA) in H.
Qed.

Lemma getSliceData_spec i : 0 <= i < n ->
  exists l, getSliceData s (omStrides s) data a i = Some l /\ col_slice s a data i l.
Proof.
  intros Hi. unfold getSliceData.
  replace (6 <? length s)%nat with false by (symmetry; apply Nat.ltb_ge; lia).
  replace (length s <=? a)%nat with false by (symmetry; apply Nat.leb_gt; apply aLt). cbn [orb].
  destruct (foldM_collect (fun dim => zget data (offset (omStrides s) (upd a i dim))) (loopOrder (upd a 1 s))) with (acc := @nil V) as (r & E & M).
  { intros d Hd. apply in_loopOrder in Hd; [|apply okshape_upd; auto; lia].
    destruct (elem_get (upd a i d) (valid_slot d i Hd Hi)) as (-> & X). exact X. }
  exists r. split; [exact E|]. unfold col_slice. rewrite M. unfold loopOrder. rewrite map_map. apply map_ext_in.
  intros d Hd. apply elem_get. apply valid_slot; auto.
  apply in_loopOrder; [apply okshape_upd; auto; lia|]. unfold loopOrder. apply in_map. auto.
Qed.

Lemma map_Some_inj {A} (l m : list A) : map Some l = map Some m -> l = m.
Proof. revert m; induction l; destruct m; simpl; intros H; try discriminate; auto. injection H as -> H. f_equal. auto. Qed.

Lemma col_slice_same i j li lj : 0 <= i < n -> 0 <= j < n -> col_slice s a data i li -> col_slice s a data j lj ->
  (li = lj <-> same_slice s a data i j).
Proof.
  clear R6. intros Hi Hj Ci Cj. unfold col_slice in *. split.
  - intros -> idx HV. rewrite Ci in Cj.
    assert (HV0 : valid (upd a 1 s) (upd a 0 idx)) by (apply valid_upd; auto; lia).
    assert (In (rev (upd a 0 idx)) (indices (rev (upd a 1 s)))).
    { apply in_indices; [apply okshape_rev, okshape_upd; auto; lia|]. now apply valid_rev. }
    pose proof (ext_in_map Cj _ H) as E. cbv beta in E. rewrite rev_involutive, !upd_upd in E. auto.
  - intros HS. apply map_Some_inj. rewrite Ci, Cj. apply map_ext_in. intros d Hd.
    apply in_indices in Hd; [|apply okshape_rev, okshape_upd; auto; lia]. apply valid_rev in Hd. rewrite rev_involutive in Hd.
    pose proof (HS _ (valid_slot (rev d) i Hd Hi)) as E. rewrite !upd_upd in E. auto.
Qed.

Lemma col_slice_len i l : col_slice s a data i l -> length l = length (indices (rev (upd a 1 s))).
Proof. intros H. apply (f_equal (@length _)) in H. now rewrite !map_length in H. Qed.

(** all slices as a list *)
Lemma all_slices : exists ss, length ss = Z.to_nat n /\
  forall i, 0 <= i < n -> exists l, zget ss i = Some l /\ getSliceData s (omStrides s) data a i = Some l /\ col_slice s a data i l.
Proof.
  assert (K : forall m, Z.of_nat m <= n -> exists ss, length ss = m /\
    forall i, 0 <= i < Z.of_nat m -> exists l, zget ss i = Some l /\ getSliceData s (omStrides s) data a i = Some l /\ col_slice s a data i l).
  { induction m; intros Hm; [exists []; split; auto; intros; lia|].
    destruct IHm as (ss & L & G); [lia|]. destruct (getSliceData_spec (Z.of_nat m)) as (l & E & C); [lia|].
    exists (ss ++ [l]). split; [rewrite app_length; simpl; lia|]. intros i Hi. rewrite zget_snoc, L.
    destruct (Z.eqb_spec i (Z.of_nat m)) as [->|]; [eauto|]. apply G. lia. }
  destruct (K (Z.to_nat n)) as (ss & L & G); [pose proof okn; lia|]. exists ss. split; auto. intros i Hi. apply G. pose proof okn; lia.
Qed.

(** ** produceY *)
Lemma fill_spec {A} (pos : A -> Z) (val : A -> option V) (L : list A) :
  NoDup L -> (forall x y, In x L -> In y L -> pos x = pos y -> x = y) ->
  (forall x, In x L -> exists v, val x = Some v) ->
  forall Y, (forall x, In x L -> 0 <= pos x < Z.of_nat (length Y)) ->
  exists Y', foldM (fun x Y => v <- val x ;; zset Y (pos x) v) L Y = Some Y' /\ length Y' = length Y /\
    (forall x, In x L -> zget Y' (pos x) = val x) /\
    (forall k, (forall x, In x L -> pos x <> k) -> zget Y' k = zget Y k).
Proof.
  induction L as [|x L IH]; intros ND INJ HV Y HP; cbn [foldM].
  - exists Y. split; [|split; [|split]]; auto. intros x [].
  - inversion ND as [|? ? NI ND']; subst.
    destruct (HV x (or_introl eq_refl)) as (v & Ev). rewrite Ev. cbn [obind].
    rewrite zset_some by (apply HP; now left). cbn [obind].
    destruct (IH) with (Y := upd (Z.to_nat (pos x)) v Y) as (Y' & E & LY & G1 & G2); auto.
    { intros z w Hz Hw. apply INJ; now right. }
    { intros z Hz. apply HV. now right. }
    { intros z Hz. rewrite upd_length. apply HP. now right. }
    exists Y'. split; auto. split; [now rewrite LY, upd_length|]. split.
    + intros z [<-|Hz]; auto. rewrite G2.
      * rewrite zget_upd by (apply HP; now left). now rewrite Z.eqb_refl.
      * intros w Hw EE. apply NI. rewrite <- (INJ w x); auto; [now right|now left].
    + intros k Hk. rewrite G2 by (intros; apply Hk; now right). rewrite zget_upd by (apply HP; now left).
      destruct (Z.eqb_spec k (pos x)) as [->|]; auto. exfalso. eapply Hk; eauto. now left.
Qed.

Lemma produceY_spec ind Y : (forall k r, zget ind k = Some r -> 0 <= r < n) ->
  is_data (upd a (Z.of_nat (length ind)) s) Y ->
  exists Y', produceY s (omStrides s) data ind a Y = Some Y' /\ is_data (upd a (Z.of_nat (length ind)) s) Y' /\
    forall idx k r, valid (upd a (Z.of_nat (length ind)) s) idx -> nth_error idx a = Some k -> zget ind k = Some r ->
      elem (upd a (Z.of_nat (length ind)) s) Y' idx = elem s data (upd a r idx).
Proof.
  intros HI HY. set (T := Z.of_nat (length ind)) in *. unfold produceY.
  replace (6 <? length s)%nat with false by (symmetry; apply Nat.ltb_ge; lia).
  replace (length s <=? a)%nat with false by (symmetry; apply Nat.leb_gt; apply aLt). cbn [orb]. fold T.
  assert (OK' : okshape (upd a T s)) by (apply okshape_upd; auto; lia).
  set (val := fun dim => k <- nth_error dim a ;; i <- zget ind k ;; zget data (offset (omStrides s) (upd a i dim))).
  assert (VK : forall idx, valid (upd a T s) idx -> exists k r v, nth_error idx a = Some k /\ zget ind k = Some r /\
      elem s data (upd a r idx) = Some v /\ val idx = Some v).
  { intros idx HV. destruct (valid_nth _ _ a HV) as (d & k & Ed & Ek & Hk); [rewrite upd_length; apply aLt|].
    rewrite nth_error_upd_same in Ed by apply aLt. injection Ed as <-.
    destruct (zget_some ind k) as (r & Er); [exact Hk|]. pose proof (HI k r Er).
    assert (HVs : valid s (upd a r idx)).
    { pose proof (valid_upd _ _ a r n HV H) as X. rewrite upd_upd, (upd_nth_same s a n HA) in X. auto. }
    destruct (elem_get _ HVs) as (E1 & v & E2). exists k, r, v. unfold val. rewrite Ek. cbn [obind]. rewrite Er. cbn [obind].
    rewrite E1, E2. auto. }
  destruct (fill_spec (offset (omStrides (upd a T s))) val (loopOrder (upd a T s))) with (Y := Y) as (Y' & E & LY & G & _).
  - apply NoDup_loopOrder.
  - intros x y Hx Hy E. apply in_loopOrder in Hx, Hy; auto.
    rewrite !offset_rm in E by (now apply valid_length). eapply rm_inj; eauto.
  - intros x Hx. apply in_loopOrder in Hx; auto. destruct (VK x Hx) as (k & r & v & _ & _ & _ & Ev). eauto.
  - intros x Hx. apply in_loopOrder in Hx; auto. rewrite offset_rm by (now apply valid_length).
    pose proof (rm_bound _ _ Hx). unfold is_data in HY. lia.
  - exists Y'. split; [|split].
    + rewrite <- E. apply foldM_ext. intros x z Hx. unfold val.
      destruct (nth_error x a); cbn [obind]; auto. destruct (zget ind z0); cbn [obind]; auto.
    + unfold is_data in *. rewrite LY. auto.
    + intros idx k r HV Ek Er. destruct (VK idx HV) as (k' & r' & v & Ek' & Er' & Ev & Eval).
      assert (k' = k) by congruence. subst. assert (r' = r) by congruence. subst.
      rewrite Ev, <- Eval, <- G by (apply in_loopOrder; auto).
      rewrite offset_rm by (now apply valid_length). unfold elem.
      rewrite rowmajor_rm by (now apply valid_length). reflexivity.
Qed.
End Axis.
