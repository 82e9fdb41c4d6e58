(** Proofs about the reduction of constants, sequential and parallel. *)
From Coq Require Import List ZArith Lia Bool Arith Permutation Sorting.Sorted.
From Verif Require Import Util TensorSpec TensorLemmas StridesModel StridesProofs
  ElementsModel ElementsSpec ElementsBase ElementsViews ElementsGather ReduceModel.
Import ListNotations.
Open Scope Z_scope.

(** ** Axes *)
Lemma insert_axis_perm a l : Permutation (insert_axis a l) (a :: l).
Proof.
  induction l; simpl; auto. destruct (a <=? a0)%nat; auto.
  rewrite IHl. constructor.
Qed.

Lemma sort_axes_perm l : Permutation (sort_axes l) l.
Proof. induction l; simpl; auto. rewrite insert_axis_perm. now constructor. Qed.

Lemma insert_axis_sorted a l : Sorted le l -> Sorted le (insert_axis a l).
Proof.
  induction 1; simpl; [repeat constructor|].
  destruct (Nat.leb_spec a a0); [repeat constructor; auto|].
  constructor; auto. destruct l; simpl; [constructor; lia|].
  inversion H0; subst. destruct (a <=? n)%nat; constructor; lia.
Qed.

Lemma sort_axes_sorted l : Sorted le (sort_axes l).
Proof. induction l; simpl; [constructor|]. now apply insert_axis_sorted. Qed.

Lemma axes_unique_strict l : Sorted le l -> axes_unique l = true -> StronglySorted lt l.
Proof.
  intros HS HU. apply Sorted_StronglySorted; [intros x y z; lia|].
  induction HS; [constructor|]. destruct l as [|b l].
  - repeat constructor.
  - simpl in HU. apply andb_true_iff in HU as [E HU]. inversion H; subst.
    apply negb_true_iff, Nat.eqb_neq in E. constructor; auto. constructor. lia.
Qed.

Lemma axes_unique_nodup l : NoDup l -> Sorted le l -> axes_unique l = true.
Proof.
  intros HN HS. induction HS; auto. destruct l as [|b l]; auto.
  inversion HN; subst. change (negb (a =? b)%nat && axes_unique (b :: l) = true).
  rewrite IHHS by auto. rewrite andb_true_r. apply negb_true_iff, Nat.eqb_neq. intros ->.
  apply H2. now left.
Qed.

Fixpoint selected (mask : list bool) (l : list Z) : list Z :=
  match mask, l with
  | true :: m, x :: l' => x :: selected m l'
  | false :: m, _ :: l' => selected m l'
  | _, _ => []
  end.

Lemma reduce_split_spec keep sh : forall axis it st,
  length st = length sh -> StronglySorted lt it -> Forall (fun a => axis <= a)%nat it ->
  reduce_split axis it keep sh st =
  let m := map (fun a => existsb (Nat.eqb a) it) (seq axis (length sh)) in
  ((selected m sh, selected m st), (reduced 1 keep m sh, reduced 0 keep m st)).
Proof.
  induction sh as [|d sh IH]; intros axis it [|k st] HL HS HF; try discriminate; auto.
  simpl in HL. injection HL as HL. cbn [reduce_split length seq map].
  destruct it as [|a it].
  - rewrite IH by (auto; constructor). cbn zeta. reflexivity.
  - inversion HS as [|? ? HS' HA]; subst. inversion HF as [|? ? Ha HF']; subst.
    destruct (Nat.eqb_spec a axis) as [->|NE].
    + assert (HF2 : Forall (fun a => S axis <= a)%nat it).
      { eapply Forall_impl; [|exact HA]. simpl. intros; lia. }
      rewrite IH by auto. cbn zeta.
      assert (ME : map (fun a => existsb (Nat.eqb a) it) (seq (S axis) (length sh)) =
                   map (fun a => existsb (Nat.eqb a) (axis :: it)) (seq (S axis) (length sh))).
      { apply map_ext_in. intros b Hb. apply in_seq in Hb. simpl.
        destruct (Nat.eqb_spec b axis); [lia|reflexivity]. }
      rewrite ME. cbn [existsb]. rewrite Nat.eqb_refl. cbn [orb selected reduced].
      destruct keep; reflexivity.
    + assert (HF2 : Forall (fun b => S axis <= b)%nat (a :: it)).
      { constructor; [lia|]. eapply Forall_impl; [|exact HA]. simpl. intros; lia. }
      rewrite IH by auto. cbn zeta.
      assert (existsb (Nat.eqb axis) (a :: it) = false) as ->.
      { apply not_true_is_false. intros H. apply existsb_exists in H as (b & Hb & E).
        apply Nat.eqb_eq in E. subst b. rewrite Forall_forall in HF2. specialize (HF2 _ Hb). lia. }
      reflexivity.
Qed.

Lemma existsb_perm {A} (f : A -> bool) l m : Permutation l m -> existsb f l = existsb f m.
Proof.
  intros H. apply eq_true_iff_eq. rewrite !existsb_exists.
  assert (H' := Permutation_sym H).
  split; intros (x & Hx & E); exists x; split; auto; eapply Permutation_in; eauto.
Qed.

Lemma mask_perm rank l m : Permutation l m -> axes_mask rank l = axes_mask rank m.
Proof. intros H. unfold axes_mask. apply map_ext. intros. now apply existsb_perm. Qed.

Lemma mask_length rank l : length (axes_mask rank l) = rank.
Proof. unfold axes_mask. now rewrite map_length, seq_length. Qed.

(** ** Indices contributing to one output element *)
Fixpoint merge (keep : bool) (mask : list bool) (o a : list Z) : list Z :=
  match mask with
  | [] => []
  | true :: m => hd 0 a :: merge keep m (if keep then tl o else o) (tl a)
  | false :: m => hd 0 o :: merge keep m (tl o) a
  end.

Lemma pos_merge keep mask : forall o a st, length st = length mask ->
  length o = length (reduced 0 keep mask st) -> length a = length (selected mask st) ->
  pos (merge keep mask o a) st = pos o (reduced 0 keep mask st) + pos a (selected mask st).
Proof.
  induction mask as [|b m IH]; intros o a [|k st] L Lo La; try discriminate.
  - destruct o; [|discriminate]. destruct a; [|discriminate]. reflexivity.
  - simpl in L. injection L as L. destruct b; cbn [merge reduced selected] in *.
    + destruct a as [|x a]; [discriminate|]. cbn [hd tl getStridesPosition]. simpl in La. injection La as La.
      destruct keep.
      * destruct o as [|y o]; [discriminate|]. simpl in Lo. injection Lo as Lo. cbn [tl getStridesPosition].
        rewrite IH by auto. ring.
      * rewrite IH by auto. ring.
    + destruct o as [|y o]; [discriminate|]. simpl in Lo. injection Lo as Lo. cbn [hd tl getStridesPosition].
      rewrite IH by auto. ring.
Qed.

Lemma filter_flat_map {A B} (p : B -> bool) (f : A -> list B) l :
  filter p (flat_map f l) = flat_map (fun a => filter p (f a)) l.
Proof. induction l; simpl; auto. rewrite filter_app, IHl. auto. Qed.

Lemma filter_map_comm {A B} (p : B -> bool) (f : A -> B) l :
  filter p (map f l) = map f (filter (fun a => p (f a)) l).
Proof. induction l; simpl; auto. destruct (p (f a)); simpl; rewrite IHl; auto. Qed.

Lemma flat_map_ext_in {A B} (f g : A -> list B) l : (forall a, In a l -> f a = g a) -> flat_map f l = flat_map g l.
Proof. induction l; simpl; intros H; auto. rewrite H, IHl; auto. Qed.

Lemma flat_map_map {A B C} (f : B -> C) (g : A -> list B) l :
  map f (flat_map g l) = flat_map (fun a => map f (g a)) l.
Proof. induction l; simpl; auto. rewrite map_app, IHl. auto. Qed.

Lemma flat_map_single {B} (g : Z -> list B) d x : 0 <= x < d ->
  (forall i, 0 <= i < d -> i <> x -> g i = []) -> flat_map g (zrange d) = g x.
Proof.
  intros Hx H. unfold zrange. 
  assert (GEN : forall n a, a <= x < a + Z.of_nat n ->
    (forall i, a <= i < a + Z.of_nat n -> i <> x -> g i = []) -> flat_map g (zseq a n) = g x).
  { induction n; intros a Ha Hg; [lia|]. cbn [zseq flat_map]. destruct (Z.eq_dec a x) as [->|NE].
    - assert (flat_map g (zseq (x + 1) n) = []) as ->; [|apply app_nil_r].
      assert (forall i, In i (zseq (x + 1) n) -> g i = []) as Hn.
      { intros i Hi. apply zseq_In in Hi. apply Hg; lia. }
      revert Hn. generalize (zseq (x + 1) n). induction l; simpl; intros Hn; auto.
      rewrite Hn by auto. simpl. apply IHl. auto.
    - rewrite Hg by lia. simpl. apply IHn; [lia|]. intros. apply Hg; lia. }
  apply GEN; [lia|]. intros. apply H; lia.
Qed.


Lemma beq_idx_cons x y a b : beq_idx (x :: a) (y :: b) = (x =? y) && beq_idx a b.
Proof.
  unfold beq_idx. destruct (list_eq_dec _ (x :: a) (y :: b)) as [E|E]; destruct (Z.eqb_spec x y), (list_eq_dec Z.eq_dec a b);
    simpl; try congruence; subst; contradiction.
Qed.

Lemma filter_merge keep : forall mask s o, length mask = length s ->
  valid (reduced 1 keep mask s) o ->
  filter (fun idx => beq_idx (reduced 0 keep mask idx) o) (indices s) =
  map (merge keep mask o) (indices (selected mask s)).
Proof.
  induction mask as [|b m IH]; intros [|d s] o L V; try discriminate.
  - inversion V; subst. reflexivity.
  - simpl in L. injection L as L. cbn [indices selected].
    rewrite filter_flat_map. destruct b; cbn [selected indices reduced] in *.
    + rewrite flat_map_map. apply flat_map_ext_in. intros i _.
      rewrite filter_map_comm, map_map. cbn [merge hd tl].
      rewrite <- (map_map (merge keep m (if keep then tl o else o)) (cons i)). f_equal.
      destruct keep.
      * inversion V as [|? x ? o' Hx V']; subst. cbn [tl]. rewrite <- (IH s o') by auto.
        apply filter_ext. intros idx. cbn [reduced]. rewrite beq_idx_cons.
        assert (x = 0) by lia. subst. reflexivity.
      * rewrite <- (IH s o) by auto. reflexivity.
    + inversion V as [|? x ? o' Hx V']; subst.
      rewrite (flat_map_single _ d x); auto.
      * rewrite filter_map_comm. cbn [merge hd tl].
        rewrite <- (map_map (merge keep m o') (cons x)). f_equal. rewrite <- (IH s o') by auto.
        apply filter_ext. intros idx. cbn [reduced]. rewrite beq_idx_cons, Z.eqb_refl. reflexivity.
      * intros i Hi NE. rewrite filter_map_comm.
        rewrite (filter_ext _ (fun _ => false)). { clear. induction (indices s); simpl; auto. }
        intros idx. cbn [reduced]. rewrite beq_idx_cons. destruct (Z.eqb_spec i x); [lia|reflexivity].
Qed.

Lemma selected_length mask : forall l l', length l = length l' ->
  length (selected mask l) = length (selected mask l').
Proof. induction mask as [|[] m IH]; intros [|] [|] E; simpl in *; try discriminate; auto. Qed.

Lemma reduced_length v v' keep mask : forall l l', length l = length l' ->
  length (reduced v keep mask l) = length (reduced v' keep mask l').
Proof.
  induction mask as [|[] m IH]; intros [|] [|] E; simpl in *; try discriminate; auto.
  destruct keep; simpl; auto.
Qed.

Lemma selected_ok mask : forall s, okshape s -> okshape (selected mask s).
Proof.
  induction mask as [|[] m IH]; intros [|d s] Ok; simpl; try constructor; inversion Ok; subst; auto.
  apply IH; auto.
Qed.

Lemma reduced_ok keep mask : forall s, okshape s -> okshape (reduced 1 keep mask s).
Proof.
  induction mask as [|[] m IH]; intros [|d s] Ok; simpl; try constructor; inversion Ok; subst; auto.
  - destruct keep; [constructor; [lia|]|]; apply IH; auto.
  - apply IH; auto.
Qed.

Lemma selected_pos mask s : Forall (fun d => 0 < d) s -> 0 < size (selected mask s).
Proof.
  revert s; induction mask as [|[] m IH]; intros [|d s] H; cbn [selected]; rewrite ?size_nil, ?size_cons; try lia.
  - inversion H; subst. specialize (IH _ H3). nia.
  - inversion H; subst. auto.
Qed.

(** ** Interleavings *)
Lemma interleave_filter {A} (P : A -> bool) ts tr : interleave ts tr ->
  (exists k, forall j l, j <> k -> nth_error ts j = Some l -> filter P l = []) ->
  filter P tr = filter P (List.concat ts).
Proof.
  induction 1 as [ts HF|ts1 a t ts2 tr HI IH]; intros (k & Hk).
  - assert (List.concat ts = []) as ->; auto. clear Hk. induction HF; simpl; auto. subst. auto.
  - cbn [filter]. rewrite IH.
    2:{ exists k. intros j l NE E.
        destruct (Nat.lt_trichotomy j (length ts1)) as [H|[H|H]].
        - apply (Hk j); auto. rewrite nth_error_app1 in * by auto. auto.
        - subst j. rewrite nth_error_app2, Nat.sub_diag in E by lia. simpl in E. injection E as <-.
          specialize (Hk (length ts1) (a :: t) NE). rewrite nth_error_app2, Nat.sub_diag in Hk by lia.
          specialize (Hk eq_refl). simpl in Hk. destruct (P a); [discriminate|auto].
        - apply (Hk j); auto. rewrite nth_error_app2 in * by lia.
          destruct (j - length ts1)%nat eqn:EJ; [lia|]. auto. }
    rewrite !concat_app, !filter_app. cbn [List.concat]. rewrite !filter_app. cbn [filter].
    destruct (P a) eqn:Pa; auto.
    assert (KE : k = length ts1).
    { destruct (Nat.eq_dec (length ts1) k); auto. specialize (Hk (length ts1) (a :: t) n).
      rewrite nth_error_app2, Nat.sub_diag in Hk by lia. specialize (Hk eq_refl). simpl in Hk.
      rewrite Pa in Hk. discriminate. }
    assert (filter P (List.concat ts1) = []) as ->; auto.
    assert (HN : forall l, In l ts1 -> filter P l = []).
    { intros l Hl. apply In_nth_error in Hl as (j & E).
      assert (j < length ts1)%nat by (apply nth_error_Some; congruence).
      apply (Hk j); [lia|]. rewrite nth_error_app1; auto. }
    clear - HN. induction ts1; simpl; auto. rewrite filter_app, HN, IHts1; auto.
    + intros; apply HN; now right.
    + now left.
Qed.

Lemma interleave_perm {A} (ts : list (list A)) tr : interleave ts tr -> Permutation tr (List.concat ts).
Proof.
  induction 1 as [ts HF|ts1 a t ts2 tr HI IH].
  - assert (List.concat ts = []) as ->; auto. induction HF; simpl; auto. subst. auto.
  - rewrite IH. rewrite !concat_app. cbn [List.concat]. rewrite <- app_comm_cons. apply Permutation_middle.
Qed.

Lemma interleave_concat {A} (ts : list (list A)) : interleave ts (List.concat ts).
Proof.
  assert (GEN : forall (ts done : list (list A)), Forall (fun t => t = []) done ->
            interleave (done ++ ts) (List.concat ts)).
  { clear. induction ts as [|t ts IH]; intros done HD.
    - rewrite app_nil_r. simpl. now constructor.
    - cbn [List.concat]. induction t as [|a t IHt]; cbn [app].
      + specialize (IH (done ++ [[]])). rewrite <- app_assoc in IH. apply IH.
        apply Forall_app. auto.
      + constructor. apply IHt. }
  apply (GEN ts []). constructor.
Qed.

Lemma one_tile (tiles : list (list (Z * Z))) p : NoDup (map fst (List.concat tiles)) ->
  exists k, forall j l, j <> k -> nth_error tiles j = Some l -> ~ In p (map fst l).
Proof.
  induction tiles as [|t tiles IH]; intros HN.
  - exists O. intros [|] ?; discriminate.
  - cbn [List.concat] in HN. rewrite map_app in HN.
    destruct (in_dec Z.eq_dec p (map fst t)) as [Hin|Hnot].
    + exists O. intros [|j] l NE E; [congruence|]. simpl in E. intros Hl.
      assert (In p (map fst (List.concat tiles))).
      { apply in_map_iff in Hl as (b & <- & Hb). apply in_map. apply in_concat. exists l. split; auto.
        eapply nth_error_In; eauto. }
      apply in_split in Hin as (l1 & l2 & E1). rewrite E1 in HN. rewrite <- app_assoc in HN.
      apply NoDup_remove_2 in HN. apply HN. apply in_or_app. right. apply in_or_app. auto.
    + destruct IH as (k & Hk). { clear - HN. induction (map fst t); auto. inversion HN; auto. }
      exists (S k). intros [|j] l NE E; simpl in E; [congruence|]. apply (Hk j); auto.
Qed.

Lemma work_filter_nil offs tile p : ~ In p (map fst tile) -> filter (fun a => cell a =? p) (work offs tile) = [].
Proof.
  intros H. unfold work. rewrite filter_flat_map. induction tile as [|b tile IH]; auto.
  cbn [flat_map]. cbn [map] in H. rewrite IH by (intros Q; apply H; now right).
  rewrite app_nil_r. assert (NE : fst b <> p) by (intros Q; apply H; now left).
  cbn [entry_actions filter cell]. destruct (Z.eqb_spec (fst b) p); [tauto|].
  induction (tl offs); cbn [map filter cell]; auto.
  destruct (Z.eqb_spec (fst b) p); [tauto|auto].
Qed.

Lemma work_concat offs tiles : List.concat (map (work offs) tiles) = work offs (List.concat tiles).
Proof.
  induction tiles; simpl; auto. unfold work in *. rewrite flat_map_app, IHtiles. auto.
Qed.

(** ** Tiles *)
Lemma cuts_concat {A} (l : list A) (c : Z -> Z) n : forall a,
  (forall t, a <= t < a + Z.of_nat n -> 0 <= c t <= c (t + 1)) ->
  c (a + Z.of_nat n) <= Z.of_nat (length l) -> 0 <= c a ->
  List.concat (map (fun t => firstn (Z.to_nat (c (t + 1) - c t)) (skipn (Z.to_nat (c t)) l)) (zseq a n)) =
  firstn (Z.to_nat (c (a + Z.of_nat n) - c a)) (skipn (Z.to_nat (c a)) l).
Proof.
  induction n; intros a Hc Hl Ha.
  - cbn [zseq map List.concat]. replace (c (a + Z.of_nat 0) - c a) with 0 by (rewrite Z.add_0_r; lia). reflexivity.
  - cbn [zseq map List.concat].
    assert (MON : c (a + 1) <= c (a + Z.of_nat (S n))).
    { assert (G : forall m, (m <= n)%nat -> c (a + 1) <= c (a + 1 + Z.of_nat m)).
      { induction m; intros; [rewrite Z.add_0_r; lia|].
        specialize (Hc (a + 1 + Z.of_nat m)). replace (a + 1 + Z.of_nat m + 1) with (a + 1 + Z.of_nat (S m)) in Hc by lia. lia. }
      specialize (G n (le_n _)). replace (a + Z.of_nat (S n)) with (a + 1 + Z.of_nat n) by lia. auto. }
    assert (H0 := Hc a). rewrite IHn; try lia.
    + replace (a + 1 + Z.of_nat n) with (a + Z.of_nat (S n)) by lia.
      set (u := c (a + Z.of_nat (S n))) in *.
      replace (skipn (Z.to_nat (c (a + 1))) l) with (skipn (Z.to_nat (c (a + 1) - c a)) (skipn (Z.to_nat (c a)) l)).
      2:{ rewrite skipn_add. f_equal. lia. }
      generalize (skipn (Z.to_nat (c a)) l). intros m.
      replace (Z.to_nat (u - c a)) with (Nat.add (Z.to_nat (c (a + 1) - c a)) (Z.to_nat (u - c (a + 1)))) by lia.
      generalize (Z.to_nat (c (a + 1) - c a)), (Z.to_nat (u - c (a + 1))). intros x y. revert m.
      induction x; intros m; simpl; auto. destruct m; simpl; [now destruct y|]. f_equal. apply IHx.
    + intros t Ht. apply Hc. lia.
    + replace (a + 1 + Z.of_nat n) with (a + Z.of_nat (S n)) by lia. auto.
Qed.

Definition tile_begin (n len t : Z) : Z := t * (len / n) + Z.min t (len mod n).

Lemma fetchBatch_spec n batch t : 0 < n -> 0 <= t < n ->
  let len := Z.of_nat (length batch) in
  fetchBatch n batch t =
  Some (firstn (Z.to_nat (tile_begin n len (t + 1) - tile_begin n len t)) (skipn (Z.to_nat (tile_begin n len t)) batch)) /\
  0 <= tile_begin n len t <= tile_begin n len (t + 1) /\ tile_begin n len (t + 1) <= len.
Proof.
  intros Hn Ht len. unfold fetchBatch. fold len. unfold tile_begin.
  pose proof (Z_div_mod_eq_full len n) as DM. pose proof (Z.mod_pos_bound len n Hn) as MB.
  assert (Hq : 0 <= len / n) by (apply Z.div_pos; unfold len; lia).
  set (q := len / n) in *. set (r := len mod n) in *.
  assert (t * q <= n * q) by nia. assert ((t + 1) * q <= n * q) by nia. assert (0 <= t * q) by nia.
  destruct (Z.ltb_spec t r).
  - rewrite !Z.min_l by lia.
    replace (t * (q + 1)) with (t * q + t) by ring. replace ((t + 1) * q + (t + 1) - (t * q + t)) with (q + 1) by ring.
    destruct (Z.leb_spec 0 (t * q + t)), (Z.leb_spec (t * q + t + (q + 1)) len); cbn [andb]; try lia.
    split; auto. lia.
  - rewrite !Z.min_r by lia.
    replace ((t + 1) * q + r - (t * q + r)) with q by ring.
    destruct (Z.leb_spec 0 (t * q + r)), (Z.leb_spec (t * q + r + q) len); cbn [andb]; try lia.
    split; auto. lia.
Qed.

Lemma tiles_concat n batch tiles : 0 < n ->
  Forall2 (fun t tile => fetchBatch n batch t = Some tile) (zrange n) tiles -> List.concat tiles = batch.
Proof.
  intros Hn HF. set (len := Z.of_nat (length batch)).
  assert (E : tiles = map (fun t => firstn (Z.to_nat (tile_begin n len (t + 1) - tile_begin n len t))
                                     (skipn (Z.to_nat (tile_begin n len t)) batch)) (zrange n)).
  { assert (G : forall l, (forall t, In t l -> 0 <= t < n) -> forall tiles,
      Forall2 (fun t tile => fetchBatch n batch t = Some tile) l tiles ->
      tiles = map (fun t => firstn (Z.to_nat (tile_begin n len (t + 1) - tile_begin n len t))
                                     (skipn (Z.to_nat (tile_begin n len t)) batch)) l).
    { clear HF tiles. intros l Hl tiles HF. induction HF; simpl; auto.
      destruct (fetchBatch_spec n batch x Hn) as [F _]; [apply Hl; now left|]. cbn zeta in F. fold len in F.
      rewrite F in H. injection H as <-. f_equal. apply IHHF. intros; apply Hl; now right. }
    apply G; auto. intros t. now rewrite zrange_In. }
  assert (B0 : tile_begin n len 0 = 0) by (unfold tile_begin; pose proof (Z.mod_pos_bound len n Hn); lia).
  assert (BN : tile_begin n len n = len).
  { unfold tile_begin. pose proof (Z_div_mod_eq_full len n). pose proof (Z.mod_pos_bound len n Hn).
    rewrite Z.min_r by lia. lia. }
  rewrite E. unfold zrange. rewrite cuts_concat; rewrite ?Z.add_0_l, ?Z2Nat.id by lia.
  - rewrite B0, BN, Z.sub_0_r. simpl. unfold len. rewrite Nat2Z.id. apply firstn_all.
  - intros t Ht. destruct (fetchBatch_spec n batch t Hn) as (_ & G & _); auto.
  - rewrite BN. unfold len. lia.
  - lia.
Qed.

Lemma tiles_exist n batch : 0 < n ->
  exists tiles, Forall2 (fun t tile => fetchBatch n batch t = Some tile) (zrange n) tiles.
Proof.
  intros Hn.
  assert (G : forall l, (forall t, In t l -> 0 <= t < n) ->
    exists tiles, Forall2 (fun t tile => fetchBatch n batch t = Some tile) l tiles).
  { induction l; intros H; [exists []; constructor|].
    destruct IHl as (ts & HF); [intros; apply H; now right|].
    destruct (fetchBatch_spec n batch a Hn) as [F _]; [apply H; now left|].
    eexists. constructor; [exact F|exact HF]. }
  apply G. intros t. now rewrite zrange_In.
Qed.

(** Every schedule touches each cell in the sequential order. *)
Lemma schedule_cell n batch offs tr p : 0 < n -> NoDup (map fst batch) -> schedule n batch offs tr ->
  filter (fun a => cell a =? p) tr = filter (fun a => cell a =? p) (work offs batch).
Proof.
  intros Hn HN. unfold schedule. destruct (_ <? 2000); [now intros ->|].
  intros (tiles & HT & HI). apply tiles_concat in HT; auto. subst batch.
  rewrite (interleave_filter _ _ _ HI), work_concat; auto.
  destruct (one_tile tiles p HN) as (k & Hk). exists k. intros j l NE E.
  rewrite nth_error_map in E. destruct (nth_error tiles j) eqn:ET; [|discriminate]. injection E as <-.
  apply work_filter_nil. eapply Hk; eauto.
Qed.

Lemma schedule_In n batch offs tr a : 0 < n -> schedule n batch offs tr -> In a tr -> In a (work offs batch).
Proof.
  intros Hn. unfold schedule. destruct (_ <? 2000); [now intros ->|].
  intros (tiles & HT & HI) Ha. apply tiles_concat in HT; auto. subst batch.
  rewrite <- work_concat. eapply Permutation_in; [|exact Ha]. now apply interleave_perm.
Qed.

Lemma schedule_exists n batch offs : 0 < n -> exists tr, schedule n batch offs tr.
Proof.
  intros Hn. unfold schedule. destruct (_ <? 2000); [eauto|].
  destruct (tiles_exist n batch Hn) as (tiles & HT).
  exists (List.concat (map (work offs) tiles)), tiles. split; auto. apply interleave_concat.
Qed.

(** ** Cell-wise execution *)
Section Cells.
Context {W : Type}.
Variable src : list W.
Variable reducer : W -> W -> W.

Definition srcp (a : action) : Z := match a with Init _ q | Acc _ q => q end.
Definition cellv (v : option W) (a : action) : option W :=
  match a with
  | Init _ q => zget src q
  | Acc _ q => d <- v ;; x <- zget src q ;; Some (reducer d x)
  end.

Lemma exec_cells tr : forall dst,
  Forall (fun a => 0 <= cell a < Z.of_nat (length dst) /\ 0 <= srcp a < Z.of_nat (length src)) tr ->
  exists dst', foldM (exec src reducer) tr dst = Some dst' /\ length dst' = length dst /\
    forall p, zget dst' p = fold_left cellv (filter (fun a => cell a =? p) tr) (zget dst p).
Proof.
  induction tr as [|a tr IH]; intros dst HF.
  - exists dst. repeat split; auto.
  - inversion HF as [|? ? [Hc Hs] HF']; subst. cbn [foldM].
    destruct (zget_some src (srcp a) Hs) as (x & Ex).
    assert (EX : exists v, exec src reducer a dst = Some (upd (Z.to_nat (cell a)) v dst) /\
                           cellv (zget dst (cell a)) a = Some v).
    { destruct a; cbn [exec cell srcp cellv] in *.
      - rewrite Ex. cbn [obind]. rewrite zset_some by lia. eauto.
      - destruct (zget_some dst p Hc) as (d & Ed). rewrite Ed, Ex. cbn [obind]. rewrite zset_some by lia. eauto. }
    destruct EX as (v & E1 & E2). rewrite E1. cbn [obind].
    destruct (IH (upd (Z.to_nat (cell a)) v dst)) as (dst' & E & L & G).
    { rewrite upd_length. auto. }
    exists dst'. split; auto. rewrite upd_length in L. split; auto.
    intros p. rewrite G, zget_upd by lia. cbn [filter]. rewrite (Z.eqb_sym (cell a)).
    destruct (Z.eqb_spec p (cell a)) as [->|NE]; auto. cbn [fold_left]. now rewrite E2.
Qed.

(** Value computed for one batch entry. *)
Lemma cellv_fold q offs v d0 ws : Forall2 (fun o w => zget src (q + o) = Some w) offs ws ->
  zget src q = Some d0 -> forall p,
  fold_left cellv (Init p q :: map (fun o => Acc p (q + o)) offs) v = Some (fold_left reducer ws d0).
Proof.
  intros HF Hd p. cbn [fold_left cellv]. rewrite Hd. clear Hd. revert d0. induction HF; intros d0; auto.
  cbn [map fold_left cellv obind]. rewrite H. cbn [obind]. apply IHHF.
Qed.
End Cells.

Lemma work_filter_cell offs (g : Z -> Z) n p : 0 <= p < n ->
  filter (fun a => cell a =? p) (work offs (map (fun k => (k, g k)) (zrange n))) = entry_actions offs (p, g p).
Proof.
  intros Hp. unfold work. rewrite filter_flat_map.
  rewrite (flat_map_concat_map _ (map _ _)), map_map, <- flat_map_concat_map.
  rewrite (flat_map_single _ n p); auto.
  - unfold entry_actions. cbn [filter cell fst snd]. rewrite Z.eqb_refl. f_equal.
    induction (tl offs); cbn [map filter cell]; auto. rewrite Z.eqb_refl. f_equal. auto.
  - intros i _ NE. unfold entry_actions. cbn [filter cell fst snd]. destruct (Z.eqb_spec i p); [lia|].
    induction (tl offs); cbn [map filter cell]; auto. destruct (Z.eqb_spec i p); [lia|]. auto.
Qed.

Lemma pos_zeros m : forall st, pos (repeat 0 m) st = 0.
Proof. induction m; intros [|k st]; cbn [repeat getStridesPosition]; auto. rewrite IHm. ring. Qed.

(** ** reduce *)
Section Reduce.
Context {W : Type}.
Variable junk : W.
Implicit Types e : elements W.

Lemma reduced_none keep rank l : length l = rank -> forall v, reduced v keep (axes_mask rank []) l = l.
Proof.
  intros <- v. unfold axes_mask. generalize O. induction l; intros n; simpl; auto. f_equal. apply IHl.
Qed.

Lemma filter_self s o : valid s o -> filter (fun idx => beq_idx idx o) (indices s) = [o].
Proof.
  intros V. assert (L : length (axes_mask (length s) []) = length s) by apply mask_length.
  pose proof (filter_merge false (axes_mask (length s) []) s o L) as H.
  rewrite reduced_none in H by auto. specialize (H V).
  assert (E : filter (fun idx => beq_idx idx o) (indices s) =
              filter (fun idx => beq_idx (reduced 0 false (axes_mask (length s) []) idx) o) (indices s)).
  { apply filter_ext_in. intros idx Hi. rewrite reduced_none; auto.
    apply indices_valid in Hi; [|eapply valid_okshape; eauto]. symmetry. now apply valid_length. }
  rewrite E, H. clear E H L. revert o V. unfold axes_mask. generalize O.
  induction s; intros n o V; inversion V as [|? y ? l' H1 H3]; subst; auto.
  cbn [length seq map existsb selected merge hd tl].
  specialize (IHs (S n) l' H3).
  assert (N : forall s n, selected (map (fun a => existsb (Nat.eqb a) []) (seq n (length s))) s = []).
  { clear. induction s; intros n; cbn [length seq map existsb selected]; auto. }
  rewrite N in *. cbn [indices map] in *. injection IHs as E. now rewrite E.
Qed.

Lemma reduce_main n e s data axes keep f r :
  const junk e s data -> 0 < size s -> NoDup axes -> 0 < n ->
  reduce_run junk n e axes keep f r ->
  let mask := axes_mask (length s) axes in
  exists e' out, r = Some e' /\ const junk e' (reduced_shape keep mask s) out /\
    forall o, valid (reduced_shape keep mask s) o ->
      exists ws, Forall2 (fun idx w => elem s data idx = Some w)
                   (filter (fun idx => beq_idx (reduced_index keep mask idx) o) (indices s)) ws /\
                 elem (reduced_shape keep mask s) out o = fold1 f ws.
Proof.
  intros C Hs HN Hn HR mask. destruct (const_data _ _ _ _ C) as [Ok D].
  assert (C' := C). apply const_iff in C' as (We & Se & Re).
  unfold reduce_run in HR. rewrite Se in HR. unfold getNumElements in HR. fold (size s) in HR.
  destruct (Z.eqb_spec (size s) 0); [lia|]. destruct axes as [|ax axes].
  - subst r. exists e, data. split; auto. unfold reduced_shape, reduced_index.
    unfold mask. rewrite reduced_none by auto. split; auto. intros o V.
    rewrite (filter_ext_in _ (fun idx => beq_idx idx o)).
    2:{ intros idx Hi. rewrite reduced_none; auto.
        apply indices_valid in Hi; auto. symmetry. now apply valid_length. }
    rewrite filter_self by auto.
    destruct (zget_some data (rm s o)) as (w & Ew). { rewrite D. now apply rm_bound. }
    exists [w]. rewrite elem_rm by auto. split; [|exact Ew]. constructor; [|constructor].
    rewrite elem_rm by auto. auto.
  - set (axs := ax :: axes) in *. clearbody axs. clear ax axes.
    assert (HS := sort_axes_sorted axs). assert (HP := sort_axes_perm axs).
    assert (HU : axes_unique (sort_axes axs) = true).
    { apply axes_unique_nodup; auto. eapply Permutation_NoDup; [|exact HN]. now symmetry. }
    rewrite HU in HR. cbn [negb] in HR.
    assert (HL : length (e_strides e) = length s) by (rewrite (wf_len _ We), Se; auto).
    rewrite (reduce_split_spec keep s 0 (sort_axes axs) (e_strides e)) in HR; auto.
    2:{ now apply axes_unique_strict. }
    2:{ apply Forall_forall. intros; lia. }
    cbn zeta in HR. change (map (fun a => existsb (Nat.eqb a) (sort_axes axs)) (seq 0 (length s)))
      with (axes_mask (length s) (sort_axes axs)) in HR.
    rewrite (mask_perm _ _ _ HP) in HR. fold mask in HR.
    assert (ML : length mask = length s) by apply mask_length.
    set (ash := selected mask s) in *. set (ast := selected mask (e_strides e)) in *.
    assert (RS : reduced 1 keep mask s = reduced_shape keep mask s) by reflexivity.
    rewrite RS in HR.
    set (rsh := reduced_shape keep mask s) in *. set (rst := reduced 0 keep mask (e_strides e)) in *.
    assert (Oa : okshape ash) by now apply selected_ok.
    assert (Or : okshape rsh) by now apply reduced_ok.
    assert (La : length ast = length ash) by now apply selected_length.
    assert (Lr : length rst = length rsh) by now apply reduced_length.
    assert (Pa : 0 < size ash). { apply selected_pos. now apply size_pos_of. }
    set (offs := map (fun it => off it 0) (StridesRange ash [ast])) in *.
    assert (OFFS : offs = map (fun a => pos a ast) (indices ash)).
    { unfold offs. rewrite range_explicit, map_map, indices_unrm, map_map by (auto; repeat constructor; auto).
      apply map_ext. intros k. reflexivity. }
    assert (BATCH : reduce_batch rsh rst = map (fun k => (k, pos (unrm rsh k) rst)) (zrange (size rsh))).
    { unfold reduce_batch. rewrite range_explicit, map_map by (auto; repeat constructor; auto). reflexivity. }
    assert (IDX : exists tli, indices ash = repeat 0 (length ash) :: tli).
    { rewrite indices_unrm by auto. unfold zrange. destruct (Z.to_nat (size ash)) eqn:E; [lia|].
      cbn [zseq map]. eexists. f_equal. clear. induction ash; cbn [unrm length repeat]; auto.
      rewrite Zdiv_0_l, Zmod_0_l. f_equal; auto. }
    destruct IDX as (tli & IDX).
    assert (P0 : pos (repeat 0 (length ash)) ast = 0) by apply pos_zeros.
    assert (OH : offs = 0 :: map (fun a => pos a ast) tli). { rewrite OFFS, IDX. cbn [map]. now rewrite P0. }
    assert (CH : negb (match offs with o :: _ => o =? 0 | [] => false end) = false) by (rewrite OH; reflexivity).
    rewrite CH in HR.
    destruct HR as (tr & HSCH & ->).
    assert (ND : NoDup (map fst (reduce_batch rsh rst))).
    { rewrite BATCH, map_map. cbn [fst]. rewrite map_id. apply NoDup_zseq. }
    (* values of one output element *)
    assert (VAL : forall o, valid rsh o ->
      filter (fun idx => beq_idx (reduced_index keep mask idx) o) (indices s) = map (merge keep mask o) (indices ash) /\
      forall a, In a (indices ash) -> valid s (merge keep mask o a) /\
        pos (merge keep mask o a) (e_strides e) = pos o rst + pos a ast).
    { intros o V. pose proof (filter_merge keep mask s o ML V) as FM. fold ash in FM. split; auto.
      intros a Ha. split.
      - apply indices_valid; auto.
        assert (In (merge keep mask o a) (map (merge keep mask o) (indices ash))) as Hin by now apply in_map.
        rewrite <- FM in Hin. apply filter_In in Hin. tauto.
      - apply pos_merge; [congruence| |].
        + rewrite <- (valid_length _ _ V). symmetry. exact Lr.
        + apply indices_valid in Ha; auto. rewrite <- (valid_length _ _ Ha). symmetry. exact La. }
    pose proof (size_nonneg _ Or) as Hr0.
    destruct (exec_cells (bufferAsWideNums e) f tr (alloc junk rsh)) as (dst & E & L & G).
    { apply Forall_forall. intros a Ha. apply (schedule_In n (reduce_batch rsh rst) offs tr a Hn HSCH) in Ha.
      rewrite (alloc_is_data junk _ Or), bufferAsWideNums_length.
      unfold work in Ha. apply in_flat_map in Ha as (b & Hb & Ha). rewrite BATCH in Hb.
      apply in_map_iff in Hb as (k & <- & Hk). apply zrange_In in Hk.
      destruct (unrm_spec rsh k Or Hk) as [V _]. destruct (VAL _ V) as [_ VA].
      unfold entry_actions in Ha. cbn [fst snd] in Ha. destruct Ha as [<-|Ha].
      - cbn [cell srcp]. split; auto.
        destruct (VA (repeat 0 (length ash))) as [V2 E2]. { rewrite IDX. now left. }
        rewrite P0, Z.add_0_r in E2. rewrite <- E2. apply (wf_bounds _ We). now rewrite Se.
      - rewrite OH in Ha. cbn [tl] in Ha. rewrite map_map in Ha.
        apply in_map_iff in Ha as (a0 & <- & Ha0). cbn [cell srcp]. split; auto.
        destruct (VA a0) as [V2 E2]. { rewrite IDX. now right. }
        rewrite <- E2. apply (wf_bounds _ We). now rewrite Se. }
    rewrite (fromWideNums_spec junk rsh _ dst E).
    assert (DO : is_data rsh dst) by (unfold is_data; rewrite L; now apply alloc_is_data).
    destruct (fresh_wf _ dst Or DO) as [F1 F2].
    eexists _, dst. split; [reflexivity|]. split; [apply const_iff; auto|].
    intros o V. destruct (VAL o V) as [FE VA]. rewrite FE.
    assert (WS : exists ws, Forall2 (fun a w => zget (bufferAsWideNums e) (pos o rst + pos a ast) = Some w) tli ws).
    { assert (HT : forall a, In a tli -> In a (indices ash)) by (intros; rewrite IDX; now right).
      clear - We VA HT Se. induction tli as [|a tli IH]; [exists []; constructor|].
      destruct IH as (ws & HF). { intros; apply HT; now right. }
      destruct (VA a) as [V2 E2]; [apply HT; now left|].
      destruct (zget_some (bufferAsWideNums e) (pos (merge keep mask o a) (e_strides e))) as (w & Ew).
      { rewrite bufferAsWideNums_length. apply (wf_bounds _ We). now rewrite Se. }
      rewrite E2 in Ew. exists (w :: ws). constructor; auto. }
    destruct WS as (ws & HWS).
    destruct (VA (repeat 0 (length ash))) as [V0 E0]. { rewrite IDX. now left. }
    destruct (zget_some (bufferAsWideNums e) (pos (merge keep mask o (repeat 0 (length ash))) (e_strides e))) as (w0 & Ew0).
    { rewrite bufferAsWideNums_length. apply (wf_bounds _ We). now rewrite Se. }
    exists (w0 :: ws). split.
    + rewrite IDX. cbn [map]. constructor.
      * rewrite (const_elem _ _ _ _ _ C V0), den_wide. auto.
      * assert (HT : forall a, In a tli -> In a (indices ash)) by (intros; rewrite IDX; now right).
        clear - HWS HT VA C. induction HWS; constructor.
        -- destruct (VA x) as [V2 E2]; [apply HT; now left|].
           rewrite (const_elem _ _ _ _ _ C V2), den_wide, E2. auto.
        -- apply IHHWS. intros; apply HT; now right.
    + rewrite elem_rm by auto. rewrite G. pose proof (rm_bound _ _ V) as HB.
      rewrite (schedule_cell n _ offs tr _ Hn ND HSCH), BATCH, work_filter_cell by auto.
      rewrite unrm_rm by auto. unfold entry_actions. cbn [fst snd]. rewrite OH. cbn [tl]. rewrite !map_map.
      rewrite <- (map_map (fun a => pos a ast) (fun x => Acc (rm rsh o) (pos o rst + x))).
      cbn [fold1]. apply cellv_fold.
      * clear - HWS. induction HWS; simpl; constructor; auto.
      * rewrite E0, P0, Z.add_0_r in Ew0. auto.
Qed.

End Reduce.
