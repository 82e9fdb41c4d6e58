(** C20: Unique. *)
From Coq Require Import List ZArith Lia Bool Arith Permutation Sorted.
From Verif Require Import Util TensorSpec TensorLemmas OMTensorLayoutModel OMTensorLayoutProofs UniqueModel UniqueSpec UniqueProofs UniqueLoop UniqueAxis.
Import ListNotations.
Open Scope Z_scope.

Lemma filled_full {A} (P : list A -> Prop) T arr : filled T P arr -> (forall c, P c -> length c = T) -> P arr.
Proof.
  intros (c & r & E & L & H) HL. pose proof (HL c H). subst arr. rewrite app_length in L.
  destruct r; [now rewrite app_nil_r|simpl in L; lia].
Qed.
Lemma opt_imp {A} (P Q : A -> Prop) o : opt_out P o -> (forall x, P x -> Q x) -> opt_out Q o.
Proof. destruct o; simpl; auto. Qed.
Lemma occurs_positions {A} (x : A) l c : occurs x l c ->
  exists p, NoDup p /\ (forall i, In i p <-> zget l i = Some x) /\ c = Z.of_nat (length p).
Proof.
  assert (CONS : forall (y : A) l i, zget (y :: l) i = if i =? 0 then Some y else zget l (i - 1)).
  { intros y m i. destruct (Z.eqb_spec i 0) as [->|]; [reflexivity|]. destruct (Z_lt_dec i 0).
    - rewrite !zget_neg by lia. auto.
    - rewrite !zget_spec by lia. replace (Z.to_nat i) with (S (Z.to_nat (i - 1))) by lia. reflexivity. }
  induction 1 as [|l c H (p & ND & HI & E)|y l c NE H (p & ND & HI & E)].
  - exists []. split; [constructor|]. split; auto. intros i. split; [intros []|]. intros Z. apply zlen in Z. simpl in Z. lia.
  - exists (0 :: map (fun i => i + 1) p). split; [|split].
    + constructor; [|apply FinFun.Injective_map_NoDup; auto; intros a b; lia].
      rewrite in_map_iff. intros (i & Ei & Hi). apply HI, zlen in Hi. lia.
    + intros i. rewrite CONS. destruct (Z.eqb_spec i 0) as [->|N].
      * split; auto. now left.
      * simpl. rewrite in_map_iff. split.
        { intros [?|(j & <- & Hj)]; [lia|]. replace (j + 1 - 1) with j by lia. now apply HI. }
        { intros Z. right. exists (i - 1). split; [lia|]. now apply HI. }
    + simpl. rewrite map_length. lia.
  - exists (map (fun i => i + 1) p). split; [|split].
    + apply FinFun.Injective_map_NoDup; auto; intros a b; lia.
    + intros i. rewrite CONS, in_map_iff. destruct (Z.eqb_spec i 0) as [->|N].
      * split; [|congruence]. intros (j & Ej & Hj). apply HI, zlen in Hj. lia.
      * split.
        { intros (j & <- & Hj). replace (j + 1 - 1) with j by lia. now apply HI. }
        { intros Z. exists (i - 1). split; [lia|]. now apply HI. }
    + now rewrite map_length.
Qed.
Lemma zget_some_lt {A} (l : list A) k : 0 <= k < Z.of_nat (length l) -> exists x, zget l k = Some x.
Proof. apply zget_some. Qed.

Section Props.
Context {V : Type}.
Variables veqb vlt : V -> V -> bool.
(** The byte comparison decides equality and [isLessNum] is a strict total order
    (the integer types). *)
Hypothesis EQ : forall x y, veqb x y = true <-> x = y.
Hypothesis LT_irr : forall x, vlt x x = false.
Hypothesis LT_trans : forall x y z, vlt x y = true -> vlt y z = true -> vlt x z = true.
Hypothesis LT_total : forall x y, x <> y -> vlt x y = false -> vlt y x = true.
Notation lt := (fun x y => vlt x y = true).
Notation less := (lex_less lt).
Notation sing := (fun v : V => [v]).

Lemma same_count {A} lt1 (sorted : bool) (l u v : list A) : unique_items lt1 sorted l u -> unique_items lt1 sorted l v -> length u = length v.
Proof.
  intros [N1 S1 _] [N2 S2 _]. apply Nat.le_antisymm; apply NoDup_incl_length; auto; intros x; rewrite ?S1, ?S2; auto.
Qed.

Lemma flat_slices (data : list V) i : 0 <= i < Z.of_nat (length data) ->
  (v <- zget data i ;; Some [v]) = zget (map sing data) i.
Proof. intros H. rewrite zget_map. destruct (zget data i); reflexivity. Qed.

Lemma flat_Forall (data : list V) : Forall (fun x => length x = 1%nat) (map sing data).
Proof. apply Forall_forall. intros x Hx. apply in_map_iff in Hx as (? & <- & _). reflexivity. Qed.

(** ** C20, no axis.  Counting first, then filling buffers of exactly the counted
    size, yields the distinct elements in ascending order (or in order of first
    occurrence), the first positions, the inverse positions and the numbers of
    occurrences; the optional outputs may each be present or absent. *)
Theorem C20_unique_flat (sorted : bool) (s : list Z) (data : list V) (scratch : V) :
  okshape s -> (length s <= 6)%nat -> is_data s data ->
  exists total,
    omTensorUniqueFlat veqb vlt sorted s data None None None None scratch = Some (total, None, None, None, None) /\
    forall Y ind inv cnt,
      Z.of_nat (length Y) = total ->
      opt_out (fun b => Z.of_nat (length b) = total) ind ->
      opt_out (fun b => Z.of_nat (length b) = size s) inv ->
      opt_out (fun b => Z.of_nat (length b) = total) cnt ->
      exists Y' ind' inv' cnt',
        omTensorUniqueFlat veqb vlt sorted s data (Some Y) ind inv cnt scratch = Some (total, Some Y', ind', inv', cnt') /\
        Z.of_nat (length Y') = total /\
        unique_items lt sorted data Y' /\
        (ind' = None <-> ind = None) /\ (inv' = None <-> inv = None) /\ (cnt' = None <-> cnt = None) /\
        opt_out (unique_indices data Y') ind' /\
        opt_out (unique_inverse data Y') inv' /\
        opt_out (unique_counts data Y') cnt'.
Proof.
  intros OK R6 HD. unfold omTensorUniqueFlat.
  replace (6 <? length s)%nat with false by (symmetry; apply Nat.ltb_ge; lia).
  rewrite getNumElems_size. unfold is_data in HD.
  replace (size s) with (Z.of_nat (length data)) by lia.
  destruct (registerAll_spec veqb vlt EQ LT_irr LT_trans LT_total (length data) (length data) sorted
     (fun off => v <- zget data off ;; Some [v]) (map sing data)
     {| t_sorted := sorted; t_num := 0; t_data := repeat [scratch] (Z.to_nat (Z.of_nat (length data)));
        t_indices := None; t_inverse := None; t_counts := None |} 1%nat)
     as (t1 & u1 & E1 & U1 & F1 & I1 & I2 & I3 & _); cbn [t_sorted t_num t_data t_indices t_inverse t_counts opt_out]; auto.
  { now rewrite map_length. }
  { intros; now apply flat_slices. }
  { apply flat_Forall. }
  { intros u ND IN. rewrite <- (map_length sing data). now apply NoDup_incl_length. }
  { rewrite repeat_length. lia. }
  rewrite E1. cbn [obind]. cbn [t_indices t_inverse t_counts] in *. exists (Z.of_nat (length u1)).
  split.
  { destruct I1 as [_ I1], I2 as [_ I2], I3 as [_ I3]. now rewrite I1, I2, I3 by auto. }
  intros Y ind inv cnt LY LI LV LC.
  destruct (registerAll_spec veqb vlt EQ LT_irr LT_trans LT_total (length u1) (length data) sorted
     (fun off => v <- zget data off ;; Some [v]) (map sing data)
     {| t_sorted := sorted; t_num := 0; t_data := map sing Y;
        t_indices := ind; t_inverse := inv; t_counts := cnt |} 1%nat)
     as (t2 & u2 & E2 & U2 & F2 & J1 & J2 & J3 & O1 & O2 & O3); cbn [t_sorted t_num t_data t_indices t_inverse t_counts]; auto.
  { now rewrite map_length. }
  { intros; now apply flat_slices. }
  { apply flat_Forall. }
  { intros u ND IN. apply NoDup_incl_length; auto. intros x Hx. apply (ui_same _ _ _ _ U1). auto. }
  { rewrite map_length. lia. }
  { revert LI. destruct ind; simpl; auto. lia. }
  { revert LV. destruct inv; simpl; auto. lia. }
  { revert LC. destruct cnt; simpl; auto. lia. }
  assert (L21 : length u2 = length u1) by (eapply same_count; eauto).
  rewrite E2. cbn [obind]. cbn [t_indices t_inverse t_counts] in *.
  assert (ED : t_data t2 = u2). { apply (filled_full (fun c => c = u2) (length u1)); auto. intros c ->; auto. }
  set (Y' := concat (t_data t2)).
  assert (EU : u2 = map sing Y').
  { unfold Y'. rewrite ED. apply (sing_concat u2 data). intros x Hx. now apply (ui_same _ _ _ _ U2). }
  assert (LY' : length Y' = length u1) by (rewrite <- L21, EU, map_length; auto).
  exists Y', (t_indices t2), (t_inverse t2), (t_counts t2).
  rewrite L21. split; [reflexivity|]. split; [now rewrite LY'|]. split; [|split; [|split; [|split]]]; auto.
  { rewrite EU in U2. now apply items_sing in U2. }
  rewrite EU in O1, O2, O3. split; [|split].
  - eapply opt_imp; [exact O1|]. intros b HB. apply filled_full in HB.
    + destruct HB as [HL HP]. split; [now rewrite map_length in HL|]. intros k x Hx. destruct (HP k [x]) as (i & Ei & Fi); [now apply zget_sing|].
      exists i. split; auto. now apply first_occ_sing.
    + intros c [HL _]. rewrite HL, map_length. auto.
  - eapply opt_imp; [exact O2|]. intros b HB. apply filled_full in HB.
    + destruct HB as [HL HP]. split; [now rewrite map_length in HL|]. intros k x Hx. destruct (HP k [x]) as (i & Ei & Fi); [now apply zget_sing|].
      exists i. split; auto. now apply zget_sing.
    + intros c [HL _]. rewrite HL, map_length. auto.
  - eapply opt_imp; [exact O3|]. intros b HB. apply filled_full in HB.
    + destruct HB as [HL HP]. split; [now rewrite map_length in HL|]. intros k x Hx. destruct (HP k [x]) as (i & Ei & Fi); [now apply zget_sing|].
      exists i. split; auto. now apply occurs_sing.
    + intros c [HL _]. rewrite HL, map_length. auto.
Qed.

(** ** From lists of slices to axis positions *)
Section ToAxis.
Variables (s : list Z) (a : nat) (data : list V) (n : Z) (ss u : list (list V)) (sorted : bool).
Hypothesis OK : okshape s.
Hypothesis HA : nth_error s a = Some n.
Hypothesis LS : length ss = Z.to_nat n.
Hypothesis HSS : forall i, 0 <= i < n -> exists l, zget ss i = Some l /\ col_slice s a data i l.
Hypothesis HU : unique_items less sorted ss u.
Notation same := (same_slice s a data).
(** the order in which the code compares slices *)
Definition col_before (i j : Z) : Prop := exists li lj, col_slice s a data i li /\ col_slice s a data j lj /\ less li lj.

Lemma ss_range i x : zget ss i = Some x -> 0 <= i < n /\ col_slice s a data i x.
Proof.
  intros E. pose proof (zlen _ _ _ E) as R. assert (0 <= i < n) by lia. split; auto.
  destruct (HSS i H) as (l & E2 & C). congruence.
Qed.
Lemma ss_same i j x y : zget ss i = Some x -> zget ss j = Some y -> (x = y <-> same i j).
Proof.
  intros Ei Ej. apply ss_range in Ei as [Hi Ci], Ej as [Hj Cj]. eapply col_slice_same; eauto.
Qed.

Lemma to_slices reps : unique_indices ss u reps -> unique_slices same col_before n sorted reps.
Proof.
  intros [HL HP]. destruct HU as [ND SM OR].
  assert (G : forall k r, zget reps k = Some r -> exists x, zget u k = Some x /\ first_occ ss x r).
  { intros k r Er. destruct (zget_some u k) as (x & Ex); [apply zlen in Er; lia|]. destruct (HP k x Ex) as (i & Ei & Fi).
    exists x. split; auto. congruence. }
  constructor.
  - intros k r Er. destruct (G k r Er) as (x & Ex & Fx & Fm). split; [now apply ss_range in Fx|].
    intros j Hj HS. destruct (HSS j) as (l & El & _); [apply ss_range in Fx; lia|].
    apply (Fm j); [lia|]. rewrite El. f_equal. now apply (ss_same j r l x).
  - intros k k' r r' NE Er Er' HS. destruct (G k r Er) as (x & Ex & Fx & _), (G k' r' Er') as (x' & Ex' & Fx' & _).
    apply NE. assert (x = x') by (now apply (ss_same r r' x x')). subst x'. eapply NoDup_zget; eauto.
  - intros i Hi. destruct (HSS i Hi) as (l & El & _). assert (In l u). { apply SM. apply zget_In. eauto. }
    apply zget_In in H as (k & Ek). destruct (HP k l Ek) as (r & Er & Fr & _). exists k, r. split; auto.
    now apply (ss_same i r l l).
  - destruct sorted.
    + apply SS_positions. rewrite SS_positions in OR. intros p q v w Hpq Ep Eq.
      destruct (G p v Ep) as (x & Ex & Fx & _), (G q w Eq) as (y & Ey & Fy & _).
      exists x, y. apply ss_range in Fx, Fy. split; [tauto|]. split; [tauto|]. eapply OR; eauto.
    + apply SS_positions. rewrite SS_positions in OR. intros p q v w Hpq Ep Eq.
      destruct (G p v Ep) as (x & Ex & Fx), (G q w Eq) as (y & Ey & Fy).
      destruct (OR p q x y Hpq Ex Ey) as (i & j & F1 & F2 & L).
      rewrite (first_occ_fun ss x v i), (first_occ_fun ss y w j); auto.
Qed.
Lemma to_inverse reps inv : unique_indices ss u reps -> unique_inverse ss u inv -> slices_inverse same n reps inv.
Proof.
  intros [HL HP] [IL IP]. split.
  - rewrite IL, LS. apply Z2Nat.id. unfold okshape in OK. rewrite Forall_forall in OK. apply OK. eapply nth_error_In; eauto.
  - intros i Hi. destruct (HSS i Hi) as (l & El & _). destruct (IP i l El) as (k & Ek & Uk). destruct (HP k l Uk) as (r & Er & Fr & _).
    exists k, r. split; [auto|]. split; [auto|]. now apply (ss_same i r l l).
Qed.
Lemma to_counts reps cnt : unique_indices ss u reps -> unique_counts ss u cnt -> slices_counts same n reps cnt.
Proof.
  intros [HL HP] [CL CP]. split; [lia|]. intros k r Er.
  destruct (zget_some u k) as (x & Ex); [apply zlen in Er; lia|].
  destruct (HP k x Ex) as (i & Ei & Fi & _). assert (i = r) by congruence. subst i.
  destruct (CP k x Ex) as (c & Ec & OC). apply occurs_positions in OC as (p & ND & IP & ->).
  exists p. split; auto. split; auto. intros j. rewrite IP. split.
  - intros Ej. split; [now apply ss_range in Ej|]. now apply (ss_same j r x x).
  - intros [Hj HS]. destruct (HSS j Hj) as (l & El & _). rewrite El. f_equal. now apply (ss_same j r l x).
Qed.
End ToAxis.

(** ** C20 along an axis of a dense row-major tensor: counting first, then filling
    buffers of exactly the counted size.  [Y] holds the subtensors at the reported
    first positions.  [slots0] and [slots] are the table memory (alloca'd resp.
    the memory of Y), [tmp] is unused. *)
Theorem C20_unique_axis (sorted : bool) (s : list Z) (a : nat) (n : Z) (data : list V) slots0 tmp0 :
  okshape s -> (length s <= 6)%nat -> nth_error s a = Some n -> is_data s data ->
  Z.of_nat (length slots0) = n ->
  exists total,
    omTensorUniqueAxis veqb vlt sorted s (omStrides s) data a None None None None slots0 tmp0 = Some (total, None, None, None, None) /\
    forall Y ind inv cnt slots tmp,
      is_data (upd a total s) Y -> Z.of_nat (length slots) = total ->
      Z.of_nat (length ind) = total ->
      opt_out (fun b => Z.of_nat (length b) = n) inv ->
      opt_out (fun b => Z.of_nat (length b) = total) cnt ->
      exists Y' ind' inv' cnt',
        omTensorUniqueAxis veqb vlt sorted s (omStrides s) data a (Some Y) (Some ind) inv cnt slots tmp
          = Some (total, Some Y', Some ind', inv', cnt') /\
        Z.of_nat (length ind') = total /\
        unique_slices (same_slice s a data) (col_before s a data) n sorted ind' /\
        is_data (upd a total s) Y' /\
        (forall idx k r, valid (upd a total s) idx -> nth_error idx a = Some k -> zget ind' k = Some r ->
           elem (upd a total s) Y' idx = elem s data (upd a r idx)) /\
        (inv' = None <-> inv = None) /\ (cnt' = None <-> cnt = None) /\
        opt_out (slices_inverse (same_slice s a data) n ind') inv' /\
        opt_out (slices_counts (same_slice s a data) n ind') cnt'.
Proof.
  intros OK R6 HA HD LS0. pose proof (okn s a n OK HA) as N0. pose proof (aLt s a n HA) as AL.
  unfold omTensorUniqueAxis.
  replace (6 <? length s)%nat with false by (symmetry; apply Nat.ltb_ge; lia).
  replace (length s <=? a)%nat with false by (symmetry; apply Nat.leb_gt; auto). cbn [orb]. rewrite HA. cbn [obind].
  destruct (all_slices s a data n OK R6 HA HD) as (ss & LSS & HSS).
  assert (FL : Forall (fun x => length x = length (indices (rev (upd a 1 s)))) ss).
  { apply Forall_forall. intros x Hx. apply zget_In in Hx as (i & Ei). pose proof (zlen _ _ _ Ei).
    destruct (HSS i) as (l & El & _ & C); [lia|]. assert (l = x) by congruence. subst. eapply col_slice_len; eauto. }
  destruct (registerAll_spec veqb vlt EQ LT_irr LT_trans LT_total (length ss) (length ss) sorted
     (getSliceData s (omStrides s) data a) ss
     {| t_sorted := sorted; t_num := 0; t_data := slots0; t_indices := None; t_inverse := None; t_counts := None |} (length (indices (rev (upd a 1 s)))))
     as (t1 & u1 & E1 & U1 & F1 & I1 & I2 & I3 & _); cbn [t_sorted t_num t_data t_indices t_inverse t_counts opt_out]; eauto.
  { intros i Hi. destruct (HSS i) as (l & El & G & _); [lia|]. congruence. }
  { intros u ND IN. now apply NoDup_incl_length. }
  { lia. }
  rewrite LSS, Z2Nat.id in E1 by lia. rewrite E1. cbn [obind]. cbn [t_indices t_inverse t_counts] in *.
  exists (Z.of_nat (length u1)). split.
  { destruct I1 as [_ I1], I2 as [_ I2], I3 as [_ I3]. now rewrite I2, I3 by auto. }
  intros Y ind inv cnt slots tmp HY LSL LI LV LC.
  destruct (registerAll_spec veqb vlt EQ LT_irr LT_trans LT_total (length u1) (length ss) sorted
     (getSliceData s (omStrides s) data a) ss
     {| t_sorted := sorted; t_num := 0; t_data := slots; t_indices := Some ind; t_inverse := inv; t_counts := cnt |} (length (indices (rev (upd a 1 s)))))
     as (t2 & u2 & E2 & U2 & F2 & J1 & J2 & J3 & O1 & O2 & O3); cbn [t_sorted t_num t_data t_indices t_inverse t_counts]; eauto.
  { intros i Hi. destruct (HSS i) as (l & El & G & _); [lia|]. congruence. }
  { intros u ND IN. apply NoDup_incl_length; auto. intros x Hx. apply (ui_same _ _ _ _ U1). auto. }
  { lia. }
  { simpl. lia. }
  { revert LV. destruct inv; simpl; auto. lia. }
  { revert LC. destruct cnt; simpl; auto. lia. }
  assert (L21 : length u2 = length u1) by (eapply same_count; eauto).
  rewrite LSS, Z2Nat.id in E2 by lia. rewrite E2. cbn [obind]. cbn [t_indices t_inverse t_counts] in *.
  destruct (t_indices t2) as [ind'|] eqn:EI; [|exfalso; destruct J1 as [J1 _]; now discriminate J1].
  cbn [opt_out] in O1. apply filled_full in O1; [|intros c [HL _]; now rewrite HL].
  assert (HSS' : forall i, 0 <= i < n -> exists l, zget ss i = Some l /\ col_slice s a data i l).
  { intros i Hi. destruct (HSS i Hi) as (l & El & _ & C). eauto. }
  pose proof (to_slices s a data n ss u2 sorted OK HA LSS HSS' U2 ind' O1) as US.
  assert (LIND : length ind' = length u1) by (destruct O1 as [HL _]; lia).
  rewrite L21.
  assert (FIN : exists Y', (if 0 <? Z.of_nat (length u1) then y' <- produceY s (omStrides s) data ind' a Y ;; Some (Some y') else Some (Some Y)) = Some (Some Y') /\
     is_data (upd a (Z.of_nat (length u1)) s) Y' /\
     forall idx k r, valid (upd a (Z.of_nat (length u1)) s) idx -> nth_error idx a = Some k -> zget ind' k = Some r ->
           elem (upd a (Z.of_nat (length u1)) s) Y' idx = elem s data (upd a r idx)).
  { destruct (0 <? Z.of_nat (length u1)) eqn:EC.
    - destruct (produceY_spec s a data n OK R6 HA HD ind' Y) as (Y' & EY & DY & PY).
      + intros k r Er. now apply (us_first _ _ _ _ _ US) in Er.
      + now rewrite LIND.
      + rewrite LIND in *. exists Y'. rewrite EY. auto.
    - exists Y. split; auto. split; auto. intros idx k r _ _ Er. apply zlen in Er. apply Z.ltb_ge in EC. lia. }
  destruct FIN as (Y' & EY & DY & PY). rewrite EY. cbn [obind].
  exists Y', ind', (t_inverse t2), (t_counts t2). split; [reflexivity|]. split; [now rewrite LIND|].
  split; [auto|]. split; [auto|]. split; [auto|]. split; [auto|]. split; [auto|]. split.
  - eapply opt_imp; [exact O2|]. intros b HB. apply filled_full in HB.
    + eapply to_inverse; eauto.
    + now intros c [HL _].
  - eapply opt_imp; [exact O3|]. intros b HB. apply filled_full in HB.
    + eapply to_counts; eauto.
    + intros c [HL _]. now rewrite HL.
Qed.
End Props.

(** ** Where the code departs from ONNX *)
(** Asking for Y along an axis without the indices output dereferences NULL. *)
Theorem C20_axis_without_indices_refuted :
  forall (sorted : bool) slots, length slots = 2%nat ->
    omTensorUniqueAxis Z.eqb Z.ltb sorted [2] (omStrides [2]) [7; 5] 0%nat (Some [0; 0]) None None None slots [0; 0] = None.
Proof. intros sorted [|x [|y [|]]] H; try discriminate. destruct sorted; vm_compute; reflexivity. Qed.

(** An absent output that the lowering passes as an empty buffer (and not as
    NULL) is written out of bounds as soon as the input has an element. *)
Theorem C20_empty_buffer_refuted : forall (sorted : bool) (s : list Z) (data : list Z) Y inv cnt scratch,
  (length s <= 6)%nat -> is_data s data -> 0 < size s ->
  omTensorUniqueFlat Z.eqb Z.ltb sorted s data Y (Some []) inv cnt scratch = None.
Proof.
  intros sorted s data Y inv cnt scratch R6 HD HS. unfold omTensorUniqueFlat.
  replace (6 <? length s)%nat with false by (symmetry; apply Nat.ltb_ge; lia).
  rewrite getNumElems_size. unfold registerAll, zrange.
  destruct (Z.to_nat (size s)) as [|m] eqn:EM; [lia|]. cbn [zseq foldM].
  destruct (zget data 0) as [v|] eqn:E0; [|reflexivity]. cbn [obind].
  match goal with |- context [sliceTableRegister _ _ ?t ?sl ?off] => assert (EN : sliceTableRegister Z.eqb Z.ltb t sl off = None) end.
  { unfold sliceTableRegister. cbn [t_num t_sorted t_data t_indices t_inverse t_counts].
    change (Z.to_nat 0) with 0%nat. cbn [firstn search].
    destruct (shift _ 0 0); [|reflexivity]. cbn [obind]. destruct (onPtr cnt _); [|reflexivity]. cbn [obind].
    change (onPtr (Some (@nil Z)) (fun c => shift c 0 0)) with (Some (Some (@nil Z))). cbn [obind].
    destruct (onPtr inv _); [|reflexivity]. cbn [obind]. destruct (zset l 0 [v]); [|reflexivity]. cbn [obind].
    destruct (onPtr o _); reflexivity. }
  rewrite EN. reflexivity.
Qed.

(** Slices of rank-2 and higher are compared in column-major, not row-major,
    element order: the sorted result differs from ONNX's (np.unique) order. *)
Definition ex3 : list Z := [0; 1; 0; 0;  0; 0; 1; 0].
Theorem C20_slice_order_refuted :
  omTensorUniqueAxis Z.eqb Z.ltb true [2;2;2] (omStrides [2;2;2]) ex3 0%nat (Some ex3) (Some [9;9]) None None [[];[]] []
    = Some (2, Some ex3, Some [0; 1], None, None) /\
  (exists l0 l1, row_slice [2;2;2] 0 ex3 0 l0 /\ row_slice [2;2;2] 0 ex3 1 l1 /\ lex_less Z.lt l1 l0).
Proof.
  split; [vm_compute; reflexivity|]. exists [0;1;0;0], [0;0;1;0]. split; [vm_compute; reflexivity|]. split; [vm_compute; reflexivity|].
  apply lex_next. apply lex_here; [lia|reflexivity].
Qed.

(** ** Non-vacuity *)
Example C20_order_ok : (forall x y, Z.eqb x y = true <-> x = y) /\ (forall x, Z.ltb x x = false) /\
  (forall x y z, Z.ltb x y = true -> Z.ltb y z = true -> Z.ltb x z = true) /\
  (forall x y, x <> y -> Z.ltb x y = false -> Z.ltb y x = true).
Proof. split; [|split; [|split]]; intros; rewrite ?Z.eqb_eq, ?Z.ltb_irrefl, ?Z.ltb_lt, ?Z.ltb_ge in *; try reflexivity; lia. Qed.
Example C20_flat_run : omTensorUniqueFlat Z.eqb Z.ltb true [2;3] [5;3;5;1;3;3] (Some [0;0;0]) (Some [0;0;0]) (Some [0;0;0;0;0;0]) (Some [0;0;0]) 0
  = Some (3, Some [1;3;5], Some [3;1;0], Some [2;1;2;0;1;1], Some [1;3;2]).
Proof. reflexivity. Qed.
Example C20_axis_run : omTensorUniqueAxis Z.eqb Z.ltb true [3;2] (omStrides [3;2]) [4;4; 1;2; 4;4] 0%nat
   (Some [0;0;0;0]) (Some [0;0]) (Some [0;0;0]) (Some [0;0]) [[];[]] []
  = Some (2, Some [1;2;4;4], Some [1;0], Some [1;0;1], Some [1;2]).
Proof. vm_compute. reflexivity. Qed.

Print Assumptions C20_unique_flat.
Print Assumptions C20_unique_axis.
