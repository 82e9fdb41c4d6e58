From Coq Require Import List ZArith Lia Bool Arith.
From Verif Require Import Util TensorSpec TensorLemmas ShapeOpsCopies LoopModel LoopProofs CumSumProofs GatherLoopSpec GatherLoopModel GatherLoopProofs CopyLoopProofs ArgLoopModel ArgLoopProofs TriluLoopModel.
Import ListNotations.
Open Scope Z_scope.

Lemma addIndex_small x y : - 2 ^ 63 <= x + y < 2 ^ 63 -> addIndex x y = x + y.
Proof. intros H. unfold addIndex. rewrite Z.mod_small; [lia|]. change (2 ^ 64) with (2 ^ 63 + 2 ^ 63). lia. Qed.

Lemma filter_window lo hi n : forall p, filter (fun x => (lo <=? x) && (x <? hi)) (zseq p n) = zseq (Z.max p lo) (Z.to_nat (Z.min (p + Z.of_nat n) hi - Z.max p lo)).
Proof.
  induction n as [|n IH]; intros p.
  - cbn [zseq filter]. replace (Z.to_nat _) with O by lia. reflexivity.
  - cbn [zseq filter]. rewrite IH. replace (p + 1 + Z.of_nat n) with (p + Z.of_nat (S n)) by lia. destruct (Z.leb_spec lo p), (Z.ltb_spec p hi); cbn [andb].
    + replace (Z.to_nat (Z.min (p + Z.of_nat (S n)) hi - Z.max p lo)) with (S (Z.to_nat (Z.min (p + Z.of_nat (S n)) hi - Z.max (p + 1) lo))) by lia. cbn [zseq]. f_equal; [lia|]. f_equal; lia.
    + replace (Z.to_nat (Z.min (p + Z.of_nat (S n)) hi - Z.max p lo)) with O by lia. replace (Z.to_nat _) with O by lia. reflexivity.
    + f_equal; [lia|]. f_equal. lia.
    + replace (Z.to_nat (Z.min (p + Z.of_nat (S n)) hi - Z.max p lo)) with O by lia. replace (Z.to_nat _) with O by lia. reflexivity.
Qed.
Lemma ceilDiv2_le size x : x <= ceilDiv2 (size - 1) <-> 2 * x <= size.
Proof. unfold ceilDiv2. pose proof (Z.div_mod (- (size - 1)) 2 ltac:(lia)). pose proof (Z.mod_pos_bound (- (size - 1)) 2 ltac:(lia)). lia. Qed.
Lemma floorDiv2_le size x : x <= (size - 1) / 2 <-> 2 * x <= size - 1.
Proof. pose proof (Z.div_mod (size - 1) 2 ltac:(lia)). pose proof (Z.mod_pos_bound (size - 1) 2 ltac:(lia)). lia. Qed.
Lemma window_ok size c C : map (fun k => Z.max 0 (c - (size - 1) / 2) + k) (zrange (Z.min C (c + 1 + ceilDiv2 (size - 1)) - Z.max 0 (c - (size - 1) / 2))) =
  filter (fun q => (2 * (c - q) <=? size - 1) && (2 * (q - c) <=? size)) (zrange C).
Proof.
  unfold zrange. set (lb := c - (size - 1) / 2). set (ub := c + 1 + ceilDiv2 (size - 1)).
  rewrite (filter_ext _ (fun x => (lb <=? x) && (x <? ub))).
  - rewrite filter_window. assert (Sh : forall j n a, map (fun k => j + k) (zseq a n) = zseq (j + a) n) by (intros j; induction n as [|n IHn]; intros a; cbn [zseq map]; [reflexivity|]; f_equal; rewrite IHn; f_equal; lia).
    rewrite Sh, Z.add_0_r. f_equal. destruct (Z.le_gt_cases 0 C); [rewrite Z2Nat.id by lia; f_equal; lia|]. replace (Z.of_nat (Z.to_nat C)) with 0 by lia. replace (Z.to_nat (Z.min (0 + 0) ub - Z.max 0 lb)) with O by lia. lia.
  - intros q. f_equal; apply eq_true_iff_eq; rewrite ?Z.leb_le, ?Z.ltb_lt; unfold lb, ub.
    + pose proof (floorDiv2_le size (c - q)). lia.
    + pose proof (ceilDiv2_le size (q - c)). lia.
Qed.

Section Hardmax.
Context {T : Type} (key : T -> Z) (a : nat) (input : mem T) (dv : list Z -> T).
Notation s := (mShape input).
Notation d := (nth a (mShape input) 0).
Hypothesis Ha : (a < length s)%nat.
Hypothesis HD : forall i, valid s i -> mAt input i = Some (dv i).
Notation less := (fun x y => key x <? key y).

Definition hardStep (i : list Z) (cur q : Z) : Z := if less (dv (upd a cur i)) (dv (upd a q i)) then q else cur.
Definition hardBody (i : list Z) (res : mem Z) : option (mem Z) :=
    let resLoopInd := upd a 0 i in
    maxInd <- load res resLoopInd ;;
    maxValue <- load input (upd a maxInd i) ;;
    next <- load input i ;;
    if less maxValue next then store res resLoopInd (nth a i 0) else Some res.
Lemma one_valid i : valid s i -> valid (upd a 1 s) (upd a 0 i).
Proof.
  intros V. pose proof (valid_length _ _ V) as L. apply valid_nth_iff; [rewrite !upd_length; lia|]. intros r Hr. rewrite upd_length in Hr.
  destruct (Nat.eq_dec r a) as [-> | N]; [rewrite !nth_upd_same by lia; lia|]. rewrite !nth_upd_other by auto. apply nth_valid; auto.
Qed.
Lemma upd_upd i j q : length i = length j -> upd a 0 i = upd a 0 j -> upd a q i = upd a q j.
Proof.
  intros L E. apply nth_ext with (d := 0) (d' := 0); [rewrite !upd_length; auto|]. intros r Hr. rewrite upd_length in Hr. destruct (Nat.eq_dec r a) as [-> | N]; [rewrite !nth_upd_same by lia; auto|].
  apply (f_equal (fun l => nth r l 0)) in E. rewrite !nth_upd_other in E by auto. rewrite !nth_upd_other by auto. exact E.
Qed.
Lemma hard_inv l : (forall i, In i l -> valid s i) -> forall m, mShape m = upd a 1 s ->
  (forall i, valid s i -> exists v, mAt m (upd a 0 i) = Some v /\ 0 <= v < d) ->
  exists m', foldM hardBody l m = Some m' /\ mShape m' = upd a 1 s /\
    forall i v, valid s i -> mAt m (upd a 0 i) = Some v -> mAt m' (upd a 0 i) = Some (fold_left (hardStep i) (map (fun j => nth a j 0) (filter (fun j => ieqb (upd a 0 j) (upd a 0 i)) l)) v).
Proof.
  induction l as [|i l IH]; intros Hl m Sm Hm; cbn [foldM].
  - exists m. split; auto.
  - assert (V : valid s i) by (apply Hl; now left). pose proof (valid_length _ _ V) as LV. pose proof (nth_valid _ _ a V Ha) as Bi.
    destruct (Hm i V) as (v & Ev & Bv). unfold hardBody at 1. cbn zeta.
    assert (Vs : valid (mShape m) (upd a 0 i)) by (rewrite Sm; now apply one_valid). rewrite (load_ok m), Ev by auto. cbn [obind].
    assert (Vu : valid s (upd a v i)) by now apply valid_upd. rewrite (load_ok input), HD by auto. cbn [obind]. rewrite (load_ok input), HD by auto. cbn [obind].
    set (w := hardStep i v (nth a i 0)). assert (Bw : 0 <= w < d) by (unfold w, hardStep; destruct (_ <? _); lia).
    assert (X : exists m1, (if key (dv (upd a v i)) <? key (dv i) then store m (upd a 0 i) (nth a i 0) else Some m) = Some m1 /\ mShape m1 = upd a 1 s /\ forall j, mAt m1 j = if ieqb (upd a 0 i) j then Some w else mAt m j).
    { unfold w, hardStep. rewrite upd_nth_id. destruct (_ <? _).
      - rewrite store_ok by auto. eexists. split; [reflexivity|]. split; [exact Sm | reflexivity].
      - exists m. split; [reflexivity|]. split; [exact Sm|]. intros j. destruct (ieqb (upd a 0 i) j) eqn:E; [apply ieqb_eq in E; subst; exact Ev | reflexivity]. }
    destruct X as (m1 & -> & S1 & M1). cbn [obind].
    destruct (IH (fun j Hj => Hl j (or_intror Hj)) m1 S1) as (m' & E & S' & R).
    { intros j Vj. rewrite M1. destruct (ieqb _ _); [exists w; auto|]. now apply Hm. }
    exists m'. split; [exact E|]. split; [exact S'|]. intros j vj Vj Ej. cbn [filter].
    destruct (ieqb (upd a 0 i) (upd a 0 j)) eqn:EQ.
    + apply ieqb_eq in EQ. cbn [map fold_left]. apply R; auto. rewrite M1, EQ, ieqb_refl. f_equal. unfold w. assert (vj = v) by congruence. subst vj. unfold hardStep.
      assert (L : length i = length j) by (apply valid_length in Vj; lia). rewrite !(upd_upd i j _ L EQ). reflexivity.
    + apply R; auto. rewrite M1, EQ. auto.
Qed.
Lemma hardStep_fold i n : (0 < n)%nat -> let p := fold_left (hardStep i) (zseq 0 n) 0 in let k q := key (dv (upd a q i)) in
  0 <= p < Z.of_nat n /\ (forall q, 0 <= q < Z.of_nat n -> k q <= k p) /\ (forall q, 0 <= q < p -> k q < k p).
Proof.
  intros Hn p k. subst p. induction n as [|n IH]; [lia|]. replace (zseq 0 (S n)) with (zseq 0 n ++ [Z.of_nat n]) by (replace (S n) with (n + 1)%nat by lia; rewrite zseq_app; cbn; f_equal).
  rewrite fold_left_app. cbn [fold_left]. destruct n as [|n].
  - cbn [zseq fold_left]. unfold hardStep. change (Z.of_nat 0) with 0. rewrite Z.ltb_irrefl. change (Z.of_nat 1) with 1. split; [lia|]. split; intros q Hq; [replace q with 0 by lia|]; lia.
  - specialize (IH ltac:(lia)). set (p := fold_left (hardStep i) (zseq 0 (S n)) 0) in *. destruct IH as (B & L & F). unfold hardStep. fold (k p) (k (Z.of_nat (S n))).
    destruct (Z.ltb_spec (k p) (k (Z.of_nat (S n)))) as [H1|H1].
    + split; [lia|]. split; intros q Hq.
      * destruct (Z.eq_dec q (Z.of_nat (S n))) as [->|]; [lia|]. specialize (L q ltac:(lia)). lia.
      * specialize (L q ltac:(lia)). lia.
    + split; [lia|]. split; intros q Hq.
      * destruct (Z.eq_dec q (Z.of_nat (S n))) as [->|]; [lia|]. apply L. lia.
      * apply F. lia.
Qed.
Lemma argmax_ok : exists m, emitArgmax less input a = Some m /\ mShape m = upd a 1 s /\
  forall i, valid s i -> exists p, mAt m (upd a 0 i) = Some p /\ 0 <= p < d /\ (forall q, 0 <= q < d -> key (dv (upd a q i)) <= key (dv (upd a p i))) /\ (forall q, 0 <= q < p -> key (dv (upd a q i)) < key (dv (upd a p i))).
Proof.
  destruct (hard_inv (indices s) (fun i H => proj1 (indices_In s i) H) (Mem (upd a 1 s) (fun _ => Some 0)) eq_refl) as (m & E & Sm & R).
  { intros i V. exists 0. split; [reflexivity|]. pose proof (nth_valid _ _ a V Ha). lia. }
  exists m. split; [exact E|]. split; [exact Sm|]. intros i V. pose proof (nth_valid _ _ a V Ha) as B. exists (fold_left (hardStep i) (zseq 0 (Z.to_nat d)) 0). split.
  - rewrite (R i 0 V eq_refl). rewrite slice_order, map_map by auto. do 2 f_equal.
    transitivity (map (fun x : Z => x) (zrange d)); [|now rewrite map_id]. apply map_ext. intros x. apply nth_upd. apply valid_length in V. lia.
  - pose proof (hardStep_fold i (Z.to_nat d) ltac:(lia)) as G. cbn zeta in G. rewrite Z2Nat.id in G by lia. exact G.
Qed.
End Hardmax.

Section Fills.
Context {T : Type}.
Lemma trilu_ok (zero : T) upper k input (x : list Z -> T) :
  let s := mShape input in let kk := match k with Some v => v | None => 0 end in
  (2 <= length s)%nat -> (forall i, valid s i -> mAt input i = Some (x i)) ->
  (forall r, 0 <= r < nth (length s - 2) s 0 -> - 2 ^ 63 <= kk + r < 2 ^ 63) ->
  exists out, trilu zero upper k input = Some out /\ mShape out = s /\
  forall i, valid s i -> mAt out i = Some (if (if upper =? 1 then kk + nth (length s - 2) i 0 >? nth (length s - 1) i 0 else kk + nth (length s - 2) i 0 <? nth (length s - 1) i 0) then zero else x i).
Proof.
  intros s kk Hr HX HK. unfold trilu. fold s. fold kk. destruct (Nat.ltb_spec (length s) 2); [lia|].
  set (f := fun loopInd : list Z => loadVal <- load input loopInd ;; Some (if (if upper =? 1 then addIndex kk (nth (length s - 2) loopInd 0) >? nth (length s - 1) loopInd 0 else addIndex kk (nth (length s - 2) loopInd 0) <? nth (length s - 1) loopInd 0) then zero else loadVal)).
  assert (F : forall i, valid s i -> f i = Some (if (if upper =? 1 then kk + nth (length s - 2) i 0 >? nth (length s - 1) i 0 else kk + nth (length s - 2) i 0 <? nth (length s - 1) i 0) then zero else x i)).
  { intros i V. unfold f. rewrite load_ok, HX by auto. cbn [obind]. rewrite addIndex_small; [reflexivity|]. apply HK. apply nth_valid; auto. lia. }
  destruct (iterate_fill s f (alloc s) eq_refl) as (m & E & Sm & M); [intros i V; eexists; now apply F|].
  exists m. split; [exact E|]. split; [exact Sm|]. intros i V. rewrite M by auto. now apply F.
Qed.

Lemma hardmax_ok (key : T -> Z) zero one a axis input (x : list Z -> T) :
  let s := mShape input in
  names_axis (length s) a axis -> (forall i, valid s i -> mAt input i = Some (x i)) ->
  exists out, hardmax (fun u v => key u <? key v) zero one axis input = Some out /\ mShape out = s /\
  forall i, valid s i -> exists p, 0 <= p < nth a s 0 /\ (forall q, 0 <= q < nth a s 0 -> key (x (upd a q i)) <= key (x (upd a p i))) /\ (forall q, 0 <= q < p -> key (x (upd a q i)) < key (x (upd a p i))) /\
    mAt out i = Some (if p =? nth a i 0 then one else zero).
Proof.
  intros s HA HX. pose proof (normalAxis_ok _ _ _ HA) as NA. pose proof (proj1 HA) as La. unfold hardmax. fold s. rewrite NA. cbn zeta. destruct (Nat.ltb_spec a (length s)); [|lia]. cbn [negb].
  destruct (argmax_ok key a input x La HX) as (m & -> & Sm & M). cbn [obind].
  set (f := fun i => maxInd <- load m (upd a 0 i) ;; Some (if maxInd =? nth a i 0 then one else zero)).
  assert (F : forall i, valid s i -> exists p, mAt m (upd a 0 i) = Some p /\ f i = Some (if p =? nth a i 0 then one else zero)).
  { intros i V. destruct (M i V) as (p & E & _). exists p. split; [exact E|]. unfold f. rewrite load_ok, E by (rewrite Sm; now apply one_valid). reflexivity. }
  destruct (iterate_fill s f (alloc s) eq_refl) as (o & E & So & O); [intros i V; destruct (F i V) as (p & _ & Q); eauto|].
  exists o. split; [exact E|]. split; [exact So|]. intros i V. destruct (M i V) as (p & Ep & Bp & Lp & Fp). exists p. repeat (split; [assumption|]).
  rewrite O by auto. destruct (F i V) as (p' & E' & ->). rewrite Ep in E'. injection E' as ->. reflexivity.
Qed.

Lemma lrn_ok (zero : T) add mul finish size X (x : list Z -> T) :
  let s := mShape X in (2 <= length s)%nat -> (forall i, valid s i -> mAt X i = Some (x i)) ->
  exists out, lrn true zero add mul finish size X = Some out /\ mShape out = s /\
  forall i, valid s i -> mAt out i = Some (finish (x i) (fold_left (fun sum q => add sum (mul (x (upd 1 q i)) (x (upd 1 q i))))
     (filter (fun q => (2 * (nth 1 i 0 - q) <=? size - 1) && (2 * (q - nth 1 i 0) <=? size)) (zrange (nth 1 s 0))) zero)).
Proof.
  intros s Hr HX. unfold lrn. fold s. cbn [negb]. destruct (Nat.ltb_spec (length s) 2); [lia|].
  set (g := fun i => let c := nth 1 i 0 in let C := nth 1 s 0 in let lb := Z.max 0 (c - (size - 1) / 2) in let ub := Z.min C (c + 1 + ceilDiv2 (size - 1)) in
          squareSum <- foldM (fun k sum => x <- load X (upd 1 (lb + k) i) ;; Some (add sum (mul x x))) (zrange (ub - lb)) zero ;; x <- load X i ;; Some (finish x squareSum)).
  assert (F : forall i, valid s i -> g i = Some (finish (x i) (fold_left (fun sum q => add sum (mul (x (upd 1 q i)) (x (upd 1 q i))))
     (filter (fun q => (2 * (nth 1 i 0 - q) <=? size - 1) && (2 * (q - nth 1 i 0) <=? size)) (zrange (nth 1 s 0))) zero))).
  { intros i V. unfold g. cbn zeta. set (lb := Z.max 0 (nth 1 i 0 - (size - 1) / 2)).
    assert (G : forall l, (forall k, In k l -> 0 <= lb + k < nth 1 s 0) -> forall z, foldM (fun k sum => y <- load X (upd 1 (lb + k) i) ;; Some (add sum (mul y y))) l z =
       Some (fold_left (fun sum q => add sum (mul (x (upd 1 q i)) (x (upd 1 q i)))) (map (fun k => lb + k) l) z)).
    { induction l as [|k l IH]; intros Hl z; cbn [foldM map fold_left]; [reflexivity|]. rewrite load_ok, HX by (apply valid_upd; [exact V | apply Hl; now left]). cbn [obind]. apply IH. intros; apply Hl; now right. }
    rewrite G by (intros k Hk; apply zrange_In in Hk; lia). cbn [obind]. rewrite load_ok, HX by auto. cbn [obind]. unfold lb. rewrite window_ok. reflexivity. }
  destruct (iterate_fill s g (alloc s) eq_refl) as (m & E & Sm & M); [intros i V; eexists; now apply F|].
  exists m. split; [exact E|]. split; [exact Sm|]. intros i V. rewrite M by auto. now apply F.
Qed.
End Fills.
