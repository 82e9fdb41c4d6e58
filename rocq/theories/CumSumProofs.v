(** After [k] doubling steps a cell holds the sum of the [2^k] cells that end (or, in
    reverse, start) with it. *)
From Coq Require Import List ZArith Lia Bool.
From Verif Require Import Util TensorSpec TensorLemmas ShapeOpsCopies LoopModel LoopProofs CumSumSpec CumSumModel.
Import ListNotations.
Open Scope Z_scope.

Lemma nth_valid s i a : valid s i -> (a < length s)%nat -> 0 <= nth a i 0 < nth a s 0.
Proof.
  intros H; revert a; induction H as [|d x s i H1 H2 IH]; intros [|a] L; cbn in *; try lia. apply IH. lia.
Qed.
Lemma valid_upd s i a j : valid s i -> 0 <= j < nth a s 0 -> valid s (upd a j i).
Proof.
  intros H; revert a; induction H as [|d x s i H1 H2 IH]; intros [|a] L; cbn in *; try solve [constructor]; apply valid_cons; auto.
Qed.
Lemma nth_upd a j (i : list Z) : (a < length i)%nat -> nth a (upd a j i) 0 = j.
Proof. apply nth_upd_same. Qed.

(** The shifted index. *)
Lemma loopIndex_ok reverse offset s i a : valid s i -> (a < length s)%nat -> forall r,
  loopIndexByAxisAndOffset reverse (r + Z.of_nat a) offset r s i =
    let j := if reverse then nth a i 0 + offset else nth a i 0 - offset in
    if (if reverse then j <? nth a s 0 else 0 <=? j) then (upd a j i, true) else (i, false).
Proof.
  assert (Off : forall s i r ax, length s = length i -> ax < r -> loopIndexByAxisAndOffset reverse ax offset r s i = (i, false)).
  { clear. induction s as [|d s IH]; intros [|x i] r ax L H; cbn in L; try discriminate; cbn [loopIndexByAxisAndOffset]; auto.
    rewrite IH by lia. destruct (Z.eqb_spec r ax); [lia|]. reflexivity. }
  intros H; revert a; induction H as [|d x s i H1 H2 IH]; intros [|a] L r; cbn [length] in L; try lia; cbn [loopIndexByAxisAndOffset nth upd].
  - rewrite Off; [|apply (valid_length s i H2)|lia]. rewrite Z.add_0_r, Z.eqb_refl. cbn [andb].
    destruct (if reverse then _ else _); reflexivity.
  - replace (r + Z.of_nat (S a)) with (r + 1 + Z.of_nat a) by lia. rewrite IH by lia.
    destruct (Z.eqb_spec r (r + 1 + Z.of_nat a)); [lia|]. cbn [andb orb].
    cbn zeta. destruct (if reverse then _ else _); reflexivity.
Qed.
Lemma axisSize_ok s : forall a r acc, (a < length s)%nat -> axisSize (r + Z.of_nat a) r s acc = nth a s 0.
Proof.
  assert (Off : forall s r ax acc, ax < r -> axisSize ax r s acc = acc).
  { clear. induction s; cbn; intros; auto. rewrite IHs by lia. destruct (Z.eqb_spec ax r); auto; lia. }
  induction s as [|d s IH]; intros [|a] r acc L; cbn in L; try lia; cbn [axisSize nth].
  - rewrite Off by lia. destruct (Z.eqb_spec (r + Z.of_nat 0) r); auto; lia.
  - replace (r + Z.of_nat (S a)) with (r + 1 + Z.of_nat a) by lia. apply IH. lia.
Qed.

Lemma loopIndex_0 reverse offset s i a : valid s i -> (a < length s)%nat ->
  loopIndexByAxisAndOffset reverse (Z.of_nat a) offset 0 s i =
    let j := if reverse then nth a i 0 + offset else nth a i 0 - offset in
    if (if reverse then j <? nth a s 0 else 0 <=? j) then (upd a j i, true) else (i, false).
Proof. intros H L. exact (loopIndex_ok reverse offset s i a H L 0). Qed.

Section Sums.
Context {T : Type} (add : T -> T -> T) (zero : T) (M : summable add zero).

Definition sumR (f : Z -> T) (lo hi : Z) : T := fold_right add zero (map f (zseq lo (Z.to_nat (hi - lo)))).
Lemma add_zero_l a : add zero a = a.
Proof. rewrite (sum_comm _ _ M). apply (sum_zero _ _ M). Qed.
Lemma fold_app l m : fold_right add zero (l ++ m) = add (fold_right add zero l) (fold_right add zero m).
Proof. induction l; cbn; [now rewrite add_zero_l|]. now rewrite IHl, (sum_assoc _ _ M). Qed.
Lemma sumR_split f lo mid hi : lo <= mid <= hi -> add (sumR f lo mid) (sumR f mid hi) = sumR f lo hi.
Proof.
  intros H. unfold sumR. rewrite <- fold_app, <- map_app. do 2 f_equal.
  replace (Z.to_nat (hi - lo)) with (Z.to_nat (mid - lo) + Z.to_nat (hi - mid))%nat by lia. rewrite zseq_app. do 2 f_equal; lia.
Qed.
Lemma sumR_one f j : sumR f j (j + 1) = f j.
Proof. unfold sumR. replace (j + 1 - j) with 1 by lia. cbn. apply (sum_zero _ _ M). Qed.
Lemma sumR_empty f j k : k <= j -> sumR f j k = zero.
Proof. intros H. unfold sumR. replace (Z.to_nat (k - j)) with O by lia. reflexivity. Qed.
Lemma sumR_ext f g lo hi : (forall j, lo <= j < hi -> f j = g j) -> sumR f lo hi = sumR g lo hi.
Proof. intros H. unfold sumR. f_equal. apply map_ext_in. intros j Hj. apply zseq_In in Hj. apply H. lia. Qed.
Lemma sumR_shift f lo hi d : sumR (fun j => f (j + d)) lo hi = sumR f (lo + d) (hi + d).
Proof.
  unfold sumR. replace (hi + d - (lo + d)) with (hi - lo) by lia. f_equal. generalize (Z.to_nat (hi - lo)). intros n; revert lo.
  induction n; intros lo; cbn [zseq map]; auto. f_equal. rewrite IHn. do 2 f_equal. lia.
Qed.
Lemma filter_window n lo hi p : 0 <= lo -> hi <= n -> (forall j, 0 <= j < n -> p j = ((lo <=? j) && (j <? hi))) ->
  forall f : Z -> T, fold_right add zero (map f (filter p (zrange n))) = sumR f lo hi.
Proof.
  intros L H P f. destruct (Z.le_gt_cases hi lo) as [C|C].
  - rewrite sumR_empty by lia. replace (filter p (zrange n)) with (@nil Z); [reflexivity|].
    assert (Q : forall j, In j (zrange n) -> p j = false). { intros j Hj. apply zrange_In in Hj. rewrite (P j Hj). destruct (Z.leb_spec lo j), (Z.ltb_spec j hi); auto; lia. }
    revert Q. generalize (zrange n). induction l; cbn; intros Q; auto. rewrite (Q a) by auto. apply IHl. auto.
  - unfold sumR. do 2 f_equal. unfold zrange.
    replace (Z.to_nat n) with (Z.to_nat lo + (Z.to_nat (hi - lo) + Z.to_nat (n - hi)))%nat by lia.
    rewrite !zseq_app, !filter_app.
    assert (A0 : forall l, (forall j, In j l -> p j = false) -> filter p l = []) by (induction l; cbn; intros Q; auto; rewrite (Q a) by auto; auto).
    assert (A1 : forall l, (forall j, In j l -> p j = true) -> filter p l = l) by (induction l; cbn; intros Q; auto; rewrite (Q a) by auto; f_equal; auto).
    rewrite (A0 (zseq 0 _)), (A1 (zseq _ (Z.to_nat (hi - lo)))), (A0 (zseq _ (Z.to_nat (n - hi)))).
    + cbn [app]. rewrite app_nil_r. f_equal. lia.
    + intros j Hj. apply zseq_In in Hj. rewrite P by lia. destruct (Z.leb_spec lo j), (Z.ltb_spec j hi); auto; lia.
    + intros j Hj. apply zseq_In in Hj. rewrite P by lia. destruct (Z.leb_spec lo j), (Z.ltb_spec j hi); auto; lia.
    + intros j Hj. apply zseq_In in Hj. rewrite P by lia. destruct (Z.leb_spec lo j), (Z.ltb_spec j hi); auto; lia.
Qed.

(** The sum a cell holds after [k] steps, over the line [y] through it. *)
Definition part (reverse : bool) (n w : Z) (y : Z -> T) (j : Z) : T :=
  if reverse then sumR y j (Z.min n (j + w)) else sumR y (Z.max 0 (j + 1 - w)) (j + 1).
Lemma part_one reverse n y j : 0 <= j < n -> part reverse n 1 y j = y j.
Proof.
  intros H. unfold part. destruct reverse.
  - replace (Z.min n (j + 1)) with (j + 1) by lia. apply sumR_one.
  - replace (Z.max 0 (j + 1 - 1)) with j by lia. apply sumR_one.
Qed.
Lemma part_double reverse n w y j : 1 <= w -> 0 <= j < n ->
  add (part reverse n w y j)
      (let j' := if reverse then j + w else j - w in
       if (if reverse then j' <? n else 0 <=? j') then part reverse n w y j' else zero) = part reverse n (2 * w) y j.
Proof.
  intros W H. unfold part. cbn zeta. destruct reverse.
  - destruct (Z.ltb_spec (j + w) n).
    + replace (Z.min n (j + w)) with (j + w) by lia. rewrite sumR_split by lia. f_equal; lia.
    + rewrite (sum_zero _ _ M). f_equal; lia.
  - destruct (Z.leb_spec 0 (j - w)).
    + rewrite (sum_comm _ _ M). replace (Z.max 0 (j + 1 - w)) with (j - w + 1) by lia. rewrite sumR_split by lia. f_equal; lia.
    + rewrite (sum_zero _ _ M). f_equal; lia.
Qed.

(** ** The program. *)
Variables (x : mem T) (xv : list Z -> T) (a : nat).
Let s := mShape x.
Let n := nth a s 0.
Hypothesis Ha : (a < length s)%nat.
Hypothesis Hx : forall i, valid s i -> mAt x i = Some (xv i).

(** The line of (possibly shifted) input elements through [i]. *)
Definition line (exclusive reverse : bool) (i : list Z) (j : Z) : T :=
  if exclusive
  then let j' := if reverse then j + 1 else j - 1 in
       if (if reverse then j' <? n else 0 <=? j') then xv (upd a j' i) else zero
  else xv (upd a j i).

Lemma nthi i : valid s i -> 0 <= nth a i 0 < n.
Proof. intros H. now apply nth_valid. Qed.
Lemma upd_self i : upd a (nth a i 0) i = i.
Proof. apply upd_nth_id. Qed.
Lemma line_upd e r i j k : line e r (upd a k i) j = line e r i j.
Proof. unfold line. rewrite !upd_upd. reflexivity. Qed.
Lemma len_i i : valid s i -> (a < length i)%nat.
Proof. intros H. rewrite <- (valid_length _ _ H). exact Ha. Qed.

Lemma cumInit_ok e r : exists buf, cumInit zero e r (Z.of_nat a) x (alloc s) = Some buf /\ mShape buf = s /\
  forall i, valid s i -> mAt buf i = Some (line e r i (nth a i 0)).
Proof.
  set (f := fun i => if e then let (j, shift) := loopIndexByAxisAndOffset r (Z.of_nat a) 1 0 s i in
                              v <- load x j ;; Some (if shift then v else zero) else load x i).
  assert (F : forall i, valid s i -> f i = Some (line e r i (nth a i 0))).
  { intros i H. unfold f, line. pose proof (nthi i H) as N. destruct e.
    - rewrite (loopIndex_0 r 1 s i a H Ha). cbn zeta. fold n.
      destruct r; cbn [negb].
      + destruct (Z.ltb_spec (nth a i 0 + 1) n).
        * rewrite load_ok, Hx; [reflexivity| |]; apply valid_upd; auto; unfold n, s in *; lia.
        * rewrite load_ok, Hx by auto. reflexivity.
      + destruct (Z.leb_spec 0 (nth a i 0 - 1)).
        * rewrite load_ok, Hx; [reflexivity| |]; apply valid_upd; auto; unfold n, s in *; lia.
        * rewrite load_ok, Hx by auto. reflexivity.
    - rewrite load_ok, Hx by auto. now rewrite upd_self. }
  destruct (iterate_fill s f (alloc s)) as (buf & A & B & C); [reflexivity|eauto|].
  exists buf. split; [exact A|]. split; [exact B|]. intros i H. rewrite C by auto. auto.
Qed.

Definition holds (e r : bool) (w : Z) (m : mem T) : Prop :=
  mShape m = s /\ forall i, valid s i -> mAt m i = Some (part r n w (line e r i) (nth a i 0)).

Lemma part_ext r w y y' j : (forall k, y k = y' k) -> part r n w y j = part r n w y' j.
Proof. intros H. unfold part. destruct r; apply sumR_ext; auto. Qed.

Lemma cumPass_ok e r step buf res : 0 <= step -> holds e r (2 ^ step) buf -> mShape res = s ->
  exists res', cumPass add zero r (Z.of_nat a) step s buf res = Some res' /\ holds e r (2 ^ (step + 1)) res'.
Proof.
  intros S [Bs Bv] Rs.
  set (f := fun i => b1 <- load buf i ;;
          let (j, shouldUpdate) := loopIndexByAxisAndOffset r (Z.of_nat a) (2 ^ step) 0 s i in
          b2 <- load buf j ;;
          Some (add b1 (if shouldUpdate then b2 else zero))).
  assert (P : 1 <= 2 ^ step) by (pose proof (Z.pow_pos_nonneg 2 step); lia).
  assert (F : forall i, valid s i -> f i = Some (part r n (2 ^ (step + 1)) (line e r i) (nth a i 0))).
  { intros i H. unfold f. pose proof (nthi i H) as N. rewrite load_ok by (rewrite Bs; auto). rewrite Bv by auto. cbn [obind].
    rewrite (loopIndex_0 r _ s i a H Ha). cbn zeta. fold n.
    rewrite Z.pow_add_r, Z.mul_comm by lia. change (2 ^ 1) with 2. rewrite <- part_double by lia. cbn zeta.
    destruct (if r then (if r then nth a i 0 + 2 ^ step else nth a i 0 - 2 ^ step) <? n else 0 <=? (if r then nth a i 0 + 2 ^ step else nth a i 0 - 2 ^ step)) eqn:E.
    - assert (V : valid s (upd a (if r then nth a i 0 + 2 ^ step else nth a i 0 - 2 ^ step) i)) by (apply valid_upd; auto; fold n; destruct r; lia).
      rewrite load_ok by (rewrite Bs; auto). rewrite Bv by auto. cbn [obind]. rewrite nth_upd by now apply len_i.
      do 2 f_equal. apply part_ext. intros k. apply line_upd.
    - rewrite load_ok by (rewrite Bs; auto). rewrite Bv by auto. reflexivity. }
  destruct (iterate_fill s f res Rs) as (res' & A & B & C); [eauto|].
  exists res'. split; [exact A|]. split; [exact B|]. intros i H. rewrite C by auto. auto.
Qed.
Lemma cumCopy_ok e r w res buf : holds e r w res -> mShape buf = s -> exists buf', cumCopy s res buf = Some buf' /\ holds e r w buf'.
Proof.
  intros [Rs Rv] Bs. destruct (iterate_fill s (fun i => load res i) buf Bs) as (buf' & A & B & C).
  - intros i H. rewrite load_ok by (rewrite Rs; auto). eauto.
  - exists buf'. split; [exact A|]. split; [exact B|]. intros i H. rewrite C by auto. rewrite load_ok by (rewrite Rs; auto). auto.
Qed.
Lemma cumSteps_ok e r nos : forall buf res, holds e r 1 buf -> mShape res = s ->
  exists buf' res', cumSteps add zero r (Z.of_nat a) nos s (buf, res) = Some (buf', res') /\ holds e r (2 ^ Z.max 0 nos) buf' /\
    (0 < nos -> holds e r (2 ^ nos) res') /\ (nos <= 0 -> res' = res).
Proof.
  intros buf res HB HR. unfold cumSteps, zrange.
  assert (G : forall k st buf res, 0 <= st -> holds e r (2 ^ st) buf -> mShape res = s ->
    exists buf' res', foldM (fun step br => res <- cumPass add zero r (Z.of_nat a) step s (fst br) (snd br) ;;
      buf <- cumCopy s res (fst br) ;; Some (buf, res)) (zseq st k) (buf, res) = Some (buf', res') /\ holds e r (2 ^ (st + Z.of_nat k)) buf' /\
      (k <> O -> holds e r (2 ^ (st + Z.of_nat k)) res') /\ (k = O -> res' = res)).
  { clear buf res HB HR. induction k as [|k IH]; intros st buf res Hst HB HR; cbn [zseq foldM].
    - exists buf, res. rewrite Z.add_0_r. split; [reflexivity|]. split; [exact HB|]. split; congruence.
    - cbn [fst snd]. destruct (cumPass_ok e r st buf res Hst HB HR) as (res' & E & P). rewrite E. cbn [obind].
      destruct (cumCopy_ok e r _ res' buf P (proj1 HB)) as (buf' & E' & P'). rewrite E'. cbn [obind].
      destruct (IH (st + 1) buf' res' ltac:(lia) P' (proj1 P)) as (b2 & r2 & F & H1 & H2 & H3).
      exists b2, r2. split; [exact F|]. replace (st + Z.of_nat (S k)) with (st + 1 + Z.of_nat k) by lia. split; [exact H1|]. split; [|discriminate].
      intros _. destruct k; [|apply H2; discriminate]. rewrite (H3 eq_refl). rewrite Z.add_0_r. exact P. }
  destruct (G (Z.to_nat nos) 0 buf res) as (b & r' & E & H1 & H2 & H3); auto; [lia|].
  exists b, r'. split; [exact E|]. split; [replace (Z.max 0 nos) with (0 + Z.of_nat (Z.to_nat nos)) by lia; exact H1|].
  split; [intros P; replace nos with (0 + Z.of_nat (Z.to_nat nos)) by lia; apply H2; lia|intros P; apply H3; lia].
Qed.

(** A full window is the specified sum. *)
Lemma part_full e r w i : valid s i -> n <= w -> part r n w (line e r i) (nth a i 0) = cumsum_elem add zero e r s a xv i.
Proof.
  intros H W. pose proof (nthi i H) as N. unfold cumsum_elem, part. fold n. set (j := nth a i 0) in *.
  set (g := fun k => xv (upd a k i)).
  destruct r.
  - replace (Z.min n (j + w)) with n by lia. destruct e.
    + rewrite (filter_window n (j + 1) n) by (lia || (intros k K; cbn [counts]; destruct (Z.ltb_spec j k), (Z.leb_spec (j + 1) k), (Z.ltb_spec k n); auto; lia)).
      rewrite <- (sumR_split _ j (n - 1) n) by lia. replace n with (n - 1 + 1) at 3 by lia. rewrite sumR_one.
      unfold line at 2. replace (n - 1 + 1 <? n) with false by (symmetry; lia). rewrite (sum_zero _ _ M).
      transitivity (sumR g (j + 1) (n - 1 + 1)); [|unfold g; f_equal; lia].
      rewrite <- (sumR_shift g). apply sumR_ext. intros k K. unfold line, g. destruct (Z.ltb_spec (k + 1) n); auto; lia.
    + rewrite (filter_window n j n) by (lia || (intros k K; cbn [counts]; destruct (Z.leb_spec j k), (Z.ltb_spec k n); auto; lia)).
      apply sumR_ext. reflexivity.
  - replace (Z.max 0 (j + 1 - w)) with 0 by lia. destruct e.
    + rewrite (filter_window n 0 j) by (lia || (intros k K; cbn [counts]; destruct (Z.ltb_spec k j), (Z.leb_spec 0 k); auto; lia)).
      rewrite <- (sumR_split _ 0 1 (j + 1)) by lia. change 1 with (0 + 1) at 1. rewrite sumR_one. unfold line at 1. cbn [Z.leb Z.compare Z.sub Z.add Z.opp].
      rewrite add_zero_l. transitivity (sumR g (1 + -1) (j + 1 + -1)); [|unfold g; f_equal; lia].
      rewrite <- (sumR_shift g). apply sumR_ext. intros k K. unfold line, g. destruct (Z.leb_spec 0 (k - 1)); try lia. do 2 f_equal. 
    + rewrite (filter_window n 0 (j + 1)) by (lia || (intros k K; cbn [counts]; destruct (Z.leb_spec k j), (Z.ltb_spec k (j + 1)), (Z.leb_spec 0 k); auto; lia)).
      apply sumR_ext. reflexivity.
Qed.

End Sums.
