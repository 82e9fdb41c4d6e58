(** Theorems C62 and C63: the SIMD reductions. The results are stated for an operation with
    the algebra the vectorization relies on (associative, commutative, with an identity):
    integers, minimum and maximum, and floating point up to rounding. *)
From Coq Require Import List ZArith Lia Bool Arith Permutation.
From Verif Require Import Util TensorSpec TensorLemmas BroadcastModel BroadcastProps LoopModel LoopProofs CumSumProofs GatherLoopModel GatherLoopProofs CopyLoopProofs ArgLoopModel ArgLoopProofs ReduceLoopSpec ReduceLoopModel ReduceLoopProofs ReduceLoopProps SimdReduceModel SimdReduceProofs SimdShuffleProofs SimdDispatchProofs.
Import ListNotations.
Open Scope Z_scope.

Definition monoid {T} (op : T -> T -> T) (identity : T) : Prop :=
  (forall x y z, op x (op y z) = op (op x y) z) /\ (forall x y, op x y = op y x) /\ (forall x, op identity x = x).

Lemma ceil_div n : - (- n / 8) = (n + 7) / 8.
Proof. Z.to_euclidean_division_equations. lia. Qed.
Lemma post_all {T} (op : T -> T -> T) identity divideBy s (f : list Z -> T) : okshape s ->
  post divideBy (msum op identity (map f (indices s))) (size s) = reduceAll op identity divideBy (map f (indices s)).
Proof. intros OK. unfold post, reduceAll, msum. destruct divideBy; auto. now rewrite map_length, indices_length. Qed.
Lemma msum_id {T} (op : T -> T -> T) identity : (forall x, op identity x = x) -> forall (l : list T) x, fold_left op (x :: l) identity = fold_left op l x.
Proof. intros H l x. cbn [fold_left]. now rewrite H. Qed.

Lemma in_repeat_nth {A} (x d : A) n r : (r < n)%nat -> nth r (repeat x n) d = x.
Proof. revert r; induction n as [|n IH]; intros [|r] H; cbn [repeat nth]; auto; try lia. apply IH; lia. Qed.

(** Reduction of a whole tensor to a scalar: the preprocessed elements combined, every
    element once, whatever the vector length; no access is out of bounds. *)
Theorem C62_sequential_full_reduction {T} (op : T -> T -> T) identity pre divideBy VL simdOnly (input : mem T) dv : let s := mShape input in
  monoid op identity -> okshape s -> s <> [] -> (forall i, valid s i -> mAt input i = Some (dv i)) ->
  1 <= VL -> (simdOnly = true -> size s mod VL = 0) ->
  exists out, fullReduction op identity pre divideBy VL simdOnly input = Some out /\ mShape out = [] /\
    mAt out [] = Some (reduceAll op identity divideBy (map (fun i => pre (dv i)) (indices s))).
Proof.
  intros s (opA & opC & opI) OK NE HD HV HB. destruct (full_ok op identity opA opC opI pre input dv OK HD divideBy VL simdOnly NE HV HB) as (out & E & SH & R).
  exists out. split; auto. split; auto. rewrite R. f_equal. now apply post_all.
Qed.

(** The eight-way parallel version computes the same in any order of the threads, if the
    chunks cover the tensor without running past its end. *)
Theorem C62_parallel_full_reduction {T} (op : T -> T -> T) identity divideBy VL threads (input : mem T) dv : let s := mShape input in
  monoid op identity -> okshape s -> s <> [] -> (forall i, valid s i -> mAt input i = Some (dv i)) ->
  1 <= VL -> Permutation threads (zrange 8) -> (VL = 1 \/ 7 * ((size s + 7) / 8) <= size s) ->
  exists out, fullReductionParallel op identity (fun v => v) divideBy VL threads input = Some out /\ mShape out = [] /\
    mAt out [] = Some (reduceAll op identity divideBy (map dv (indices s))).
Proof.
  intros s (opA & opC & opI) OK NE HD HV HP HC. destruct (parallel_ok op identity opA opC opI (fun v => v) input dv OK HD divideBy VL threads NE HV HP) as (out & E & SH & R); auto.
  - fold s. now rewrite ceil_div.
  - exists out. split; auto. split; auto. rewrite R. f_equal. now apply post_all.
Qed.
(** In particular from 49 elements on. *)
Corollary C62_parallel_from_49 {T} (op : T -> T -> T) identity divideBy VL threads (input : mem T) dv : let s := mShape input in
  monoid op identity -> okshape s -> s <> [] -> (forall i, valid s i -> mAt input i = Some (dv i)) ->
  1 <= VL -> Permutation threads (zrange 8) -> 49 <= size s ->
  exists out, fullReductionParallel op identity (fun v => v) divideBy VL threads input = Some out /\ mShape out = [] /\
    mAt out [] = Some (reduceAll op identity divideBy (map dv (indices s))).
Proof.
  intros s HM OK NE HD HV HP HC. apply C62_parallel_full_reduction; auto. right. fold s. Z.to_euclidean_division_equations. lia.
Qed.
(** The choice between the two: always right if the size is known at compile time. *)
Theorem C62_full_reduction {T} (op : T -> T -> T) identity divideBy VL simdOnly par known (input : mem T) dv : let s := mShape input in
  monoid op identity -> okshape s -> s <> [] -> (forall i, valid s i -> mAt input i = Some (dv i)) ->
  1 <= VL -> (simdOnly = true -> size s mod VL = 0) -> (forall threads, par = Some threads -> Permutation threads (zrange 8)) ->
  match known with Some n => n = size s | None => par = None \/ VL = 1 \/ 7 * ((size s + 7) / 8) <= size s end ->
  exists out, emitFull op identity (fun v => v) divideBy par known VL simdOnly input = Some out /\ mShape out = [] /\
    mAt out [] = Some (reduceAll op identity divideBy (map dv (indices s))).
Proof.
  intros s HM OK NE HD HV HB HP HK. unfold emitFull. destruct par as [th|]; [|exact (C62_sequential_full_reduction op identity (fun v => v) divideBy VL simdOnly input dv HM OK NE HD HV HB)]. destruct (largeEnough VL known) eqn:EL; [|exact (C62_sequential_full_reduction op identity (fun v => v) divideBy VL simdOnly input dv HM OK NE HD HV HB)].
  apply C62_parallel_full_reduction; auto. fold s. destruct known as [n|]; [|destruct HK as [HK|HK]; [discriminate|exact HK]]. subst n. cbn [largeEnough] in EL. apply Z.leb_le in EL. destruct (Z.eq_dec VL 1); auto. right.
  assert (49 <= size s) by lia. Z.to_euclidean_division_equations. lia.
Qed.
(** With a preprocessing that the partial results go through again (absolute value before a
    maximum): no chunk may be empty. *)
Theorem C62_parallel_preprocessed {T} (op : T -> T -> T) identity pre divideBy VL threads (input : mem T) dv : let s := mShape input in
  monoid op identity -> (forall x, pre (pre x) = pre x) -> (forall x y, pre x = x -> pre y = y -> pre (op x y) = op x y) ->
  okshape s -> s <> [] -> (forall i, valid s i -> mAt input i = Some (dv i)) ->
  1 <= VL -> Permutation threads (zrange 8) -> 7 * ((size s + 7) / 8) < size s ->
  exists out, fullReductionParallel op identity pre divideBy VL threads input = Some out /\ mShape out = [] /\
    mAt out [] = Some (reduceAll op identity divideBy (map (fun i => pre (dv i)) (indices s))).
Proof.
  intros s (opA & opC & opI) PI PO OK NE HD HV HP HC. destruct (parallel_ok op identity opA opC opI pre input dv OK HD divideBy VL threads NE HV HP) as (out & E & SH & R); auto.
  - right. fold s. rewrite ceil_div. lia.
  - intros t Ht. unfold chunkSum, msum. fold s. set (l := zseq _ _). assert (NL : l <> []).
    { unfold l, chunk. cbn [fst snd]. rewrite ceil_div. pose proof (size_nonneg _ OK : 0 <= size s). assert (1 <= (size s + 7) / 8) by (Z.to_euclidean_division_equations; lia). set (b := (size s + 7) / 8) in *.
      destruct (Z.to_nat (Z.min (t * b + b) (size s) - t * b)) eqn:EN; [exfalso; nia|discriminate]. }
    destruct l as [|j l]; [congruence|]. cbn [map]. rewrite msum_id by auto. clear NL.
    assert (G : forall m x, pre x = x -> pre (fold_left op (map (fun j => pre (dv (unrm s j))) m) x) = fold_left op (map (fun j => pre (dv (unrm s j))) m) x).
    { induction m as [|y m IH]; intros x Hx; cbn [map fold_left]; auto. }
    apply G, PI.
  - exists out. split; auto. split; auto. rewrite R. f_equal. now apply post_all.
Qed.

(** ** What goes wrong *)
(** For sizes not known at compile time. Nine elements in eight chunks of two: the sixth thread starts past the end and adds
    elements again; the sum of nine ones is not nine. *)
Definition ones (n : Z) : mem Z := Mem [n] (fun _ => Some 1).
Theorem C62_parallel_short_refuted : exists out, emitFull Z.add 0 (fun v => v) None (Some (zrange 8)) None 4 false (ones 9) = Some out /\
  mAt out [] <> Some (reduceAll Z.add 0 None (map (fun _ => 1) (indices [9]))).
Proof. eexists. split; [vm_compute; reflexivity|]. vm_compute. discriminate. Qed.
(** One element: the second thread reads out of bounds. *)
Theorem C62_parallel_one_refuted : emitFull Z.add 0 (fun v => v) None (Some (zrange 8)) None 4 false (ones 1) = None.
Proof. vm_compute. reflexivity. Qed.
(** The maximum of absolute values (emitSymmetricQuantRecscaleToScalar): the identity, the
    lowest value, of an empty chunk is made positive and wins, even for a size known at
    compile time (33 elements, vector length 1). *)
Theorem C62_parallel_abs_max_refuted : exists out, emitFull Z.max (-1000) Z.abs None (Some (zrange 8)) (Some 33) 1 false (ones 33) = Some out /\
  mAt out [] = Some 1000 /\ reduceAll Z.max (-1000) None (map (fun _ => Z.abs 1) (indices [33])) = 1.
Proof. eexists. split; [vm_compute; reflexivity|]. split; vm_compute; reflexivity. Qed.
(** A scalar input fails an assertion in the compiler. *)
Theorem C62_scalar_refuted VL b : fullReduction Z.add 0 (fun v => v) None VL b (Mem [] (fun _ => Some 1)) = None.
Proof. reflexivity. Qed.

(** ** The whole lowering *)
(** As many axes are given as there are dimensions (or none), and keepdims = 0: the code then
    reduces everything to a scalar. *)
Definition takesFull (ax : axesArg) (axes : list Z) (rank : nat) (keepdims : bool) : Prop :=
  keepdims = false /\ match ax with AxNone => True | AxLit _ => length axes = rank | AxDyn lengthKnown _ => (if lengthKnown then length axes else O) = rank end.
(** What the choice of vector lengths guarantees (C44 for the first). *)
Definition goodConfig (c : simdConfig) (ty : list (option Z)) (red : list bool) (s : list Z) : Prop :=
  1 <= fullVL c /\ (fullSimdOnly c = true -> size s mod fullVL c = 0) /\
  match parallel c with None => True | Some threads => Permutation threads (zrange 8) /\ (staticSize ty <> None \/ fullVL c = 1 \/ 7 * ((size s + 7) / 8) <= size s) end /\
  1 <= VLof c /\ (hasHorizontalSimdSupport c = false -> exists k, VLof c = 2 ^ Z.of_nat k) /\
  (simdOnlyOf c = true -> forall p, red = repeat false p ++ repeat true (length s - p) -> size (skipn p s) mod VLof c = 0).

Lemma staticSize_ok ty s n : typed ty s -> staticSize ty = Some n -> n = size s.
Proof.
  intros H. revert n. unfold staticSize. induction H as [|t d ty s E H IH]; intros n; cbn [fold_right].
  - intros [= <-]. now rewrite size_nil.
  - destruct t as [x|]; [|discriminate]. destruct (fold_right _ _ ty) as [m|]; [|discriminate]. intros [= <-]. rewrite size_cons, (IH m eq_refl), E. reflexivity.
Qed.

Theorem C63_reduce_simd {T} (op : T -> T -> T) identity divideBy (input : mem T) dv ty ax axes keepdims noop red c : let s := mShape input in
  monoid op identity -> okshape s -> (forall i, valid s i -> mAt input i = Some (dv i)) -> typed ty s ->
  axesGiven ax axes -> Forall (fun x => - Z.of_nat (length s) <= x < Z.of_nat (length s)) axes ->
  (takesFull ax axes (length s) keepdims -> s <> [] /\ forall r, (r < length s)%nat -> isReduced (length s) axes noop r) ->
  (~ takesFull ax axes (length s) keepdims -> supported ax axes keepdims noop) ->
  describes red (length s) axes noop -> (divideBy = None \/ size (reduceDims red keepdims 1 s) <> 0) -> goodConfig c ty red s ->
  exists out, reduceSimd op identity divideBy c ty ax keepdims noop input = Result out /\ mShape out = reduceDims red keepdims 1 s /\
    forall o, valid (reduceDims red keepdims 1 s) o -> mAt out o = Some (reduceAll op identity divideBy (reducedElements red keepdims s dv o)).
Proof.
  intros s HM OK HD HT HG HF HFull HSup D N GC. pose proof D as [LR HR]. destruct GC as (C1 & C2 & C3 & C4 & C5 & C6). pose proof HM as (opA & opC & opI).
  assert (FULL : takesFull ax axes (length s) keepdims -> exists out, ofOption (emitFull op identity (fun v => v) divideBy (parallel c) (staticSize ty) (fullVL c) (fullSimdOnly c) input) = Result out /\ mShape out = reduceDims red keepdims 1 s /\
      forall o, valid (reduceDims red keepdims 1 s) o -> mAt out o = Some (reduceAll op identity divideBy (reducedElements red keepdims s dv o))).
  { intros TF. destruct (HFull TF) as [NE ALL]. destruct TF as [-> _].
    assert (ER : red = repeat true (length s)).
    { apply nth_ext with (d := false) (d' := false); [now rewrite repeat_length|]. intros r Hr. replace (nth r (repeat true (length s)) false) with true by (symmetry; apply in_repeat_nth; lia). apply HR; [lia|]. apply ALL. lia. }
    assert (ES : reduceDims red false 1 s = []) by (pose proof (reduceDims_inner 0 (length s) false 1 [] s eq_refl eq_refl) as H; cbn [repeat app] in H; now rewrite ER).
    rewrite ES. rewrite ER. destruct (C62_full_reduction op identity divideBy (fullVL c) (fullSimdOnly c) (parallel c) (staticSize ty) input dv HM OK NE HD C1 C2) as (out & E & SH & R).
    - intros th Hth. rewrite Hth in C3. tauto.
    - destruct (staticSize ty) as [n|] eqn:EN; [now apply (staticSize_ok ty)|]. destruct (parallel c); auto. right. destruct C3 as [_ [C3|C3]]; [congruence|exact C3].
    - exists out. rewrite E. split; [reflexivity|]. split; auto. intros o Vo. inversion Vo; subst. now rewrite all_elements. }
  assert (SCALAR : ~ takesFull ax axes (length s) keepdims -> exists out, reduceLoop op identity divideBy ty ax keepdims noop input = Result out /\ mShape out = reduceDims red keepdims 1 s /\
    forall o, valid (reduceDims red keepdims 1 s) o -> mAt out o = Some (reduceAll op identity divideBy (reducedElements red keepdims s dv o))).
  { intros NT. exact (C61_reduce op identity divideBy input dv ty ax axes keepdims noop red OK HD HT HG HF (HSup NT) D N). }
  unfold reduceSimd. fold s. destruct ax as [|l|lk m]; cbn [axesGiven] in HG.
  - destruct keepdims; cbn [negb andb].
    + assert (NT : ~ takesFull AxNone axes (length s) true) by (intros [X _]; discriminate). subst axes. cbn [lowerAxes inferAxes].
      assert (H0 : forall l b, innermostReduced (map (fun _ : nat => b) l) = if b then length l else O). { clear. induction l as [|x l IH]; intros []; cbn [map innermostReduced length]; auto. now rewrite IH. }
      replace ((0 <? innermostReduced (rev (map (fun i => existsb (Nat.eqb i) (if noop then [] else seq 0 (length s))) (seq 0 (length s)))))%nat && (innermostReduced (rev (map (fun i => existsb (Nat.eqb i) (if noop then [] else seq 0 (length s))) (seq 0 (length s)))) =? length (if noop then [] else seq 0 (length s)))%nat
         && (innermostReduced (rev (map (fun i => existsb (Nat.eqb i) (if noop then [] else seq 0 (length s))) (seq 0 (length s)))) <? length s)%nat && (1 <? VLof c)) with false; [now apply SCALAR|].
      rewrite <- map_rev. destruct noop.
      * cbn [existsb]. rewrite (H0 _ false). reflexivity.
      * rewrite (map_ext_in _ (fun _ => true)).
        { rewrite (H0 _ true), rev_length, seq_length, Nat.ltb_irrefl, andb_false_r. reflexivity. }
        { intros i Hi. apply in_rev in Hi. apply existsb_exists. exists i. split; auto. apply Nat.eqb_refl. }
    + apply FULL. split; auto.
  - subst l. destruct (uniqueAxes_ok (length s) axes [] HF) as (low & EU & _).
    assert (EI : exists inf, inferAxes (length s) axes noop = Some inf) by (destruct axes; cbn [inferAxes]; eauto). destruct EI as [inf EI]. rewrite EI.
    match goal with |- context [if ?b then ofOption (emitFull _ _ _ _ _ _ _ _ _) else _] => destruct b eqn:EK end.
    { apply FULL. apply andb_true_iff in EK as [EK EK2]. apply Nat.eqb_eq in EK. destruct keepdims; [discriminate|]. split; auto. }
    assert (NT : ~ takesFull (AxLit axes) axes (length s) keepdims) by (intros [-> X]; rewrite andb_true_r in EK; apply Nat.eqb_neq in EK; auto).
    cbn [lowerAxes]; rewrite EU.
    match goal with |- context [if ?b then ofOption _ else _] => destruct b eqn:EB; [|now apply SCALAR] end.
    rewrite !andb_true_iff in EB; destruct EB as [[[B1 B2] B3] B4]; apply Nat.ltb_lt in B1; apply Nat.eqb_eq in B2; apply Nat.ltb_lt in B3.
    assert (NA : axes <> []) by (intros ->; cbn [uniqueAxes] in EU; injection EU as <-; cbn [length] in B2; lia).
    assert (EIN : inf = low) by (destruct axes; [congruence|]; cbn [inferAxes] in EI; congruence); subst inf.
    pose proof (describes_lit red (length s) axes noop low D NA EU HF) as ER; rewrite ER in *.
    destruct (uniqueAxes_nodup _ _ _ _ EU (NoDup_nil _) (Forall_nil _)) as [ND FB].
    pose proof (count_mask low (length s) ND FB) as CM; rewrite ER in CM.
    set (h := innermostReduced (rev red)) in *; assert (MS : red = repeat false (length red - h) ++ repeat true h) by (apply mask_shape; [reflexivity|lia]).
    rewrite LR in MS; set (p := (length s - h)%nat) in *.
    assert (ES : s = firstn p s ++ skipn p s) by (now rewrite firstn_skipn).
    assert (LA : length (firstn p s) = p) by (rewrite firstn_length; lia); assert (LB : length (skipn p s) = h) by (rewrite skipn_length; lia).
    assert (EO : forall k : bool, reduceDims red k 1 s = firstn p s ++ (if k then repeat 1 (length (skipn p s)) else [])) by (intros k; rewrite ES at 1; rewrite MS at 1; rewrite LB; now apply reduceDims_inner).
    unfold getReductionMapping; rewrite ER, staticOut_ok by auto.
    assert (NP : firstn p s <> []) by (intros X; rewrite X in LA; cbn in LA; lia).
    rewrite EO in N |- *.
    destruct (reduceHorizontal_ok op identity divideBy opA opC opI input dv OK HD c (firstn p s) (skipn p s) keepdims ES NP N C4) as (res & E & SH & R); [|exact C5|].
    try (intros Hb; apply C6; auto; rewrite MS at 1; do 2 f_equal; lia).
    rewrite LB in E at 1; rewrite E; exists res; split; [reflexivity|]; split; [exact SH|].
    intros o Vo; rewrite (R o Vo); rewrite LA, LB; now rewrite <- MS.
  - destruct HG as [SA _]. rewrite SA. cbn [nth].
    match goal with |- context [if ?b then ofOption _ else _] => destruct b eqn:EB end.
    + apply FULL. apply andb_true_iff in EB as [EB EK]. destruct keepdims; [discriminate|]. split; auto. apply Nat.eqb_eq in EB. destruct lk; [rewrite Nat2Z.id in EB|]; exact EB.
    + apply SCALAR. intros [-> X]. rewrite andb_true_r in EB. apply Nat.eqb_neq in EB. apply EB. destruct lk; [rewrite Nat2Z.id|]; exact X.
Qed.

(** noop_with_empty_axes = 1 without axes means the identity, but without keepdims the full
    reduction is taken before the attribute is looked at. *)
Definition someConfig := {| parallel := None; fullVL := 4; fullSimdOnly := false; VLof := 4; simdOnlyOf := false; hasHorizontalSimdSupport := false |}.
Definition matrix : mem Z := Mem [2; 3] (fun i => Some (10 * nth 0 i 0 + nth 1 i 0)).
Theorem C63_noop_refuted : exists out, reduceSimd Z.add 0 None someConfig [Some 2; Some 3] AxNone false true matrix = Result out /\ mShape out = [] /\
  describes [false; false] 2 [] true /\ reduceDims [false; false] false 1 [2; 3] = [2; 3].
Proof.
  eexists. split; [vm_compute; reflexivity|]. split; [reflexivity|]. split; [|reflexivity]. split; auto. intros [|[|r]] Hr; cbn; unfold isReduced; cbn; try lia; intuition discriminate.
Qed.
(** Axis 0 given twice for a matrix: the axes are counted before duplicates are removed and
    the other axis is reduced too. *)
Theorem C63_duplicate_axes_refuted : exists out, reduceSimd Z.add 0 None someConfig [Some 2; Some 3] (AxLit [0; 0]) false false matrix = Result out /\ mShape out = [] /\
  describes [true; false] 2 [0; 0] false /\ reduceDims [true; false] false 1 [2; 3] = [3].
Proof.
  eexists. split; [vm_compute; reflexivity|]. split; [reflexivity|]. split; [|reflexivity]. split; auto. intros [|[|r]] Hr; cbn; unfold isReduced; cbn; try lia; intuition (try discriminate; try lia).
Qed.

(** ** The hypotheses are met *)
Definition bigger : mem Z := Mem [2; 7; 5] (fun i => Some (100 * nth 0 i 0 + 10 * nth 1 i 0 + nth 2 i 0)).
Lemma bigger_ok : okshape (mShape bigger) /\ forall i, valid (mShape bigger) i -> mAt bigger i = Some (100 * nth 0 i 0 + 10 * nth 1 i 0 + nth 2 i 0).
Proof. split; [repeat constructor; lia|reflexivity]. Qed.
Lemma add_monoid : monoid Z.add 0.
Proof. repeat split; intros; lia. Qed.
Example C62_full_instance : exists out, fullReduction Z.add 0 Z.abs None 8 false bigger = Some out /\ mShape out = [] /\
    mAt out [] = Some (reduceAll Z.add 0 None (map (fun i => Z.abs (100 * nth 0 i 0 + 10 * nth 1 i 0 + nth 2 i 0)) (indices [2; 7; 5]))).
Proof. apply (C62_sequential_full_reduction Z.add 0 Z.abs None 8 false bigger _ add_monoid (proj1 bigger_ok)); try discriminate; try lia. exact (proj2 bigger_ok). Qed.
Example C62_parallel_instance : exists out, fullReductionParallel Z.add 0 (fun v => v) None 8 [3; 1; 7; 0; 2; 6; 5; 4] bigger = Some out /\ mShape out = [] /\
    mAt out [] = Some (reduceAll Z.add 0 None (map (fun i => 100 * nth 0 i 0 + 10 * nth 1 i 0 + nth 2 i 0) (indices [2; 7; 5]))).
Proof.
  apply (C62_parallel_from_49 Z.add 0 None 8 _ bigger _ add_monoid (proj1 bigger_ok)); try discriminate; try lia; [exact (proj2 bigger_ok)|].
  apply NoDup_Permutation; [repeat constructor; cbn; intuition discriminate|vm_compute; repeat constructor; cbn; intuition discriminate|]. intros x. vm_compute. intuition.
Qed.
Example C63_run_horizontal : show (reduceSimd Z.add 0 None someConfig [Some 2; Some 7; Some 5] (AxLit [-1]) true false bigger)
  = Some ([2; 7; 1], map (fun k => Some (10 + 500 * (k / 7) + 50 * (k mod 7))) (zrange 14)).
Proof. vm_compute. reflexivity. Qed.
Example C63_horizontal_instance : exists out, reduceSimd Z.add 0 None someConfig [Some 2; Some 7; None] (AxLit [1; 2]) false false bigger = Result out /\ mShape out = [2] /\
  forall o, valid [2] o -> mAt out o = Some (reduceAll Z.add 0 None (reducedElements [false; true; true] false [2; 7; 5] (fun i => 100 * nth 0 i 0 + 10 * nth 1 i 0 + nth 2 i 0) o)).
Proof.
  apply (C63_reduce_simd Z.add 0 None bigger (fun i => 100 * nth 0 i 0 + 10 * nth 1 i 0 + nth 2 i 0) [Some 2; Some 7; None] (AxLit [1; 2]) [1; 2] false false [false; true; true] someConfig add_monoid (proj1 bigger_ok) (proj2 bigger_ok)); auto.
  - repeat constructor.
  - reflexivity.
  - repeat constructor; cbn; lia.
  - intros [_ X]. discriminate.
  - intros _. left. discriminate.
  - split; auto. intros [|[|[|r]]] Hr; cbn in *; unfold isReduced; cbn; try lia; intuition (try discriminate; try lia).
  - unfold goodConfig, someConfig; cbn [fullVL fullSimdOnly parallel VLof simdOnlyOf hasHorizontalSimdSupport]. split; [lia|]. split; [discriminate|]. split; auto. split; [lia|]. split; [exists 2%nat; reflexivity|discriminate].
Qed.
Print Assumptions C62_sequential_full_reduction.
Print Assumptions C62_full_reduction.
Print Assumptions C62_parallel_full_reduction.
Print Assumptions C62_parallel_from_49.
Print Assumptions C62_parallel_preprocessed.
Print Assumptions C62_parallel_short_refuted.
Print Assumptions C62_parallel_one_refuted.
Print Assumptions C62_parallel_abs_max_refuted.
Print Assumptions C62_scalar_refuted.
Print Assumptions C63_reduce_simd.
Print Assumptions C63_noop_refuted.
Print Assumptions C63_duplicate_axes_refuted.
