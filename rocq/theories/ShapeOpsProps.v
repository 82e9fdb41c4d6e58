(** Theorems C31 (Reshape), C32 (Split), C33 (Squeeze, Unsqueeze), C46 (Flatten),
    C47 (Concat). *)
From Coq Require Import List ZArith Bool Arith Lia Permutation Sorted.
From Verif Require Import Util TensorSpec TensorLemmas ShapeOpsModel ShapeOpsSpec ShapeOpsProofs ShapeOpsCopies ShapeOpsAxes.
From Verif Require ConvProofs.
Import ListNotations.
Open Scope Z_scope.

(** * C31: Reshape. *)

(** On a tensor with no empty dim and a legal target, whenever some shape satisfies the
    target, the computed shape is that one; whichever dims the analysis found equal. *)
Theorem C31_reshape_run dimOf data sh out :
  Forall (fun d => 1 <= d) data -> legal_target data sh -> dims_equal dimOf data sh -> reshapes_to data sh out ->
  reshapeRun dimOf data sh = Some out.
Proof. apply reshape_run_ok. Qed.
(** Shape inference, knowing only part of the input shape and of the target, finds dims
    that all agree with the shape at run time. *)
Theorem C31_reshape_infer dimOf data0 sh0 data sh out :
  agrees data0 data -> agrees sh0 sh ->
  Forall (fun d => 1 <= d) data -> legal_target data sh -> dims_equal dimOf data sh -> reshapes_to data sh out ->
  exists out0, reshapeInfer dimOf data0 sh0 = Some out0 /\ agrees out0 out.
Proof. intros H1 H2 H3 H4 H5 H6. eapply reshape_infer_ok; eauto. now apply reshape_run_ok. Qed.
(** Likewise when not even the rank of the input is known. *)
Theorem C31_reshape_infer_unranked sh0 data sh out :
  agrees sh0 sh -> legal_target data sh -> reshapes_to data sh out -> agrees (reshapeInferUnranked sh0) out.
Proof.
  intros HA [L _] (RL & R & _).
  assert (G : forall i v, nth_error sh i = Some v -> -1 <= v /\ (0 < v -> nth_error out i = Some v)) by (intros i v H; split; [apply (L i v H)|apply (R i v H)]).
  clear L R. revert out RL G. unfold reshapeInferUnranked, agrees. induction HA as [|o d sh0 sh Ho HA IH]; intros [|e out] RL G; try discriminate; cbn [map]; constructor.
  - destruct o as [z|]; [|discriminate]. rewrite (Ho z eq_refl). destruct (G O d eq_refl) as [G1 G2].
    destruct (Z.eqb_spec d 0), (Z.eqb_spec d (-1)); cbn [orb]; intros v E; try discriminate. injection E as <-. specialize (G2 ltac:(lia)). cbn in G2. congruence.
  - apply IH; [cbn in RL; lia|]. intros i v H. apply (G (S i) v H).
Qed.
(** A tensor with an empty dim: the quotient for -1 is computed even when no -1 is given,
    and divides by zero. *)
Theorem C31_empty_tensor_refuted : exists data sh, Forall (fun d => 0 <= d) data /\ legal_target data sh /\ reshapes_to data sh data /\
  reshapeRun (repeat None (length sh)) data sh = None.
Proof.
  exists [2; 0], [2; 0]. split; [repeat constructor; lia|]. split; [split|split; [|reflexivity]].
  - intros [|[|[|i]]] v H; cbn in H; try discriminate; injection H as <-; cbn; lia.
  - intros [|[|[|i]]] j H _; cbn in H; discriminate.
  - split; [reflexivity|]. split; [|reflexivity]. intros [|[|[|i]]] v H; cbn in H; try discriminate; injection H as <-; cbn; split; intros; auto; lia.
Qed.
(** A target dim equal to an empty input dim is left out of the count although it copies
    another dim: the element count changes. *)
Theorem C31_empty_dim_matched_refuted : exists dimOf data sh out, legal_target data sh /\ dims_equal dimOf data sh /\ reshapes_to data sh out /\
  exists out', reshapeRun dimOf data sh = Some out' /\ prodZ out' <> prodZ data.
Proof.
  exists [Some 1%nat; None], [5; 0], [0; -1], [5; 0]. split; [split|split; [|split]].
  - intros [|[|[|i]]] v H; cbn in H; try discriminate; injection H as <-; cbn; lia.
  - intros [|[|[|i]]] [|[|[|j]]] H1 H2; cbn in H1, H2; try discriminate; auto.
  - intros [|[|[|i]]] k H; cbn in H; try discriminate. injection H as <-. cbn. repeat split; lia.
  - split; [reflexivity|]. split; [|reflexivity]. intros [|[|[|i]]] v H; cbn in H; try discriminate; injection H as <-; cbn; split; intros; auto; lia.
  - exists [5; 5]. split; [reflexivity|]. vm_compute. discriminate.
Qed.
(** allowzero = 1 asks for a literal 0; it is not looked at. *)
Theorem C31_allowzero_refuted : exists data sh, Forall (fun d => 0 <= d) sh /\ prodZ sh = prodZ data /\
  exists out, reshapeRun (repeat None (length sh)) data sh = Some out /\ out <> sh.
Proof. exists [0; 3], [3; 0]. split; [repeat constructor; lia|]. split; [reflexivity|]. exists [3; 3]. split; [reflexivity|discriminate]. Qed.

Example C31_case : let data := [2; 3; 4] in let sh := [0; -1; 6] in let out := [2; 2; 6] in let dimOf := [None; None; None] in
  Forall (fun d => 1 <= d) data /\ legal_target data sh /\ dims_equal dimOf data sh /\ reshapes_to data sh out.
Proof.
  cbn zeta. split; [repeat constructor; lia|]. split; [split|split].
  - intros [|[|[|[|i]]]] v H; cbn in H; try discriminate; injection H as <-; cbn; lia.
  - intros [|[|[|[|i]]]] [|[|[|[|j]]]] H1 H2; cbn in H1, H2; try discriminate; auto.
  - intros [|[|[|[|i]]]] k H; cbn in H; discriminate.
  - split; [reflexivity|]. split; [|reflexivity]. intros [|[|[|[|i]]]] v H; cbn in H; try discriminate; injection H as <-; cbn; split; intros; auto; lia.
Qed.
(** A target dim found equal to an input dim. *)
Example C31_case_matched : let data := [7; 4] in let sh := [-1; 2; 7] in let out := [2; 2; 7] in let dimOf := [None; None; Some 0%nat] in
  dims_equal dimOf data sh /\ reshapes_to data sh out /\ reshapeRun dimOf data sh = Some out /\
  reshapeInfer dimOf [None; Some 4] [Some (-1); Some 2; None] = Some [Some 2; Some 2; None].
Proof.
  cbn zeta. split; [|split; [|split; reflexivity]].
  - intros [|[|[|[|i]]]] k H; cbn in H; try discriminate. injection H as <-. cbn. repeat split; lia.
  - split; [reflexivity|]. split; [|reflexivity]. intros [|[|[|[|i]]]] v H; cbn in H; try discriminate; injection H as <-; cbn; split; intros; auto; lia.
Qed.

(** * C32: Split. *)

Lemma map_const_seq {A} (c : A) n : forall a, map (fun _ => c) (seq a n) = repeat c n.
Proof. induction n; intros a; cbn; auto. now rewrite IHn. Qed.
Lemma sumZ_repeat c n : sumZ (repeat c n) = c * Z.of_nat n.
Proof. induction n; [unfold sumZ; cbn; lia|]. cbn [repeat]. rewrite sumZ_cons, IHn. lia. Qed.
Lemma cdivZ_exact a b : 0 < b -> a mod b = 0 -> cdivZ a b = a / b.
Proof. intros H E. unfold cdivZ. rewrite Z_div_zero_opp_full by (auto; lia). lia. Qed.
Lemma cdivZ_inexact a b : 0 < b -> a mod b <> 0 -> cdivZ a b = a / b + 1.
Proof. intros H E. unfold cdivZ. rewrite Z_div_nz_opp_full by (auto; lia). lia. Qed.

(** A dim divisible by the number of outputs: the ONNX sizes, known or not at compile
    time. *)
Theorem C32_split_even known ho n dim : (0 < n)%nat -> 0 <= dim -> dim mod Z.of_nat n = 0 ->
  splitSizes known ho n dim [] = Some (onnx_split_sizes n dim) /\ sumZ (onnx_split_sizes n dim) = dim.
Proof.
  intros Hn Hd HM. assert (HE : dim = Z.of_nat n * (dim / Z.of_nat n)) by (apply Z_div_exact_full_2; lia). unfold splitSizes, onnx_split_sizes. fold (cdivZ dim (Z.of_nat n)). rewrite cdivZ_exact by lia. rewrite HM. change (negb (0 =? 0)) with false. rewrite andb_false_r. cbn [andb].
  set (q := dim / Z.of_nat n) in *. split.
  - f_equal. rewrite (map_ext _ (fun _ => q)) by (intros; now destruct (_ <? _)%nat). rewrite map_const_seq. replace n with (n - 1 + 1)%nat at 1 by lia. rewrite repeat_app. f_equal. cbn. f_equal. nia.
  - rewrite sumZ_app, sumZ_repeat. unfold sumZ. cbn. lia.
Qed.
(** A dim known at compile time: Split-18 always gets sizes that add up to the dim and
    differ by at most one, the larger first; older versions reject an uneven split. *)
Theorem C32_split_known_adds_up n dim : (0 < n)%nat -> 0 <= dim ->
  exists sizes, splitSizes true true n dim [] = Some sizes /\ length sizes = n /\ sumZ sizes = dim /\
    Forall (fun d => dim / Z.of_nat n <= d <= dim / Z.of_nat n + 1) sizes /\ StronglySorted Z.ge sizes.
Proof.
  intros Hn Hd. unfold splitSizes. rewrite andb_false_r. set (q := dim / Z.of_nat n). set (b := Z.to_nat (dim mod Z.of_nat n)). eexists. split; [reflexivity|].
  pose proof (Z.mod_pos_bound dim (Z.of_nat n) ltac:(lia)) as HB. pose proof (Z.div_mod dim (Z.of_nat n) ltac:(lia)) as HD. fold q in HD.
  set (c := cdivZ dim (Z.of_nat n)).
  assert (Hc : q <= c <= q + 1 /\ (b <> O -> c = q + 1)).
  { unfold c. destruct (Z.eq_dec (dim mod Z.of_nat n) 0) as [E|E]; [rewrite cdivZ_exact by lia|rewrite cdivZ_inexact by lia]; fold q; split; try lia. }
  destruct Hc as [Hc1 Hc2]. assert (Hb : (b <= n)%nat) by lia.
  assert (EQ : map (fun i => if (i <? b)%nat then c else q) (seq 0 n) = repeat c b ++ repeat q (n - b)).
  { replace n with (b + (n - b))%nat at 1 by lia. rewrite seq_app, map_app. f_equal.
    - rewrite (map_ext_in _ (fun _ => c)); [apply map_const_seq|]. intros i H. apply in_seq in H. destruct (Nat.ltb_spec i b); auto; lia.
    - rewrite (map_ext_in _ (fun _ => q)); [apply map_const_seq|]. intros i H. apply in_seq in H. destruct (Nat.ltb_spec i b); auto; lia. }
  split; [now rewrite map_length, seq_length|]. rewrite EQ. split; [|split].
  - rewrite sumZ_app, !sumZ_repeat. destruct (Nat.eq_dec b 0) as [E|E]; [rewrite E in *; unfold b in E|rewrite (Hc2 E)]; nia.
  - apply Forall_app. split; apply Forall_forall; intros x H; apply repeat_spec in H; lia.
  - clear EQ. assert (R : forall m, StronglySorted Z.ge (repeat q m)) by (induction m; cbn; constructor; auto; apply Forall_forall; intros x H; apply repeat_spec in H; lia).
    assert (R' : forall k, StronglySorted Z.ge (repeat c k ++ repeat q (n - b))); [|apply R'].
    induction k; cbn; auto. constructor; auto. apply Forall_forall. intros x H. apply in_app_iff in H as [H|H]; apply repeat_spec in H; lia.
Qed.
Theorem C32_split_uneven_rejected n dim : (0 < n)%nat -> 0 <= dim -> dim mod Z.of_nat n <> 0 -> splitSizes true false n dim [] = None.
Proof. intros Hn Hd HM. unfold splitSizes. destruct (Z.eqb_spec (dim mod Z.of_nat n) 0); [tauto|]. reflexivity. Qed.
(** ... but these are not the ONNX sizes in general, *)
Theorem C32_split_uneven_refuted : exists n dim sizes, (0 < n)%nat /\ 0 <= dim /\ sumZ (onnx_split_sizes n dim) = dim /\ Forall (fun d => 0 <= d) (onnx_split_sizes n dim) /\
  splitSizes true true n dim [] = Some sizes /\ sizes <> onnx_split_sizes n dim.
Proof. exists 4%nat, 10, [3; 3; 2; 2]. split; [lia|]. split; [lia|]. split; [reflexivity|]. split; [repeat constructor; vm_compute; discriminate|]. split; [reflexivity|]. vm_compute. discriminate. Qed.
(** and a dim only known at run time that is not divisible never gets sizes that add up. *)
Theorem C32_split_dynamic_uneven_refuted ho n dim : (0 < n)%nat -> 0 <= dim -> dim mod Z.of_nat n <> 0 ->
  exists sizes, splitSizes false ho n dim [] = Some sizes /\ dim < sumZ sizes.
Proof.
  intros Hn Hd HM. unfold splitSizes. cbn [andb]. eexists. split; [reflexivity|]. rewrite (map_ext_in _ (fun _ => cdivZ dim (Z.of_nat n))).
  2:{ intros i H. apply in_seq in H. destruct (Nat.ltb_spec i n); auto; lia. }
  rewrite map_const_seq, sumZ_repeat, cdivZ_inexact by lia. pose proof (Z.mod_pos_bound dim (Z.of_nat n) ltac:(lia)). pose proof (Z.div_mod dim (Z.of_nat n) ltac:(lia)). nia.
Qed.
(** The copy loops: with sizes that add up to the dim every output is filled, each element
    once, with the chunk starting where the previous one ended; no load leaves the input. *)
Theorem C32_split_copies {T} (x : tensor T) axis sizes i : okshape (tShape x) -> (axis < length (tShape x))%nat ->
  Forall (fun d => 0 <= d) sizes -> sumZ sizes = nth axis (tShape x) 0 -> (i < length sizes)%nat ->
  exists stores, splitLoop x axis sizes i = Some stores /\
    fills stores (upd axis (nth i sizes 0) (tShape x)) (fun idx => tAt x (shift axis (chunk_start sizes i) idx)).
Proof. apply splitLoop_ok. Qed.
(** Splitting 7 elements of unknown number in two reads past the end; so do explicit sizes
    that do not add up, which are not rejected. *)
Theorem C32_split_out_of_bounds_refuted : exists (x : tensor Z) sizes, tShape x = [7] /\ splitSizes false true 2 7 [] = Some sizes /\ splitLoop x 0 sizes 1 = None.
Proof. exists {| tShape := [7]; tAt := fun idx => nth 0 idx 0 |}, [4; 4]. split; [reflexivity|]. split; reflexivity. Qed.
Theorem C32_explicit_sizes_unchecked_refuted : exists (x : tensor Z) sizes, tShape x = [7] /\ splitSizes true true 2 7 sizes = Some sizes /\ sumZ sizes <> 7 /\ splitLoop x 0 sizes 1 = None.
Proof. exists {| tShape := [7]; tAt := fun idx => nth 0 idx 0 |}, [5; 6]. split; [reflexivity|]. split; [reflexivity|]. split; [vm_compute; discriminate|reflexivity]. Qed.

Example C32_case : (12 mod Z.of_nat 4 = 0) /\ onnx_split_sizes 4 12 = [3; 3; 3; 3] /\ onnx_split_sizes 3 7 = [3; 3; 1] /\ 7 mod Z.of_nat 3 <> 0.
Proof. repeat split. discriminate. Qed.
Example C32_copy_case : let x := {| tShape := [2; 5]; tAt := fun idx => 10 * nth 0 idx 0 + nth 1 idx 0 |} in
  splitLoop x 1 [3; 2] 1 = Some [([0; 0], 3); ([0; 1], 4); ([1; 0], 13); ([1; 1], 14)].
Proof. reflexivity. Qed.

(** * C33: Squeeze and Unsqueeze. *)

(** Legal axes: the output has a one at each of them and the data dims, in order, at the
    other positions; squeezing the same axes gives the data back. *)
Theorem C33_unsqueeze {A} (one : A) data axes : let rank := Z.of_nat (length data) + Z.of_nat (length axes) in
  axes_in_range rank axes -> axes_distinct rank axes ->
  exists out, unsqueeze one data axes = Done out /\ Z.of_nat (length out) = rank /\
    (forall a, axis_in rank axes a -> zget out a = Some one) /\ others out (axis_in rank axes) data /\
    squeeze out axes = Some data.
Proof.
  intros rank HR HD. destruct (unsqueeze_ok one data axes HR HD) as (out & E & L & O & K). fold rank in L, O, K. exists out. split; [auto|]. split; [auto|]. split; [auto|]. split.
  - rewrite <- K at 1. apply (others_ext _ (fun a => In a (map (nm rank) axes))); [intros a; symmetry; apply axis_in_map|apply keepDims_others].
  - unfold squeeze. rewrite L, normAll_some by auto. cbn [obind]. now rewrite K.
Qed.
(** Out-of-range and repeated axes, and only those, are rejected; no input crashes. *)
Theorem C33_unsqueeze_rejects {A} (one : A) data axes : let rank := Z.of_nat (length data) + Z.of_nat (length axes) in
  (unsqueeze one data axes = Rejected <-> ~ (axes_in_range rank axes /\ axes_distinct rank axes)) /\ unsqueeze one data axes <> Crashed.
Proof.
  intros rank. destruct (normDistinct rank axes []) as [ax|] eqn:E.
  - destruct (normDistinct_inv rank axes [] ax (NoDup_nil _) E) as [HR HD]. destruct (unsqueeze_ok one data axes HR HD) as (out & EO & _). fold rank in EO. rewrite EO. split; [split; [discriminate|intros H; destruct H; split; auto]|discriminate].
  - assert (EU : unsqueeze one data axes = Rejected) by (unfold unsqueeze; fold rank; now rewrite E). rewrite EU. split; [split; [|auto]|discriminate]. intros _ [HR HD]. rewrite normDistinct_some in E; [discriminate|auto|exact HD].
Qed.
(** The number of elements does not change. *)
Theorem C33_unsqueeze_size data axes out : unsqueeze 1 data axes = Done out -> prodZ out = prodZ data.
Proof.
  intros H. destruct (C33_unsqueeze_rejects 1 data axes) as [HI _]. set (rank := Z.of_nat (length data) + Z.of_nat (length axes)) in *.
  destruct (normDistinct rank axes []) as [ax|] eqn:E.
  2:{ unfold unsqueeze in H. fold rank in H. rewrite E in H. discriminate. }
  destruct (normDistinct_inv rank axes [] ax (NoDup_nil _) E) as [HR HD]. destruct (unsqueeze_ok 1 data axes HR HD) as (out' & EO & L & O & K). fold rank in L, O, K. rewrite H in EO. injection EO as <-.
  rewrite <- K. unfold keepDims, zenum, zrange. rewrite Nat2Z.id. symmetry. apply kept_product. intros p v Hp Hin. apply axis_in_map in Hin. apply O in Hin. rewrite zget_spec in Hin by lia. cbn in Hin. rewrite Nat2Z.id in Hin. congruence.
Qed.
(** Squeeze with axes: exactly the other dims, in order; only out-of-range axes are
    rejected. *)
Theorem C33_squeeze {A} (data : list A) axes : let rank := Z.of_nat (length data) in
  (forall out, squeeze data axes = Some out <-> axes_in_range rank axes /\ others data (axis_in rank axes) out).
Proof.
  intros rank out. unfold squeeze. fold rank. destruct (Forall_dec (fun b => - rank <= b < rank) ltac:(intros b; destruct (Z_le_dec (- rank) b), (Z_lt_dec b rank); (left; lia) || (right; lia)) axes) as [HR|HR].
  - rewrite normAll_some by exact HR. cbn [obind].
    assert (HO : others data (axis_in rank axes) (keepDims data (map (nm rank) axes))) by (apply (others_ext _ (fun a => In a (map (nm rank) axes))); [intros a; symmetry; apply axis_in_map|apply keepDims_others]).
    split; [intros H; injection H as <-; split; [exact HR|exact HO]|]. intros [_ H]. f_equal. eapply others_unique; eauto.
  - rewrite normAll_none by exact HR. cbn [obind]. split; [discriminate|]. intros [H _]. destruct (HR H).
Qed.
(** Squeezing dims that are one keeps the number of elements. *)
Theorem C33_squeeze_size data axes out : squeeze data axes = Some out ->
  (forall a, axis_in (Z.of_nat (length data)) axes a -> zget data a = Some 1) -> prodZ out = prodZ data.
Proof.
  intros H HO. apply C33_squeeze in H as H'. destruct H' as [HR _]. unfold squeeze in H. rewrite normAll_some in H by auto. injection H as <-.
  unfold keepDims, zenum, zrange. rewrite Nat2Z.id. apply kept_product. intros p v Hp Hin. apply axis_in_map in Hin. apply HO in Hin. rewrite zget_spec in Hin by lia. cbn in Hin. rewrite Nat2Z.id in Hin. congruence.
Qed.
(** Without axes: all the dims equal to one. *)
Theorem C33_squeeze_all s : squeezeAll (map Some s) = Some (map Some (filter (fun d => negb (d =? 1)) s)).
Proof. apply squeezeAll_ok. Qed.
(** A dim that is not one may be squeezed: nothing checks it. *)
Theorem C33_squeeze_nonunit_refuted : exists data axes out, squeeze data axes = Some out /\ prodZ out <> prodZ data.
Proof. exists [2; 3], [0], [3]. split; [reflexivity|vm_compute; discriminate]. Qed.

Example C33_case : axes_in_range 5 [-1; 0; 2] /\ axes_distinct 5 [-1; 0; 2] /\ unsqueeze 1 [7; 8] [-1; 0; 2] = Done [1; 7; 1; 8; 1] /\ unsqueeze 1 [7; 8] [-1; 4; 0] = Rejected /\ unsqueeze 1 [7; 8] [3; -1] = Rejected.
Proof. split; [repeat constructor; lia|]. split; [unfold axes_distinct; cbn; repeat constructor; cbn; lia|]. repeat split. Qed.

(** * C46: Flatten. *)

(** Axis: in [-rank, rank]. *)
Theorem C46_flatten_axis rank a : 0 <= rank -> flattenAxis rank a = (if (- rank <=? a) && (a <=? rank) then Some (Z.to_nat (if a <? 0 then a + rank else a)) else None) /\
  (forall k, flattenAxis rank a = Some k -> Z.of_nat k <= rank).
Proof.
  intros H. unfold flattenAxis. split; [destruct (Z.ltb_spec a (- rank)), (Z.ltb_spec rank a), (Z.leb_spec (- rank) a), (Z.leb_spec a rank); cbn; auto; lia|].
  intros k. destruct (Z.ltb_spec a (- rank)), (Z.ltb_spec rank a); cbn; try discriminate. intros E. injection E as <-. destruct (Z.ltb_spec a 0); lia.
Qed.
(** The loops fill an output of shape [product of the dims before the axis; product of the
    others], each element once, nothing out of bounds, keeping the row-major order; and
    the inferred shape agrees with it. *)
Theorem C46_flatten {T} (x : tensor T) axis : okshape (tShape x) -> (axis <= length (tShape x))%nat ->
  let out := [size (firstn axis (tShape x)); size (skipn axis (tShape x))] in
  flattenAlloc (tShape x) axis = out /\
  exists stores, flattenLoop x axis out = Some stores /\ NoDup (map fst stores) /\ (forall w, In w (map fst stores) <-> valid out w) /\
    forall w v, In (w, v) stores -> exists idx, valid (tShape x) idx /\ v = tAt x idx /\ rowmajor out w = rowmajor (tShape x) idx.
Proof.
  intros HO HA out. assert (E : flattenAlloc (tShape x) axis = out) by (unfold out, flattenAlloc; rewrite !fold_mul; unfold size; now rewrite !Z.mul_1_l). split; [exact E|].
  pose proof (flatten_ok x axis HO HA) as H. cbn zeta in H. rewrite E in H. exact H.
Qed.
Theorem C46_flatten_infer s0 s axis : agrees s0 s -> agrees (flattenInfer s0 axis) (flattenAlloc s axis).
Proof. intros H. unfold flattenInfer, flattenAlloc. repeat constructor; [apply (inferProduct_ok (firstn axis s0)), agrees_firstn, H|apply (inferProduct_ok (skipn axis s0)), agrees_skipn, H]. Qed.
Example C46_case : let x := {| tShape := [2; 3; 2]; tAt := fun idx => idx |} in
  flattenAlloc (tShape x) 2 = [6; 2] /\ option_map (@length _) (flattenLoop x 2 [6; 2]) = Some 12%nat /\
  option_map (fun l => nth 7 l ([], [])) (flattenLoop x 2 [6; 2]) = Some ([3; 1], [1; 0; 1]).
Proof. repeat split. Qed.

(** * C47: Concat. *)

(** The loops fill the output, each element once, nothing out of bounds, with the inputs
    placed one after the other along the axis. *)
Theorem C47_concat {T} (dflt : T) axis base inputs : concatenable axis base inputs ->
  let out := upd axis (sumZ (map (fun x => nth axis (tShape x) 0) inputs)) base in
  exists stores, concatLoop axis out inputs 0 = Some stores /\ fills stores out (concat_at dflt axis inputs).
Proof.
  intros (HO & HA & HF) out. destruct (concat_ok dflt axis base (total axis inputs) HA inputs 0 HF ltac:(lia) ltac:(lia)) as (st & E & N & C & V). exists st. split; [exact E|]. split; [exact N|]. split.
  - intros idx. rewrite C. split; [tauto|]. intros H. split; [exact H|]. apply valid_upd_iff in H as (_ & H & _); [|auto]. unfold total. lia.
  - intros idx v H. rewrite (V idx v H). change (- 0) with 0. now rewrite shift_0.
Qed.
(** The shape computed from the inputs: dims known at compile time override unknown ones,
    and inputs of shape [0] are skipped. *)
Theorem C47_concat_shape axis base (inputs : list (list (bool * Z))) : (axis < length base)%nat ->
  Forall (fun s => s = [(true, 0)] \/ exists d, map snd s = upd axis d base) inputs -> (exists s, In s inputs /\ s <> [(true, 0)]) ->
  concatDims axis inputs = Some (upd axis (sumZ (map (fun s => nth axis (map snd s) 0) (filter (fun s => negb (isEmptyInput s)) inputs))) base).
Proof.
  assert (EI : forall s, isEmptyInput s = true <-> s = [(true, 0)]).
  { intros s. split; [|intros ->; reflexivity]. destruct s as [|[[|] [| |]] [|]]; cbn; intros; try discriminate; auto. }
  intros HA HF (s1 & Hin & Hne). rewrite (concatDims_ok axis base); [|auto| |].
  - f_equal. f_equal. clear. induction inputs as [|s inputs IH]; cbn [map filter]; auto. rewrite sumZ_cons, IH. unfold axisSize. destruct (isEmptyInput s); cbn [negb map]; [lia|]. rewrite sumZ_cons. f_equal. change 0 with (snd (false, 0)) at 2. now rewrite map_nth.
  - eapply Forall_impl; [|exact HF]. intros s [H|H]; [left; now apply EI|right; auto].
  - exists s1. split; auto. destruct (isEmptyInput s1) eqn:E; auto. apply EI in E. tauto.
Qed.
(** Split followed by Concat along the same axis gives the tensor back. *)
Theorem C47_split_then_concat {T} (dflt : T) (x : tensor T) axis sizes (chunks : list (tensor T)) :
  okshape (tShape x) -> (axis < length (tShape x))%nat -> Forall (fun d => 0 <= d) sizes -> sumZ sizes = nth axis (tShape x) 0 -> length chunks = length sizes ->
  (forall i c, nth_error chunks i = Some c -> tShape c = upd axis (nth i sizes 0) (tShape x) /\
     exists stores, splitLoop x axis sizes i = Some stores /\ forall idx v, In (idx, v) stores -> tAt c idx = v) ->
  exists stores, concatLoop axis (tShape x) chunks 0 = Some stores /\ fills stores (tShape x) (tAt x).
Proof.
  intros HO HA HS HT HL HC.
  assert (HD : map (fun c : tensor T => nth axis (tShape c) 0) chunks = sizes).
  { apply nth_error_ext. intros i. rewrite nth_error_map. destruct (nth_error chunks i) as [c|] eqn:E; cbn [option_map].
    - destruct (HC i c E) as [ES _]. rewrite ES, nth_upd_same by auto. symmetry. apply nth_error_nth'. rewrite <- HL. apply nth_error_Some. congruence.
    - symmetry. apply nth_error_None. apply nth_error_None in E. lia. }
  assert (HB : concatenable axis (tShape x) chunks).
  { split; [auto|]. split; [auto|]. apply Forall_forall. intros c Hc. apply In_nth_error in Hc as [i Hi]. destruct (HC i c Hi) as [ES _]. exists (nth i sizes 0). split; [|exact ES].
    assert (i < length sizes)%nat by (rewrite <- HL; apply nth_error_Some; congruence). rewrite Forall_forall in HS. apply HS, nth_In. auto. }
  destruct (C47_concat dflt axis (tShape x) chunks HB) as (st & E & N & C & V). rewrite HD, HT, upd_nth_id in *. exists st. split; [exact E|]. split; [exact N|]. split; [exact C|].
  intros idx v H. rewrite (V idx v H). assert (HV : valid (tShape x) idx) by (apply C, in_map_iff; exists (idx, v); auto).
  assert (G : forall chunks' off, (forall i c, nth_error chunks' i = Some c -> nth_error chunks (off + i) = Some c) -> (off + length chunks' = length chunks)%nat ->
    chunk_start sizes off <= nth axis idx 0 -> concat_at dflt axis chunks' (shift axis (- chunk_start sizes off) idx) = tAt x idx).
  { assert (LI : (axis < length idx)%nat) by (rewrite <- (valid_length _ _ HV); auto).
    induction chunks' as [|c r IH]; intros off HN HLn Hoff.
    - exfalso. cbn in HLn. unfold chunk_start in Hoff. rewrite firstn_all2 in Hoff by lia. pose proof (valid_nth' _ _ axis HV HA). lia.
    - cbn [concat_at]. pose proof (HN O c eq_refl) as Hc. rewrite Nat.add_0_r in Hc. destruct (HC off c Hc) as (ES & stc & Est & Hst).
      assert (Hlt : (off < length sizes)%nat) by (rewrite <- HL; apply nth_error_Some; congruence).
      assert (EC : chunk_start sizes (S off) = chunk_start sizes off + nth off sizes 0).
      { unfold chunk_start. clear - Hlt. revert off Hlt. induction sizes as [|z l IH]; intros [|o] H; cbn [length] in H; try lia; rewrite ?firstn_cons, ?firstn_O, ?sumZ_cons; cbn [nth]; [change (sumZ []) with 0; lia|]. rewrite IH by lia. lia. }
      rewrite ES, nth_upd_same, shift_nth, Nat.eqb_refl by auto. destruct (Nat.ltb_spec axis (length idx)); [|lia].
      destruct (Z.ltb_spec (nth axis idx 0 + - chunk_start sizes off) (nth off sizes 0)) as [Q|Q].
      + destruct (splitLoop_ok x axis sizes off HO HA HS HT Hlt) as (st' & Est' & N' & C' & V'). rewrite Est in Est'. injection Est' as <-.
        assert (HV' : valid (upd axis (nth off sizes 0) (tShape x)) (shift axis (- chunk_start sizes off) idx)).
        { apply (valid_shift _ _ (nth axis (tShape x) 0)); [auto|rewrite upd_nth_id; auto|lia]. }
        apply C' in HV'. apply in_map_iff in HV' as ([w u] & Ew & Hin). cbn in Ew. subst w. rewrite (Hst _ _ Hin), (V' _ _ Hin), shift_shift. replace (- chunk_start sizes off + chunk_start sizes off) with 0 by lia. now rewrite shift_0.
      + rewrite shift_shift. replace (- chunk_start sizes off + - nth off sizes 0) with (- chunk_start sizes (S off)) by lia. apply IH; [|cbn in HLn; lia|lia].
        intros i c' Hi. replace (S off + i)%nat with (off + S i)%nat by lia. now apply HN. }
  specialize (G chunks O ltac:(auto) ltac:(lia)). change (chunk_start sizes 0) with 0 in G. change (- 0) with 0 in G. rewrite shift_0 in G. apply G. pose proof (valid_nth' _ _ axis HV HA). lia.
Qed.
Example C47_case : let x := {| tShape := [2; 2]; tAt := fun idx => 10 * nth 0 idx 0 + nth 1 idx 0 |} in let y := {| tShape := [2; 1]; tAt := fun idx => 100 + nth 0 idx 0 |} in
  concatenable 1 [2; 0] [x; y] /\ concatLoop 1 [2; 3] [x; y] 0 = Some [([0; 0], 0); ([0; 1], 1); ([1; 0], 10); ([1; 1], 11); ([0; 2], 100); ([1; 2], 101)] /\
  concatDims 1 [[(true, 2); (false, 2)]; [(true, 0)]; [(false, 2); (true, 1)]] = Some [2; 3].
Proof.
  cbn zeta. split; [|split; reflexivity]. split; [repeat constructor; lia|]. split; [cbn; lia|]. repeat constructor; [exists 2|exists 1]; split; try lia; reflexivity.
Qed.

Print Assumptions C31_reshape_run.
Print Assumptions C31_reshape_infer.
Print Assumptions C32_split_known_adds_up.
Print Assumptions C32_split_copies.
Print Assumptions C33_unsqueeze.
Print Assumptions C33_squeeze.
Print Assumptions C46_flatten.
Print Assumptions C47_concat.
Print Assumptions C47_split_then_concat.
