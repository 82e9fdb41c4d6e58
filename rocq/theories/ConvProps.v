(** Theorems C34 (auto-pad), C44 (pooling), C45 (convolution). *)
From Coq Require Import List ZArith Bool Lia.
From Verif Require Import Util TensorSpec TensorLemmas ConvModel ConvSpec ConvProofs.
Import ListNotations.
Open Scope Z_scope.

(** * C34: output sizes and pads. *)

(** SAME: the output size is ceil(input / stride); with the computed pads exactly that
    many windows fit, no smaller total padding would do, and the pads are equal or differ
    by one, the larger at the end (UPPER) or at the beginning (LOWER). *)
Theorem C34_same_pads ap cm a : ap = SAME_UPPER \/ ap = SAME_LOWER -> verifyAxis ap a = true -> 1 <= aI a ->
  let O := outDim ap cm a in let pb := padBegin ap cm a in let pe := padEnd ap cm a in
  (O - 1) * aS a < aI a <= O * aS a /\ windows_fit a pb pe O /\ 0 <= pb /\ 0 <= pe /\
  (forall pb' pe', 0 <= pb' -> 0 <= pe' -> windows_fit a pb' pe' O -> pb + pe <= pb' + pe') /\
  (ap = SAME_UPPER -> pb <= pe <= pb + 1) /\ (ap = SAME_LOWER -> pe <= pb <= pe + 1).
Proof.
  intros HA HV HI. unfold verifyAxis in HV. rewrite !andb_true_iff in HV. destruct HV as [[[HK HS] HD] _].
  apply Z.leb_le in HK, HS, HD. pose proof (cdiv_bounds (aI a) (aS a) ltac:(lia)) as HC.
  set (O := cdiv (aI a) (aS a)) in *. set (m := Z.max ((O - 1) * aS a + kdTerm a - aI a) 0).
  pose proof (Z.div_mod m 2 ltac:(lia)) as HM. pose proof (Z.mod_pos_bound m 2 ltac:(lia)) as HB.
  assert (HE : 1 <= kdTerm a) by (unfold kdTerm; nia).
  assert (SUM : m / 2 + (m / 2 + (if negb (m mod 2 =? 0) then 1 else 0)) = m) by (destruct (Z.eqb_spec (m mod 2) 0); cbn [negb]; lia).
  assert (INC : 0 <= (if negb (m mod 2 =? 0) then 1 else 0) <= 1) by (destruct (m mod 2 =? 0); cbn [negb]; lia).
  assert (Hm : 0 <= m) by lia. assert (Hm2 : 0 <= m / 2) by (apply Z.div_pos; lia).
  assert (FIT : (O - 1) * aS a + kdTerm a <= aI a + m < O * aS a + kdTerm a) by (split; [lia|nia]).
  destruct HA as [-> | ->]; unfold outDim, padBegin, padEnd, axisShape; cbn [fst snd]; fold O m; unfold windows_fit; change (extent a) with (kdTerm a);
    (split; [nia|]); (split; [lia|]); (split; [lia|]); (split; [lia|]); (split; [intros; lia|]); split; intros E; try discriminate; lia.
Qed.
(** Explicit pads, floor mode: the pads are those given and exactly that many windows fit
    in the padded input; the size is positive exactly when one window fits. *)
Theorem C34_explicit_pads a : verifyAxis NOTSET a = true ->
  let O := outDim NOTSET false a in
  padBegin NOTSET false a = aPb a /\ padEnd NOTSET false a = aPe a /\ windows_fit a (aPb a) (aPe a) O /\
  (1 <= O <-> extent a <= aI a + aPb a + aPe a).
Proof.
  intros HV. unfold verifyAxis in HV. rewrite !andb_true_iff in HV. destruct HV as [[[HK HS] HD] _]. apply Z.leb_le in HK, HS, HD.
  unfold outDim, padBegin, padEnd, axisShape, windows_fit. cbn [fst snd]. change (extent a) with (kdTerm a).
  set (t := aI a + (aPb a + aPe a) - kdTerm a). pose proof (Z.mul_div_le t (aS a) ltac:(lia)). pose proof (Z.mul_succ_div_gt t (aS a) ltac:(lia)).
  split; [auto|]. split; [auto|]. split; [nia|]. split; nia.
Qed.
(** VALID, floor mode: no pads, and exactly that many windows fit in the input. *)
Theorem C34_valid_pads a : verifyAxis VALID a = true ->
  padBegin VALID false a = 0 /\ padEnd VALID false a = 0 /\ windows_fit a 0 0 (outDim VALID false a).
Proof.
  intros HV. unfold verifyAxis in HV. rewrite !andb_true_iff in HV. destruct HV as [[[HK HS] HD] [HP HE]]. apply Z.leb_le in HK, HS, HD. apply Z.eqb_eq in HP, HE.
  unfold outDim, padBegin, padEnd, axisShape, windows_fit. cbn [fst snd]. change (extent a) with (kdTerm a).
  set (t := aI a - kdTerm a). pose proof (Z.mul_div_le t (aS a) ltac:(lia)). pose proof (Z.mul_succ_div_gt t (aS a) ltac:(lia)).
  split; [auto|]. split; [auto|]. nia.
Qed.
(** Ceil mode: the fewest windows that together reach the end of the padded input. *)
Theorem C34_ceil_mode a : verifyAxis NOTSET a = true -> let O := outDim NOTSET true a in
  (O - 2) * aS a + extent a < aI a + aPb a + aPe a <= (O - 1) * aS a + extent a.
Proof.
  intros HV. unfold verifyAxis in HV. rewrite !andb_true_iff in HV. destruct HV as [[[HK HS] HD] _]. apply Z.leb_le in HK, HS, HD.
  unfold outDim, axisShape. cbn [fst snd]. change (extent a) with (kdTerm a). set (t := aI a + (aPb a + aPe a) - kdTerm a). pose proof (cdiv_bounds t (aS a) ltac:(lia)). nia.
Qed.
(** In ceil mode the last window may lie entirely outside the input. *)
Theorem C34_ceil_mode_empty_window_refuted : exists a, verifyAxis NOTSET a = true /\ 1 <= aI a /\
  window [a] [padBegin NOTSET true a] [outDim NOTSET true a - 1] = [].
Proof. exists {| aI := 5; aK := 1; aS := 3; aD := 1; aPb := 0; aPe := 0 |}. vm_compute. repeat split; discriminate. Qed.
(** VALID with ceil mode: ONNX defines ceil((input - extent + 1) / stride), so that every
    window is inside the input; the code gives one more. *)
Theorem C34_valid_ceil_mode_refuted : exists a, verifyAxis VALID a = true /\
  outDim VALID true a <> cdiv (aI a - extent a + 1) (aS a) /\ aI a < (outDim VALID true a - 1) * aS a + extent a.
Proof. exists {| aI := 5; aK := 2; aS := 2; aD := 1; aPb := 0; aPe := 0 |}. vm_compute. repeat split; discriminate. Qed.
Example C34_same_example : let a := {| aI := 7; aK := 3; aS := 2; aD := 2; aPb := 0; aPe := 0 |} in
  verifyAxis SAME_UPPER a = true /\ (outDim SAME_UPPER false a, padBegin SAME_UPPER false a, padEnd SAME_UPPER false a) = (4, 2, 2).
Proof. vm_compute. auto. Qed.
Example C34_same_odd_example : let a := {| aI := 6; aK := 3; aS := 2; aD := 1; aPb := 0; aPe := 0 |} in
  axisShape SAME_UPPER false a = (3, 0, 1) /\ axisShape SAME_LOWER false a = (3, 1, 0).
Proof. vm_compute. auto. Qed.

(** * C44: pooling reads the pixels of its window. *)

(** Without dilation, in floor and in ceil mode, with any padding: the pixels read are
    exactly those of the window that exist, in row-major order. *)
Theorem C44_pool_window ceilMode axes ps os : Forall (fun a => aD a = 1) axes -> length ps = length axes -> length os = length axes ->
  poolWindow ceilMode axes ps os = window axes ps os.
Proof. intros. apply pool_exact, exact_axes_undilated; auto. Qed.
(** So the loop reads nothing outside the input and returns the reduction of the window,
    for every element type, operation and identity. *)
Theorem C44_pool_reduce {T} (f : T -> T -> T) ident ceilMode NN CC axes ps x n ch os :
  Forall (fun a => aD a = 1) axes -> length ps = length axes -> length os = length axes -> 0 <= n < NN -> 0 <= ch < CC ->
  poolReduce f ident ceilMode NN CC axes ps x n ch os =
  Some (fold_left (fun acc pos => f acc (x (n :: ch :: pos))) (window axes ps os) ident).
Proof. intros. apply poolReduce_ok; auto. apply exact_axes_undilated; auto. Qed.
(** AveragePool without counting the padding divides by the number of pixels, when there
    is one. *)
Theorem C44_average_denominator ceilMode axes ps os : Forall (fun a => aD a = 1) axes -> length ps = length axes -> length os = length axes ->
  window axes ps os <> [] -> avgDenominator ceilMode false axes ps os = Z.of_nat (length (window axes ps os)).
Proof. intros. apply denominator_ok; auto. Qed.
(** In floor mode with pads smaller than the kernel there always is one. *)
Theorem C44_floor_window_nonempty axes : forall os,
  Forall (fun a => verifyAxis NOTSET a = true /\ aD a = 1 /\ 1 <= aI a /\ aPb a < aK a /\ aPe a < aK a) axes ->
  valid (map (outDim NOTSET false) axes) os -> window axes (map aPb axes) os <> [].
Proof.
  induction axes as [|a axes IH]; intros os HF Hos; inversion Hos; subst; cbn [map]; [discriminate|]. inversion HF as [|? ? [HV [HD [HI [HB HE]]]] HF']; subst.
  rewrite window_cons. destruct (C34_explicit_pads a HV) as (_ & _ & FIT & _). unfold verifyAxis in HV. rewrite !andb_true_iff, !Z.leb_le in HV.
  pose proof (nonempty_axis a (aPb a) y (outDim NOTSET false a) ltac:(lia) ltac:(lia) ltac:(lia) ltac:(lia) ltac:(lia) ltac:(lia) ltac:(lia) FIT) as N1.
  specialize (IH _ HF' H3). destruct (filter _ _) as [|x l]; [congruence|]. destruct (window axes (map aPb axes) l') as [|w r]; [congruence|]. discriminate.
Qed.
(** With dilation two on every axis and floor mode, if there is no padding or the stride
    is even. *)
Theorem C44_pool_window_dilation2 axes ps os : axes <> [] ->
  Forall (fun a => aD a = 2 /\ 1 <= aS a) axes -> Forall (fun p => 0 <= p) ps -> Forall (fun o => 0 <= o) os ->
  Forall2 (fun a p => p = 0 \/ (2 | aS a)) axes ps -> length os = length axes ->
  poolWindow false axes ps os = window axes ps os.
Proof.
  intros HN HD HP HO HA HL. unfold poolWindow. replace (isDilated axes) with true.
  2:{ destruct axes as [|a l]; [congruence|]. inversion HD; subst. unfold isDilated. cbn [existsb]. destruct H1 as [-> _]. reflexivity. }
  apply pool_exact. clear HN. revert os HD HP HO HL. induction HA as [|a p axes ps HA HAs IH]; intros [|o os] HD HP HO HL; try discriminate; cbn; auto.
  inversion HD; inversion HP; inversion HO; subst. split; [|apply IH; auto].
  apply exact_dilated2; try tauto. unfold aligned. rewrite (proj1 H1). exact HA.
Qed.
(** In ceil mode, windows entirely inside the input are read right for any dilation of two
    or more, under the same alignment. *)
Theorem C44_pool_window_dilated_inside axes ps os : axes <> [] ->
  Forall (fun a => 2 <= aD a /\ 1 <= aS a /\ 1 <= aK a) axes -> Forall (fun p => 0 <= p) ps ->
  Forall2 (fun a p => p = 0 \/ (aD a | aS a)) axes ps ->
  Forall2 (fun ap o => 0 <= o /\ snd ap <= o * aS (fst ap) /\ o * aS (fst ap) - snd ap + extent (fst ap) <= aI (fst ap)) (combine axes ps) os ->
  poolWindow true axes ps os = window axes ps os.
Proof.
  intros HN HD HP HA HI. unfold poolWindow. replace (isDilated axes) with true.
  2:{ destruct axes as [|a l]; [congruence|]. inversion HD; subst. unfold isDilated. cbn [existsb]. replace (1 <? aD a) with true by lia. reflexivity. }
  apply pool_exact. clear HN. revert os HD HP HI. induction HA as [|a p axes ps HA HAs IH]; intros os HD HP HI; cbn [combine] in HI; inversion HI; subst; cbn; auto.
  inversion HD; inversion HP; subst. cbn [fst snd] in *. split; [|apply IH; auto]. repeat match goal with H : _ /\ _ |- _ => destruct H end. apply exact_dilated_inside; assumption.
Qed.
(** Dilation of three or more in floor mode: the last tap of a window that is entirely
    inside the input is dropped. *)
Theorem C44_dilation3_refuted : exists a, verifyAxis NOTSET a = true /\ outDim NOTSET false a = 1 /\
  window [a] [0] [0] = [[0]; [3]] /\ poolWindow false [a] [0] [0] = [[0]].
Proof. exists {| aI := 4; aK := 2; aS := 1; aD := 3; aPb := 0; aPe := 0 |}. vm_compute. auto. Qed.
(** One axis dilated and another not: a read outside the input. *)
Theorem C44_mixed_dilation_refuted : exists a b, verifyAxis NOTSET a = true /\ verifyAxis NOTSET b = true /\
  outDim NOTSET false a = 1 /\ outDim NOTSET false b = 1 /\
  poolReduce Z.max 0 false 1 1 [a; b] [0; 0] (fun _ => 0) 0 0 [0; 0] = None.
Proof. exists {| aI := 3; aK := 2; aS := 1; aD := 2; aPb := 0; aPe := 0 |}, {| aI := 2; aK := 2; aS := 1; aD := 1; aPb := 0; aPe := 0 |}. vm_compute. auto 10. Qed.
(** Ceil mode with dilation: a read outside the input when the window is cut. *)
Theorem C44_ceil_dilation_refuted : exists a o, verifyAxis NOTSET a = true /\ 0 <= o < outDim NOTSET true a /\
  window [a] [0] [o] <> [] /\ poolReduce Z.max 0 true 1 1 [a] [0] (fun _ => 0) 0 0 [o] = None.
Proof. exists {| aI := 4; aK := 2; aS := 2; aD := 2; aPb := 0; aPe := 0 |}, 1. vm_compute. repeat split; try discriminate; auto. Qed.
(** Padding with a stride that is not a multiple of the dilation: the wrong pixels. *)
Theorem C44_dilation_phase_refuted : exists a o, verifyAxis NOTSET a = true /\ 0 <= o < outDim NOTSET false a /\
  window [a] [aPb a] [o] = [[0]; [2]] /\ poolWindow false [a] [aPb a] [o] = [[1]].
Proof. exists {| aI := 4; aK := 2; aS := 1; aD := 2; aPb := 1; aPe := 1 |}, 1. vm_compute. repeat split; try discriminate; auto. Qed.
(** Ceil mode: AveragePool divides by a number that is not positive when no pixel of the
    window exists. *)
Theorem C44_ceil_mode_denominator_refuted : exists a o, verifyAxis NOTSET a = true /\ 0 <= o < outDim NOTSET true a /\
  avgDenominator true false [a] [0] [o] < 0.
Proof. exists {| aI := 5; aK := 1; aS := 3; aD := 1; aPb := 0; aPe := 0 |}, 2. vm_compute. repeat split; try discriminate; auto. Qed.
Example C44_example : let a := {| aI := 5; aK := 3; aS := 2; aD := 1; aPb := 1; aPe := 1 |} in
  poolWindow false [a; a] [1; 1] [0; 2] = [[0; 3]; [0; 4]; [1; 3]; [1; 4]] /\ avgDenominator false false [a; a] [1; 1] [0; 2] = 4.
Proof. vm_compute. auto. Qed.

(** * C45: the convolution lowering. *)

(** For every element type: the loops load nothing out of bounds, store each output once,
    cover the output, and store at each index the sum (in row-major order of the kernel)
    of the products with the pixels that exist, plus the bias. *)
Theorem C45_convolution {T} (zero : T) (add mul : T -> T -> T) (c : @conv T) : wf_conv c -> 0 <= CO c ->
  exists stores, convUnoptimized zero add mul c = Some stores /\ NoDup (map fst stores) /\
    (forall idx, In idx (map fst stores) <-> valid (oShape c) idx) /\
    (forall n co os v, In (n :: co :: os, v) stores -> v = conv_value zero add mul c n co os).
Proof. apply conv_correct. Qed.
(** Over the integers: the convolution of the zero-padded input. *)
Theorem C45_convolution_integer (c : @conv Z) : wf_conv c -> 0 <= CO c ->
  exists stores, convUnoptimized 0 Z.add Z.mul c = Some stores /\
    forall n co os, valid (oShape c) (n :: co :: os) -> exists v, In (n :: co :: os, v) stores /\ v = conv_sum c n co os /\
      forall v', In (n :: co :: os, v') stores -> v' = v.
Proof.
  intros HW HC. destruct (conv_correct 0 Z.add Z.mul c HW HC) as (st & E & ND & COV & VAL). exists st. split; [auto|]. intros n co os HV.
  apply COV, in_map_iff in HV as ((i & v) & Ei & Hi). cbn in Ei. subst i. exists v. split; [auto|]. rewrite <- conv_value_sum. split; [apply VAL, Hi|].
  intros v' H'. apply VAL in H', Hi. congruence.
Qed.
Definition ex_conv : @conv Z := let a := {| aI := 3; aK := 2; aS := 2; aD := 1; aPb := 1; aPe := 0 |} in
  {| N := 1; CI := 2; CO := 2; G := 2; CIg := 1; axes := [a]; ps := [1];
     X := fun i => match i with [_; ch; x] => 10 * ch + x + 1 | _ => 0 end;
     W := fun i => match i with [co; _; k] => co + k + 1 | _ => 0 end; B := Some (fun _ => 100); outS := [2] |}.
Example C45_example : wf_conv ex_conv /\ convUnoptimized 0 Z.add Z.mul ex_conv =
  Some [([0; 0; 0], 102); ([0; 0; 1], 108); ([0; 1; 0], 133); ([0; 1; 1], 163)].
Proof. split; [|vm_compute; reflexivity]. repeat split; cbn; auto; try lia. - repeat constructor; cbn; lia. - exists 1. reflexivity. Qed.

Print Assumptions C34_same_pads.
Print Assumptions C44_pool_reduce.
Print Assumptions C44_pool_window_dilation2.
Print Assumptions C45_convolution_integer.
