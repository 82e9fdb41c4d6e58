(** C92: Trilu, Hardmax and LRN at run time. *)
From Coq Require Import List ZArith Lia Bool Arith.
From Verif Require Import Util TensorSpec TensorLemmas LoopModel LoopProofs GatherLoopSpec GatherLoopModel TriluLoopSpec TriluLoopModel TriluLoopProofs.
Import ListNotations.
Open Scope Z_scope.

(** Trilu keeps the elements on the right side of diagonal k and sets all others to zero, for every rank of
    two or more, provided k + row fits 64 bits. *)
Theorem C92_trilu (T : Type) (zero : T) (upper : bool) (k : option Z) (input : mem T) (x : list Z -> T) :
  let s := mShape input in let diagonal := match k with Some v => v | None => 0 end in
  (2 <= length s)%nat -> (forall i, valid s i -> mAt input i = Some (x i)) ->
  (forall row, 0 <= row < rowOf s -> - 2 ^ 63 <= diagonal + row < 2 ^ 63) ->
  exists out, trilu zero (if upper then 1 else 0) k input = Some out /\ mShape out = s /\
  forall i, valid s i -> (kept upper diagonal (rowOf i) (colOf i) -> mAt out i = Some (x i)) /\ (~ kept upper diagonal (rowOf i) (colOf i) -> mAt out i = Some zero).
Proof.
  intros s kk Hr HX HK. destruct (trilu_ok zero (if upper then 1 else 0) k input x Hr HX HK) as (out & E & So & O). exists out. split; [exact E|]. split; [exact So|].
  intros i V. rewrite (O i V). fold s kk. unfold kept, rowOf, colOf. rewrite (valid_length _ _ V). destruct upper; cbn [Z.eqb Pos.eqb]; rewrite ?Z.gtb_ltb; match goal with |- context [?p <? ?q] => destruct (Z.ltb_spec p q) end; split; intros; solve [reflexivity | exfalso; lia].
Qed.

(** Without that provision it is false: k + row wraps and the element is kept. *)
Theorem C92_trilu_wraps_refuted : exists k input out, - 2 ^ 63 <= k < 2 ^ 63 /\ trilu 0 1 (Some k) input = Some out /\ mShape input = [2; 2] /\
  (forall i, valid [2; 2] i -> mAt input i = Some 7) /\ ~ kept true k 1 0 /\ mAt out [1; 0] = Some 7.
Proof.
  exists (2 ^ 63 - 1), (Mem [2; 2] (fun _ => Some 7)). eexists. split; [lia|]. split; [vm_compute; reflexivity|]. split; [reflexivity|]. split; [reflexivity|]. split; [unfold kept; lia|]. vm_compute. reflexivity.
Qed.

(** Hardmax sets one at the first of the greatest values along the axis and zero elsewhere. key orders the
    elements (the floating-point comparison, restricted to numbers). *)
Theorem C92_hardmax (T : Type) (key : T -> Z) (zero one : T) (a : nat) (axis : Z) (input : mem T) (x : list Z -> T) :
  let s := mShape input in
  names_axis (length s) a axis -> (forall i, valid s i -> mAt input i = Some (x i)) ->
  exists out, hardmax (fun u v => key u <? key v) zero one axis input = Some out /\ mShape out = s /\
  forall i, valid s i -> let line q := key (x (upd a q i)) in
    (firstGreatest (nth a s 0) line (nth a i 0) -> mAt out i = Some one) /\ (~ firstGreatest (nth a s 0) line (nth a i 0) -> mAt out i = Some zero).
Proof.
  intros s HA HX. destruct (hardmax_ok key zero one a axis input x HA HX) as (out & E & So & O). exists out. split; [exact E|]. split; [exact So|].
  intros i V line. destruct (O i V) as (p & Bp & Lp & Fp & ->). assert (FG : firstGreatest (nth a s 0) line p) by (split; [exact Bp|]; split; assumption).
  destruct (Z.eqb_spec p (nth a i 0)) as [EQ | N]; split; intros H; try reflexivity; [rewrite <- EQ in H; contradiction|]. exfalso. apply N.
  destruct H as (B & L & F). destruct (Z.lt_trichotomy p (nth a i 0)) as [G | [G | G]]; [|exact G|].
  - specialize (F p ltac:(lia)). specialize (Lp (nth a i 0) B). unfold line in *. lia.
  - specialize (Fp (nth a i 0) ltac:(lia)). specialize (L p Bp). unfold line in *. lia.
Qed.
(** Every line with an element has exactly one such position, so every line of the result has exactly one one. *)
Theorem C92_hardmax_one (n : Z) (value : Z -> Z) : 0 < n -> exists p, firstGreatest n value p /\ forall q, firstGreatest n value q -> q = p.
Proof.
  intros Hn. set (input := Mem [n] (fun i => Some (value (nth 0 i 0)))).
  assert (HA : names_axis (length (mShape input)) 0 0) by (split; [cbn; lia | left; reflexivity]).
  destruct (hardmax_ok (fun z : Z => z) 0 1 0 0 input (fun i => value (nth 0 i 0)) HA (fun i _ => eq_refl)) as (out & _ & _ & O).
  destruct (O [0] ltac:(repeat constructor; lia)) as (p & Bp & Lp & Fp & _). cbn [nth mShape input upd] in *. exists p. split; [split; [exact Bp | split; assumption]|].
  intros q (B & L & F). destruct (Z.lt_trichotomy p q) as [G | [G | G]]; [|auto|].
  - specialize (F p ltac:(lia)). specialize (Lp q B). lia.
  - specialize (Fp q ltac:(lia)). specialize (L p Bp). lia.
Qed.

(** LRN divides each element by the norm of the squares of the channels in its region, added in channel order
    from zero, for f32 elements, every rank of two or more and every size. *)
Theorem C92_lrn (T : Type) (zero : T) (add mul finish : T -> T -> T) (size : Z) (X : mem T) (x : list Z -> T) :
  let s := mShape X in (2 <= length s)%nat -> (forall i, valid s i -> mAt X i = Some (x i)) ->
  exists out, lrn true zero add mul finish size X = Some out /\ mShape out = s /\
  forall i, valid s i -> let square q := mul (x (upd 1 q i)) (x (upd 1 q i)) in
    mAt out i = Some (finish (x i) (fold_left (fun sum q => add sum (square q)) (filter (inRegion size (nth 1 i 0)) (zrange (nth 1 s 0))) zero)).
Proof. exact (lrn_ok zero add mul finish size X x). Qed.
(** The region holds the channel itself and never a channel outside the tensor. *)
Theorem C92_lrn_region (size c C q : Z) : 1 <= size -> 0 <= c < C ->
  In c (filter (inRegion size c) (zrange C)) /\ (In q (filter (inRegion size c) (zrange C)) <-> Z.max 0 (c - (size - 1) / 2) <= q <= Z.min (C - 1) (c + size / 2)).
Proof.
  intros Hs Hc. rewrite !filter_In, !zrange_In. unfold inRegion. rewrite !andb_true_iff, !Z.leb_le.
  pose proof (Z.div_mod (size - 1) 2 ltac:(lia)). pose proof (Z.mod_pos_bound (size - 1) 2 ltac:(lia)). pose proof (Z.div_mod size 2 ltac:(lia)). pose proof (Z.mod_pos_bound size 2 ltac:(lia)). split; lia.
Qed.
(** Other element types of the operator (f16, f64, bf16) cannot be compiled. *)
Theorem C92_lrn_other_types_refuted : exists X : mem Z, mShape X = [1; 3; 1; 1] /\ lrn false 0 Z.add Z.mul Z.div 3 X = None.
Proof. exists (Mem [1; 3; 1; 1] (fun _ => Some 1)). split; reflexivity. Qed.

(** Non-trivial cases. *)
Example C92_trilu_case : option_map (fun m => map (mAt m) (indices [3; 3])) (trilu 0 1 (Some 1) (Mem [3; 3] (fun _ => Some 7))) = Some (map Some [0; 7; 7; 0; 0; 7; 0; 0; 0]).
Proof. vm_compute. reflexivity. Qed.
Example C92_hardmax_case : option_map (fun m => map (mAt m) (indices [2; 3])) (hardmax (fun u v => u <? v) 0 1 (-1) (Mem [2; 3] (fun i => Some (nth 0 (nth (Z.to_nat (nth 0 i 0)) [[nth (Z.to_nat (nth 1 i 0)) [2; 5; 5] 0]; [nth (Z.to_nat (nth 1 i 0)) [9; 1; 9] 0]] []) 0)))) = Some (map Some [0; 1; 0; 1; 0; 0]).
Proof. vm_compute. reflexivity. Qed.
Example C92_lrn_case : option_map (fun m => map (mAt m) (indices [1; 4])) (lrn true 0 Z.add Z.mul (fun _ sum => sum) 2 (Mem [1; 4] (fun i => Some (1 + nth 1 i 0)))) = Some (map Some [5; 13; 25; 16]).
Proof. vm_compute. reflexivity. Qed.

Print Assumptions C92_trilu.
Print Assumptions C92_trilu_wraps_refuted.
Print Assumptions C92_hardmax.
Print Assumptions C92_hardmax_one.
Print Assumptions C92_lrn.
Print Assumptions C92_lrn_region.
Print Assumptions C92_lrn_other_types_refuted.
