(** Theorems C57 (Pad) and C58 (Tile, OneHot, ReverseSequence). *)
From Coq Require Import List ZArith Lia Bool Arith.
From Verif Require Import Util TensorSpec TensorLemmas ShapeOpsCopies LoopModel LoopProofs GatherLoopSpec GatherLoopProofs CopyLoopSpec CopyLoopModel CopyLoopProofs.
Import ListNotations.
Open Scope Z_scope.

(** The output shape: begin pad + size + end pad in each dimension. *)
Theorem C57_shape pads s r : (r < length s)%nat -> length (padShape pads s) = length s /\
  nth r (padShape pads s) 0 = nth r pads 0 + nth r s 0 + nth (r + length s) pads 0.
Proof. intros H. split; [apply padShape_length|now apply padShape_nth]. Qed.
(** Constant mode, non-negative pads: each input element is moved by the begin pads,
    everything else is the pad value. *)
Theorem C57_constant {T} pads (c : T) (data : mem T) dv : let s := mShape data in
  (forall i, valid s i -> mAt data i = Some (dv i)) -> (forall r, (r < length s + length s)%nat -> 0 <= nth r pads 0) ->
  exists out, padLoop PConstant pads c data = Some out /\ mShape out = padShape pads s /\
    (forall i o, valid s i -> moved pads i o -> mAt out o = Some (dv i)) /\
    (forall o, (forall i, valid s i -> ~ moved pads i o) -> mAt out o = Some c).
Proof. apply pad_constant_ok. Qed.
(** Edge mode, pads of either sign: the padding repeats the nearest element. *)
Theorem C57_edge {T} pads (c : T) (data : mem T) dv : let s := mShape data in
  (forall i, valid s i -> mAt data i = Some (dv i)) -> Forall (fun d => 0 < d) s ->
  exists out, padLoop PEdge pads c data = Some out /\ mShape out = padShape pads s /\
    (forall o, valid (padShape pads s) o -> mAt out o = Some (dv (padSources PEdge s pads o)) /\ valid s (padSources PEdge s pads o)).
Proof.
  intros s HD P. apply pad_source_ok; [discriminate|exact HD|]. intros r o Hr O. rewrite padShape_nth in O by auto.
  eapply edge_ok; [|exact O]. rewrite Forall_forall in P. apply P. now apply nth_In.
Qed.
(** Reflect mode, pads of either sign smaller than the dimension: the padding mirrors the
    elements at the first and last one. *)
Theorem C57_reflect {T} pads (c : T) (data : mem T) dv : let s := mShape data in
  (forall i, valid s i -> mAt data i = Some (dv i)) ->
  (forall r, (r < length s)%nat -> nth r pads 0 < nth r s 0 /\ nth (r + length s) pads 0 < nth r s 0) ->
  exists out, padLoop PReflect pads c data = Some out /\ mShape out = padShape pads s /\
    (forall o, valid (padShape pads s) o -> mAt out o = Some (dv (padSources PReflect s pads o)) /\ valid s (padSources PReflect s pads o)).
Proof.
  intros s HD P. apply pad_source_ok; [discriminate|exact HD|]. intros r o Hr O. rewrite padShape_nth in O by auto. destruct (P r Hr).
  eapply reflect_ok; [| |exact O]; auto.
Qed.
(** A negative pad removes elements; in constant mode the emitted code writes the removed
    elements in front of the output. *)
Theorem C57_negative_pad_refuted : exists pads (data : mem Z), mShape data = [3] /\ pads = [-1; 0] /\ (forall i, mAt data i <> None) /\
  padShape pads (mShape data) = [2] /\ padLoop PConstant pads 0 data = None.
Proof. exists [-1; 0], (Mem [3] (fun _ => Some 1)). split; [reflexivity|]. split; [reflexivity|]. split; [discriminate|]. split; reflexivity. Qed.
(** Mode wrap is accepted and the emitted code reads the input at the output indices: a
    wrong element, or out of bounds. *)
Theorem C57_wrap_refuted : (exists (data : mem Z), mShape data = [3] /\ (forall i, mAt data i <> None) /\ padLoop PWrap [1; 0] 0 data = None) /\
  (exists (data : mem Z) out, mShape data = [3] /\ padLoop PWrap [1; -1] 0 data = Some out /\
     mAt out [0] <> mAt data (padSources PWrap [3] [1; -1] [0])).
Proof.
  split.
  - exists (Mem [3] (fun _ => Some 1)). split; [reflexivity|]. split; [discriminate|]. reflexivity.
  - exists (Mem [3] (fun i => Some (nth 0 i 0))). eexists. split; [reflexivity|]. split; [reflexivity|]. discriminate.
Qed.
(** Reflect mode with a pad that is not smaller than the dimension reads out of bounds. *)
Theorem C57_large_reflect_refuted : exists pads (data : mem Z), mShape data = [2] /\ pads = [0; 2] /\ (forall i, mAt data i <> None) /\ padLoop PReflect pads 0 data = None.
Proof. exists [0; 2], (Mem [2] (fun _ => Some 1)). split; [reflexivity|]. split; [reflexivity|]. split; [discriminate|]. reflexivity. Qed.
(** Concrete runs. *)
Example C57_run : let data := Mem [3] (fun i => Some (nth 0 i 0)) in
  let show mode pads := option_map (fun m => map (mAt m) (indices (mShape m))) (padLoop mode pads 9 data) in
  show PConstant [1; 2] = Some (map Some [9; 0; 1; 2; 9; 9]) /\ show PEdge [1; 2] = Some (map Some [0; 0; 1; 2; 2; 2]) /\
  show PReflect [2; 2] = Some (map Some [2; 1; 0; 1; 2; 1; 0]) /\ show PEdge [-1; 2] = Some (map Some [1; 2; 2; 2]).
Proof. vm_compute. auto. Qed.

(** Tile: dimension [r] is repeats[r] times as large and the element at [o] is the input
    element at [o] modulo the input shape. *)
Theorem C58_tile {T} repeats (input : mem T) dv : let s := mShape input in let src := fun o => map (fun r => nth r o 0 mod nth r s 0) (seq 0 (length s)) in
  okshape s -> (forall i, valid s i -> mAt input i = Some (dv i)) ->
  exists out, tileLoop repeats input = Some out /\ mShape out = map (fun r => nth r s 0 * nth r repeats 0) (seq 0 (length s)) /\
    (forall o, valid (mShape out) o -> mAt out o = Some (dv (src o)) /\ valid s (src o)).
Proof. intros s src Ok HD. destruct (tile_ok repeats input dv Ok HD) as (out & E & S1 & A). exists out. split; [exact E|]. split; [exact S1|]. rewrite S1. exact A. Qed.
(** OneHot: the axis of size depth is inserted before dimension [length sI] of the indices
    (negative axis counted from behind the last); it holds the on value at the index
    value, counted from the end if negative, and the off value elsewhere; index values
    outside [-depth, depth-1] give only off values. *)
Theorem C58_one_hot {T} axis depth (ind : mem Z) (values : mem T) iv offVal onVal sI sJ :
  mShape ind = sI ++ sJ -> (axis = Z.of_nat (length sI) \/ axis = Z.of_nat (length sI) - Z.of_nat (length (mShape ind)) - 1) ->
  (forall j, valid (mShape ind) j -> mAt ind j = Some (iv j)) -> mShape values = [2] -> mAt values [0] = Some offVal -> mAt values [1] = Some onVal ->
  exists out, oneHotLoop axis depth ind values = Some out /\ mShape out = sI ++ depth :: sJ /\
    forall ii d jj, valid sI ii -> 0 <= d < depth -> valid sJ jj ->
      let v := iv (ii ++ jj) in
      ((v = d \/ v = d - depth) -> mAt out (ii ++ d :: jj) = Some onVal) /\ (~ (v = d \/ v = d - depth) -> mAt out (ii ++ d :: jj) = Some offVal).
Proof.
  intros HS HA HI HV H0 H1. destruct (oneHot_ok axis depth ind values iv offVal onVal sI sJ HS HA HI HV H0 H1) as (out & E & S1 & A).
  exists out. split; [exact E|]. split; [exact S1|]. intros ii d jj Vi D Vj v. rewrite A by auto. fold v. unfold wrap. split; intros H.
  - destruct (Z.ltb_spec v 0); destruct (Z.eqb_spec (v + depth) d); destruct (Z.eqb_spec v d); auto; lia.
  - destruct (Z.ltb_spec v 0); destruct (Z.eqb_spec (v + depth) d); destruct (Z.eqb_spec v d); auto; lia.
Qed.
(** ReverseSequence: within batch [k] the first lens[k] time steps are reversed and the
    others are copied. *)
Theorem C58_reverse_sequence {T} b t (input : mem T) (lens : mem Z) dv lv : let s := mShape input in
  (b < length s)%nat -> (t < length s)%nat -> mShape lens = [nth b s 0] ->
  (forall i, valid s i -> mAt input i = Some (dv i)) ->
  (forall k, 0 <= k < nth b s 0 -> mAt lens [k] = Some (lv k) /\ lv k <= nth t s 0) ->
  exists out, reverseSequenceLoop b t input lens = Some out /\ mShape out = s /\
    forall o, valid s o -> let len := lv (nth b o 0) in
      mAt out o = Some (dv (if nth t o 0 <? len then upd t (len - 1 - nth t o 0) o else o)).
Proof. apply reverseSequence_ok. Qed.
Example C58_run :
  option_map (fun m => map (mAt m) (indices (mShape m))) (tileLoop [1; 2] (Mem [2; 2] (fun i => Some (2 * nth 0 i 0 + nth 1 i 0)))) = Some (map Some [0; 1; 0; 1; 2; 3; 2; 3]) /\
  option_map (fun m => map (mAt m) (indices (mShape m))) (oneHotLoop (-1) 3 (Mem [3] (fun i => Some (nth (Z.to_nat (nth 0 i 0)) [1; -1; 5] 0))) (Mem [2] (fun i => Some (nth 0 i 0))))
    = Some (map Some [0; 1; 0; 0; 0; 1; 0; 0; 0]) /\
  option_map (fun m => map (mAt m) (indices (mShape m))) (reverseSequenceLoop 0 1 (Mem [2; 3] (fun i => Some (nth 1 i 0))) (Mem [2] (fun i => Some (2 + nth 0 i 0)))) = Some (map Some [1; 0; 2; 2; 1; 0]).
Proof. vm_compute. auto. Qed.
Print Assumptions C57_constant.
Print Assumptions C57_edge.
Print Assumptions C57_reflect.
Print Assumptions C58_tile.
Print Assumptions C58_one_hot.
Print Assumptions C58_reverse_sequence.
