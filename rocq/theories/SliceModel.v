(** Model of the Slice shape helper for literal parameters
    (/repo/src/Dialect/ONNX/ONNXOps/Tensor/Slice.cpp:28-140) and of the folding
    of Slice (/repo/src/Dialect/ONNX/Transforms/ConstProp.cpp:940-958).

    Simplifications: index arithmetic is unbounded (the C++ also evaluates both
    branches of [select], so [end + dim] overflows, harmlessly, for end =
    INT64_MAX); [ceilDiv] is the mathematical one (the C++ goes through double,
    see C28); a missing [steps] operand is not modelled. *)
From Coq Require Import List ZArith Bool Arith.
From Verif Require Import Util StridesModel ElementsModel.
Import ListNotations.
Open Scope Z_scope.

(** IndexExpr.cpp:1106-1114, literal [clamp]. *)
Definition clamp_lit (v mn mx : Z) : Z := if v <? mn then mn else if v >? mx then mx else v.

(** IndexExpr.cpp:971-975, literal [ceilDiv]. *)
Definition ceil_div (a b : Z) : Z := - ((- a) / b).

Record slice_dim := SliceDim { sd_start : Z; sd_step : Z; sd_end : Z; sd_out : Z }.

(** Slice.cpp:86-118 for one axis; [None] is the error "step cannot be zero". *)
Definition slice_axis (dim start_ end_ step : Z) : option slice_dim :=
  if step =? 0 then None
  else
    let startPos := if start_ <? 0 then start_ + dim else start_ in
    let startFinal := if step <? 0 then clamp_lit startPos 0 (dim - 1) else clamp_lit startPos 0 dim in
    let negInf := - 2 ^ 31 in
    let posInf := 2 ^ 31 - 1 in
    let endPos := if end_ <? 0 then end_ + dim else end_ in
    let endPos := if end_ <=? negInf then -1 else endPos in
    let endPos := if end_ >=? posInf then dim else endPos in
    let endFinal := if step <? 0 then clamp_lit endPos (-1) dim else clamp_lit endPos 0 dim in
    let dimOutputFinal := ceil_div (endFinal - startFinal) step in
    let dimOutputFinal := if dimOutputFinal <? 0 then 0 else dimOutputFinal in
    Some (SliceDim startFinal step endFinal dimOutputFinal).

(** Lines 36-55: literal axes, normalised; [None] is the out-of-bound error. *)
Definition norm_axes (rank : Z) (axes : list Z) : option (list nat) :=
  fold_right (fun a acc =>
      acc' <- acc ;;
      let a' := if a <? 0 then a + rank else a in
      if (0 <=? a') && (a' <? rank) then Some (Z.to_nat a' :: acc') else None)
    (Some []) axes.

(** Lines 64-124: the arrays are indexed by input axis; unset entries are [None].
    Missing entries of starts, ends or steps are the "could not be processed" errors. *)
Fixpoint slice_loop (dims : list Z) (axes : list nat) (starts ends steps : list Z)
    (acc : list (option slice_dim)) : option (list (option slice_dim)) :=
  match axes with
  | [] => Some acc
  | ii :: axes' =>
      match starts, ends, steps with
      | s :: starts', e :: ends', t :: steps' =>
          r <- slice_axis (nth ii dims 0) s e t ;;
          slice_loop dims axes' starts' ends' steps' (upd ii (Some r) acc)
      | _, _, _ => None
      end
  end.

(** Lines 28-140 [computeShape] with literal operands; [axes = None] when omitted. *)
Definition slice_computeShape (dims : list Z) (axes : option (list Z)) (starts ends steps : list Z)
  : option (list slice_dim) :=
  ax <- match axes with
        | None => Some (seq 0 (length dims))
        | Some l => norm_axes (Z.of_nat (length dims)) l
        end ;;
  arr <- slice_loop dims ax starts ends steps (repeat None (length dims)) ;;
  Some (map2 (fun d o => match o with Some r => r | None => SliceDim 0 1 d d end) dims arr).

(** ConstProp.cpp:940-958 [ConstPropSlice]. *)
Definition constPropSlice {W} (junk : W) (e : elements W) (axes : option (list Z)) (starts ends steps : list Z)
  : option (elements W) :=
  r <- slice_computeShape (e_shape e) axes starts ends steps ;;
  slice junk e (map sd_out r) (map sd_start r) (map sd_step r).
