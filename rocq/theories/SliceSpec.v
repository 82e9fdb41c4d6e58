(** The ONNX operator Slice on one axis, independent of the compiler's formulas
    (ONNX Slice-13: negative bounds count from the end; for positive steps start
    and end are clamped into [0, dim]; for negative steps start is clamped into
    [0, dim-1] and end into [-1, dim-1]). *)
From Coq Require Import List ZArith Bool.
Import ListNotations.
Open Scope Z_scope.

(** Clip a bound, counted from the end when negative, into [lower, upper]. *)
Definition adjust (dim lower upper x : Z) : Z :=
  Z.min upper (Z.max lower (if x <? 0 then x + dim else x)).

Definition onnx_start (dim start step : Z) : Z :=
  if 0 <? step then adjust dim 0 dim start else adjust dim 0 (dim - 1) start.
Definition onnx_end (dim end_ step : Z) : Z :=
  if 0 <? step then adjust dim 0 dim end_ else adjust dim (-1) (dim - 1) end_.

(** Walk from [i] by [step] until [stop] is reached or passed. *)
Fixpoint walk (fuel : nat) (i stop step : Z) : list Z :=
  match fuel with
  | O => []
  | S f => if (if 0 <? step then i <? stop else stop <? i) then i :: walk f (i + step) stop step else []
  end.

(** The positions selected on an axis of length [dim]; there are at most [dim]. *)
Definition onnx_slice (dim start end_ step : Z) : list Z :=
  walk (Z.to_nat dim) (onnx_start dim start step) (onnx_end dim end_ step) step.

(** Positions selected on axis [a] of length [dim] of a tensor of rank [rank];
    axes count from the end when negative; axes not mentioned are taken whole. *)
Fixpoint axis_selection (rank a dim : Z) (axes starts ends steps : list Z) : list Z :=
  match axes, starts, ends, steps with
  | x :: axes', s :: starts', e :: ends', t :: steps' =>
      if (if x <? 0 then x + rank else x) =? a then onnx_slice dim s e t
      else axis_selection rank a dim axes' starts' ends' steps'
  | _, _, _, _ => map Z.of_nat (seq 0 (Z.to_nat dim))
  end.

Definition selection (shape axes starts ends steps : list Z) : list (list Z) :=
  map (fun p => axis_selection (Z.of_nat (length shape)) (Z.of_nat (fst p)) (snd p) axes starts ends steps)
      (combine (seq 0 (length shape)) shape).

(** Input index of an output index. *)
Definition selected_index (sel : list (list Z)) (idx : list Z) : list Z :=
  map (fun p => nth (Z.to_nat (snd p)) (fst p) 0) (combine sel idx).
