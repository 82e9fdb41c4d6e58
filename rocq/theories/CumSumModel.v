(** CumSum as lowered to loops: /repo/src/Conversion/ONNXToKrnl/Math/CumSum.cpp. *)
From Coq Require Import List ZArith Bool.
From Verif Require Import Util TensorSpec LoopModel.
Import ListNotations.
Open Scope Z_scope.

(** getLoopIndexByAxisAndOffset, lines 22-56: the index moved by [offset] along the axis
    when that stays in range, and whether it was moved. [r] counts the dimensions. *)
Fixpoint loopIndexByAxisAndOffset (reverse : bool) (axis offset : Z) (r : Z) (dims base : list Z) : list Z * bool :=
  match dims, base with
  | d :: dims', i :: base' =>
      let iOffset := if reverse then i + offset else i - offset in
      let isValid := if reverse then iOffset <? d else 0 <=? iOffset in
      let ok := (r =? axis) && isValid in
      let (rest, moved) := loopIndexByAxisAndOffset reverse axis offset (r + 1) dims' base' in
      ((if ok then iOffset else i) :: rest, ok || moved)
  | _, _ => ([], false)
  end.

(** Lines 122-126: a negative axis counts from the end. *)
Definition cumAxis (rank axis : Z) : Z := if axis <? 0 then axis + rank else axis.
(** Lines 132-135. *)
Fixpoint axisSize (axis r : Z) (dims : list Z) (acc : Z) : Z :=
  match dims with [] => acc | d :: dims' => axisSize axis (r + 1) dims' (if axis =? r then d else acc) end.
(** Lines 137-153. [literal] says that the size of the axis is known at compile time.
    Simplifications: the two logarithms are exact ([Z.log2_up] is the ceiling and [Z.log2]
    the floor of log2); the code computes them in double and in f32, which can differ for
    sizes of 2^49 and more, resp. for an inexact log2f. For size 0 (no iterations) the
    code's static_cast of -inf is taken to give no step. *)
Definition numberOfStep (literal : bool) (n : Z) : Z := if literal then Z.log2_up n else Z.log2 n + 1.

Section CumSum.
Context {T : Type} (add : T -> T -> T) (zero : T).

(** Lines 159-190: fill the buffer. *)
Definition cumInit (exclusive reverse : bool) (axis : Z) (x buf : mem T) : option (mem T) :=
  iterate (mShape x) (fun i buf =>
    v <- (if exclusive
          then let (j, shift) := loopIndexByAxisAndOffset reverse axis 1 0 (mShape x) i in
               v <- load x j ;; Some (if shift then v else zero)
          else load x i) ;;
    store buf i v) buf.
(** Lines 196-227: one pass of sums into the result. The offset, computed as an f32
    exponential, is exact (a power of two). *)
Definition cumPass (reverse : bool) (axis step : Z) (s : list Z) (buf res : mem T) : option (mem T) :=
  iterate s (fun i res =>
    v <- (b1 <- load buf i ;;
          let (j, shouldUpdate) := loopIndexByAxisAndOffset reverse axis (2 ^ step) 0 s i in
          b2 <- load buf j ;;
          Some (add b1 (if shouldUpdate then b2 else zero))) ;;
    store res i v) res.
(** Lines 229-236: copy the result back to the buffer. *)
Definition cumCopy (s : list Z) (res buf : mem T) : option (mem T) :=
  iterate s (fun i buf => v <- load res i ;; store buf i v) buf.
(** Lines 192-237: the loop over the steps. *)
Definition cumSteps (reverse : bool) (axis nos : Z) (s : list Z) (bufres : mem T * mem T) : option (mem T * mem T) :=
  foldM (fun step br =>
    res <- cumPass reverse axis step s (fst br) (snd br) ;;
    buf <- cumCopy s res (fst br) ;;
    Some (buf, res)) (zrange nos) bufres.
(** matchAndRewrite, lines 90-242: what the emitted code leaves in the result. *)
Definition cumSum (literal exclusive reverse : bool) (axis : Z) (x : mem T) : option (mem T) :=
  let s := mShape x in
  let a := cumAxis (Z.of_nat (length s)) axis in
  buf <- cumInit exclusive reverse a x (alloc s) ;;
  br <- cumSteps reverse a (numberOfStep literal (axisSize a 0 s (-1))) s (buf, alloc s) ;;
  Some (snd br).
End CumSum.
