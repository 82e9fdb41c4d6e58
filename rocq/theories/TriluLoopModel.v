(** The loops emitted for Trilu, Hardmax and LRN: /repo/src/Conversion/ONNXToKrnl/Math/Trilu.cpp,
    Hardmax.cpp and LRN.cpp. *)
From Coq Require Import List ZArith Bool.
From Verif Require Import Util TensorSpec LoopModel GatherLoopModel.
Import ListNotations.
Open Scope Z_scope.

(** Addition of values of type index (64 bits). *)
Definition addIndex (x y : Z) : Z := (x + y + 2 ^ 63) mod 2 ^ 64 - 2 ^ 63.

Section Loops.
Context {T : Type}.

(** Trilu.cpp 28-79. k: None when the operand is missing; it is a scalar of type int64. *)
Definition trilu (zero : T) (upper : Z) (k : option Z) (input : mem T) : option (mem T) :=
  let s := mShape input in
  let rank := length s in
  let retainUpper := upper =? 1 in
  let k := match k with Some v => v | None => 0 end in
  if (rank <? 2)%nat then None else
  iterate s (fun loopInd res =>
    v <- (let i := addIndex k (nth (rank - 2) loopInd 0) in
          let j := nth (rank - 1) loopInd 0 in
          let setToZero := if retainUpper then i >? j else i <? j in
          loadVal <- load input loopInd ;;
          Some (if setToZero then zero else loadVal)) ;;
    store res loopInd v) (alloc s).

(** emitArgmax, Hardmax.cpp 24-78; less is the comparison of elements (sgt with its operands swapped). *)
Definition emitArgmax (less : T -> T -> bool) (input : mem T) (axis : nat) : option (mem Z) :=
  let s := mShape input in
  iterate s (fun i res =>
    let resLoopInd := upd axis 0 i in
    maxInd <- load res resLoopInd ;;
    maxValue <- load input (upd axis maxInd i) ;;
    next <- load input i ;;
    if less maxValue next then store res resLoopInd (nth axis i 0) else Some res) (Mem (upd axis 1 s) (fun _ => Some 0)).
(** Hardmax.cpp 80-148. *)
Definition hardmax (less : T -> T -> bool) (zero one : T) (axis : Z) (input : mem T) : option (mem T) :=
  let s := mShape input in
  let a := normalAxis (length s) axis in
  if negb (a <? length s)%nat then None else
  argmax <- emitArgmax less input a ;;
  iterate s (fun i res =>
    v <- (maxInd <- load argmax (upd a 0 i) ;; Some (if maxInd =? nth a i 0 then one else zero)) ;;
    store res i v) (alloc s).

(** LRN.cpp 29-147. finish x sum is x / (bias + alpha / size * sum) ^ beta, in the operations of the element
    type. The constants have type f32: for other element types the operations have operands of two types,
    which fails. *)
Definition ceilDiv2 (x : Z) : Z := - ((- x) / 2).
Definition lrn (isF32 : bool) (zero : T) (add mul finish : T -> T -> T) (size : Z) (X : mem T) : option (mem T) :=
  let s := mShape X in
  if negb isF32 then None else if (length s <? 2)%nat then None else
  iterate s (fun i res =>
    v <- (let c := nth 1 i 0 in
          let C := nth 1 s 0 in
          let lb := Z.max 0 (c - (size - 1) / 2) in
          let ub := Z.min C (c + 1 + ceilDiv2 (size - 1)) in
          squareSum <- foldM (fun k sum => x <- load X (upd 1 (lb + k) i) ;; Some (add sum (mul x x))) (zrange (ub - lb)) zero ;;
          x <- load X i ;;
          Some (finish x squareSum)) ;;
    store res i v) (alloc s).
End Loops.
