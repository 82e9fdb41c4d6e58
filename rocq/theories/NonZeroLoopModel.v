(** The loops emitted for NonZero: /repo/src/Conversion/ONNXToKrnl/Tensor/NonZero.cpp. *)
From Coq Require Import List ZArith Bool.
From Verif Require Import Util TensorSpec LoopModel.
Import ListNotations.
Open Scope Z_scope.

Section NonZero.
Context {T : Type} (isZero : T -> bool).

(** NonZero.cpp 119-138: one memref of counters per dimension, set to zero. *)
Fixpoint zeroSums (s : list Z) : option (list (mem Z)) :=
  match s with
  | [] => Some []
  | d :: r => m <- iterate [d] (fun i m => store m i 0) (alloc [d]) ;; ms <- zeroSums r ;; Some (m :: ms)
  end.
(** NonZero.cpp 153-158: add to the counter of each dimension. *)
Fixpoint addSums (loopInd : list Z) (zeroOrOne : Z) (sums : list (mem Z)) : option (list (mem Z)) :=
  match loopInd, sums with
  | i :: r, m :: ms => v <- load m [i] ;; m' <- store m [i] (v + zeroOrOne) ;; ms' <- addSums r zeroOrOne ms ;; Some (m' :: ms')
  | _, _ => Some []
  end.
(** NonZero.cpp 140-159. *)
Definition countLoop (x : mem T) (st : Z * list (mem Z)) : option (Z * list (mem Z)) :=
  iterate (mShape x) (fun i st =>
    v <- load x i ;;
    let zeroOrOne := if isZero v then 0 else 1 in
    sums <- addSums i zeroOrOne (snd st) ;;
    Some (fst st + zeroOrOne, sums)) st.
(** NonZero.cpp 196-216: the output of one dimension at position [i]. *)
Definition scanSums (rsum : mem Z) (i : Z) : option Z :=
  st <- iterate (mShape rsum) (fun j st =>
          o <- load rsum j ;;
          let s := snd st + o in
          Some (if (i <? s) && (fst st =? -1) then nth 0 j 0 else fst st, s)) (-1, 0) ;;
  Some (fst st).
(** NonZero.cpp 75-224. The loop over the dimensions (line 190) is unrolled at compile
    time; here it is a loop. *)
Definition nonZeroLoop (x : mem T) : option (mem Z) :=
  let rank := Z.of_nat (length (mShape x)) in
  sums <- zeroSums (mShape x) ;;
  st <- countLoop x (0, sums) ;;
  let n := fst st in
  iterate [n] (fun i res =>
    iterate [rank] (fun axis res =>
      v <- (rsum <- zget (snd st) (nth 0 axis 0) ;; scanSums rsum (nth 0 i 0)) ;;
      store res [nth 0 axis 0; nth 0 i 0] v) res) (alloc [rank; n]).
End NonZero.
