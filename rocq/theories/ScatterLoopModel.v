(** The loops emitted for ScatterElements and ScatterND:
    /repo/src/Conversion/ONNXToKrnl/Tensor/ScatterElements.cpp, ScatterND.cpp. *)
From Coq Require Import List ZArith Bool.
From Verif Require Import Util TensorSpec LoopModel GatherLoopModel ScatterLoopSpec.
Import ListNotations.
Open Scope Z_scope.

Section Scatter.
Context {T : Type}.

(** getDynamicMemRefSize and krnl.memcpy: all elements of [data]. *)
Definition copyOf (data : mem T) : mem T := Mem (mShape data) (mAt data).

(** ScatterElements.cpp 27-114. The reduction attribute is not read. *)
Definition scatterElementsLoop (red : reduction) (consts : option (list Z)) (axis : Z) (data : mem T) (ind : mem Z) (updates : mem T) : option (mem T) :=
  let mayBeNegative := negb (nonNegativeConstants consts) in
  let a := normalAxis (length (mShape data)) axis in
  iterate (mShape updates) (fun i out =>
    updateVal <- load updates i ;;
    indexVal <- load ind i ;;
    let index := if mayBeNegative then (if indexVal <? 0 then indexVal + nth a (mShape data) 0 else indexVal) else indexVal in
    store out (map (fun r => if (r =? a)%nat then index else nth r i 0) (seq 0 (length (mShape data)))) updateVal) (copyOf data).

(** ScatterND.cpp 87-110: the position one iteration writes. [None]: a read of the index
    tensor out of bounds, or (at compile time) a loop index that does not exist. *)
Fixpoint outputAccess (ind : mem Z) (loopInd : list Z) (dims : list nat) : option (list Z) :=
  match dims with
  | [] => Some []
  | i :: r =>
      v <- (if (i <? length (mShape ind) - 1)%nat
            then load ind (firstn (length (mShape ind) - 1) loopInd ++ [Z.of_nat i])
            else nth_error loopInd (match length loopInd with O => i | S n => Nat.min i n end)) ;;
      rest <- outputAccess ind loopInd r ;; Some (v :: rest)
  end.
(** ScatterND.cpp 26-121. The reduction attribute is not read; nor is the last dimension of
    the index tensor. *)
Definition scatterNDLoop (red : reduction) (data : mem T) (ind : mem Z) (updates : mem T) : option (mem T) :=
  iterate (mShape updates) (fun l out =>
    access <- outputAccess ind l (seq 0 (length (mShape data))) ;;
    updateVal <- load updates l ;;
    store out access updateVal) (copyOf data).
End Scatter.
