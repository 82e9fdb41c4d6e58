(** The loops emitted for Gather, GatherElements and GatherND:
    /repo/src/Conversion/ONNXToKrnl/Tensor/Gather.cpp, GatherElements.cpp, GatherND.cpp. *)
From Coq Require Import List ZArith Bool.
From Verif Require Import Util TensorSpec TensorLemmas LoopModel.
Import ListNotations.
Open Scope Z_scope.

(** indicesAreNonNegativeConstants, /repo/src/Conversion/ONNXToKrnl/ONNXToKrnlCommon.cpp
    145-156: [consts] are the elements of the index tensor when it is a constant. *)
Definition nonNegativeConstants (consts : option (list Z)) : bool :=
  match consts with Some l => forallb (fun v => 0 <=? v) l | None => false end.
(** Gather.cpp 72, GatherElements.cpp 68, ScatterElements.cpp 51. *)
Definition normalAxis (rank : nat) (axis : Z) : nat := Z.to_nat (if axis <? 0 then axis + Z.of_nat rank else axis).
(** Gather.cpp 122-129, GatherElements.cpp 98-107: correct a negative index; with
    -enable-safe-code-gen force it into range. *)
Definition adjustIndex (mayBeNegative safe : bool) (axisDim index : Z) : Z :=
  let index := if mayBeNegative then (if index <? 0 then index + axisDim else index) else index in
  if safe
  then let index := if index <? 0 then 0 else index in
       if axisDim <=? index then axisDim - 1 else index
  else index.
(** What genSafeCodeForGatherAlike, ONNXToKrnlCommon.cpp 1054-1114, prints about an index:
    nothing, or that it is out of bound and replaced with zero. It changes nothing. *)
Definition reportsReplacedByZero (safe : bool) (axisDim index : Z) : bool := safe && ((index <? - axisDim) || (axisDim <=? index)).

(** ONNXGatherOpShapeHelper::computeShape, /repo/src/Dialect/ONNX/ONNXOps/Tensor/Gather.cpp
    26-55. *)
Fixpoint gatherShape (i axis : nat) (dataDims indicesDims : list Z) : list Z :=
  match dataDims with
  | [] => []
  | d :: r => (if (i =? axis)%nat then indicesDims else [d]) ++ gatherShape (S i) axis r indicesDims
  end.

Section Gather.
Context {T : Type}.

(** Gather.cpp 36-148. Simplification: the parallel directive on the loops is ignored
    (each iteration writes its own element). *)
Definition gatherLoop (safe : bool) (consts : option (list Z)) (axis : Z) (data : mem T) (ind : mem Z) : option (mem T) :=
  let dataRank := length (mShape data) in
  let indicesRank := length (mShape ind) in
  let mayBeNegative := negb (nonNegativeConstants consts) in
  let a := normalAxis dataRank axis in
  let out := gatherShape 0 a (mShape data) (mShape ind) in
  iterate out (fun o res =>
    v <- (index <- load ind (map (fun j => nth (a + j) o 0) (seq 0 indicesRank)) ;;
          load data (map (fun i => nth i o 0) (seq 0 a) ++
                     [adjustIndex mayBeNegative safe (nth a (mShape data) 0) index] ++
                     map (fun k => nth (indicesRank + k - 1) o 0) (seq (a + 1) (dataRank - (a + 1))))) ;;
    store res o v) (alloc out).

(** GatherElements.cpp 29-117. *)
Definition gatherElementsLoop (safe : bool) (consts : option (list Z)) (axis : Z) (data : mem T) (ind : mem Z) : option (mem T) :=
  let mayBeNegative := negb (nonNegativeConstants consts) in
  let a := normalAxis (length (mShape data)) axis in
  iterate (mShape ind) (fun i res =>
    v <- (index <- load ind i ;;
          load data (map (fun r => if (r =? a)%nat then adjustIndex mayBeNegative safe (nth a (mShape data) 0) index else nth r i 0)
                         (seq 0 (length (mShape data))))) ;;
    store res i v) (alloc (mShape ind)).

(** create.mem.reinterpretCast (/repo/src/Dialect/Mlir/DialectBuilder.cpp
    1642-1690): the same row-major storage
    seen under another shape. *)
Definition reinterpret {A} (m : mem A) (s : list Z) : mem A := Mem s (fun idx => mAt m (unrm (mShape m) (rm s idx))).

(** ONNXGatherNDOpShapeHelper::computeShape,
    /repo/src/Dialect/ONNX/ONNXOps/Tensor/GatherND.cpp 26-84. *)
Definition gatherNDShape (b : nat) (dataDims indicesDims : list Z) : list Z :=
  let last := Z.to_nat (nth (length indicesDims - 1) indicesDims 0) in
  firstn b indicesDims ++ firstn (length indicesDims - 1 - b) (skipn b indicesDims) ++
  (if (last <? length dataDims - b)%nat then skipn (b + last) dataDims else []).

(** Write a value at the running position of the output buffer: lines 195-199, 259-265. *)
Definition append (load1 : option T) (st : mem T * Z) : option (mem T * Z) :=
  v <- load1 ;; buf <- store (fst st) [snd st] v ;; Some (buf, snd st + 1).
(** GatherND.cpp 43-278, after the verifier and the two assertions on the last dimension. *)
Definition gatherNDLoop (b : nat) (data : mem T) (ind : mem Z) : option (mem T) :=
  let dataRank := length (mShape data) in
  let indicesRank := length (mShape ind) in
  let last := Z.to_nat (nth (indicesRank - 1) (mShape ind) 0) in
  if (1 <=? last)%nat && (last <=? dataRank - b)%nat then
    let BDS := fold_left Z.mul (firstn b (mShape ind)) 1 in
    let IDS := fold_left Z.mul (firstn (indicesRank - 1 - b) (skipn b (mShape ind))) 1 in
    let rind := reinterpret ind [BDS; IDS; Z.of_nat last] in
    let rdata := reinterpret data (BDS :: skipn b (mShape data)) in
    let out := gatherNDShape b (mShape data) (mShape ind) in
    st <- iterate [BDS; IDS] (fun l st =>
            idx <- fold_right (fun i acc => v <- load rind (l ++ [Z.of_nat i]) ;; r <- acc ;; Some (v :: r)) (Some []) (seq 0 last) ;;
            let access := nth 0 l 0 :: idx in
            if (last =? dataRank - b)%nat
            then append (load rdata access) st
            else iterate (skipn (b + last) (mShape data)) (fun k st => append (load rdata (access ++ k)) st) st)
          (alloc [fold_left Z.mul out 1], 0) ;;
    Some (reinterpret (fst st) out)
  else None.
End Gather.
