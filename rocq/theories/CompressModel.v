(** The loops emitted for Compress:
    /repo/src/Conversion/ONNXToKrnl/Tensor/Compress.cpp. *)
From Coq Require Import List ZArith Bool.
From Verif Require Import Util TensorSpec LoopModel GatherLoopModel.
Import ListNotations.
Open Scope Z_scope.

Section Compress.
Context {T : Type}.

(** Compress.cpp 52-75: the number of true conditions. *)
Definition countTrue (cond : mem bool) : option Z :=
  iterate (mShape cond) (fun i sum => currCond <- load cond i ;; Some (sum + (if currCond then 1 else 0))) 0.
(** Compress.cpp 134-147: may the test that the read index is below the length of the
    condition be left out? [inLit] tells which dimensions of the input are known at compile
    time. The product is that of a 64-bit integer and is taken not to overflow. *)
Fixpoint skipTest (inLit : list bool) (s : list Z) (inputTotSize condSize : Z) : bool :=
  match inLit, s with
  | l :: inLit', d :: s' =>
      if l then let inputTotSize := inputTotSize * d in
                if condSize <? inputTotSize then false else skipTest inLit' s' inputTotSize condSize
      else false
  | _, _ => true
  end.
Definition skipCondFlat (condLit : bool) (inLit : list bool) (s : list Z) (condSize : Z) : bool :=
  condLit && skipTest inLit s 1 condSize.
(** Compress.cpp 149-183: no axis. The state is the read index, the write index and the
    result. *)
Definition compressFlat (condLit : bool) (inLit : list bool) (x : mem T) (cond : mem bool) : option (mem T) :=
  sum <- countTrue cond ;;
  let condUb := nth 0 (mShape cond) 0 in
  let skipCond := skipCondFlat condLit inLit (mShape x) condUb in
  st <- iterate (mShape x) (fun i st =>
    let '(readIndex, writeIndex, res) := st in
    if skipCond || (readIndex <? condUb) then
      currCond <- load cond [readIndex] ;;
      st' <- (if currCond then
                val <- load x i ;; res' <- store res [writeIndex] val ;; Some (writeIndex + 1, res')
              else Some (writeIndex, res)) ;;
      Some (readIndex + 1, fst st', snd st')
    else Some st) (0, 0, alloc [sum]) ;;
  Some (snd st).

(** Compress.cpp 205-206: the comparison of two index expressions is known at compile time
    only when both are literals. *)
Definition skipCondAxis (condLit axisLit : bool) (condSize d : Z) : bool := condLit && axisLit && (d <=? condSize).
(** Compress.cpp 246-256: the indices of the input and of the output. *)
Definition accessFct (rank a : nat) (axisIndex : Z) (innerLoopInd : list Z) : list Z :=
  map (fun i => if (i =? a)%nat then axisIndex else nth (i - (if (a <? i)%nat then 1 else 0)) innerLoopInd 0) (seq 0 rank).
(** Compress.cpp 214-219: the bounds of the inner loops. *)
Definition innerUbs (a : nat) (s : list Z) : list Z :=
  flat_map (fun i => if (i =? a)%nat then [] else [nth i s 0]) (seq 0 (length s)).
(** Compress.cpp 184-268: with an axis. *)
Definition compressAxis (condLit axisLit : bool) (axis : Z) (x : mem T) (cond : mem bool) : option (mem T) :=
  sum <- countTrue cond ;;
  let s := mShape x in
  let a := normalAxis (length s) axis in
  let condUb := nth 0 (mShape cond) 0 in
  let skipCond := skipCondAxis condLit axisLit condUb (nth a s 0) in
  st <- iterate [nth a s 0] (fun axisLoopInd st =>
    let readIndex := nth 0 axisLoopInd 0 in
    if skipCond || (readIndex <? condUb) then
      currCond <- load cond [readIndex] ;;
      if currCond then
        let writeIndex := fst st in
        res <- iterate (innerUbs a s) (fun inner res =>
                 val <- load x (accessFct (length s) a readIndex inner) ;;
                 store res (accessFct (length s) a writeIndex inner) val) (snd st) ;;
        Some (writeIndex + 1, res)
      else Some st
    else Some st) (0, alloc (upd a sum s)) ;;
  Some (snd st).
(** Compress.cpp 29-273. *)
Definition compress (condLit : bool) (inLit : list bool) (axis : option Z) (x : mem T) (cond : mem bool) : option (mem T) :=
  match axis with
  | None => compressFlat condLit inLit x cond
  | Some axis => compressAxis condLit (nth (normalAxis (length (mShape x)) axis) inLit false) axis x cond
  end.
End Compress.
