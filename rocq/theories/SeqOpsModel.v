(** Sequence operators at run time and the fusion of Clip operations. *)
From Coq Require Import List ZArith Bool.
From Verif Require Import Util TensorSpec LoopModel.
Import ListNotations.
Open Scope Z_scope.

Section Seq.
(** A sequence is a memref with one dimension whose elements are tensors (here a type T); an element that was
    never stored is None in mAt. KrnlSeqStore.cpp 39-72 and KrnlSeqExtract.cpp 40-78 copy the tensor: the
    copies, their release and the allocation of the sequence (KrnlSeqAlloc.cpp 41-58) are simplified to values.
    Access outside the bounds, and reading a tensor that was never stored, is None. *)
Context {T : Type}.
Definition seqLen (seq : mem T) : Z := nth 0 (mShape seq) 0.
(** forLoopIE, step 1: the body for lb, ..., ub - 1. *)
Definition forLoop (lb ub : Z) (body : Z -> mem T -> option (mem T)) (m : mem T) : option (mem T) :=
  foldM body (map (fun k => lb + k) (zrange (ub - lb))) m.
(** The position: SequenceAt.cpp 41-47, SequenceErase.cpp 54-61, SequenceInsert.cpp 63-67. *)
Definition fixPosition (bound pos : Z) : Z := if pos <? 0 then pos + bound else pos.

(** SequenceAt.cpp 26-55. *)
Definition sequenceAt (seq : mem T) (pos : Z) : option T := load seq [fixPosition (seqLen seq) pos].
(** SequenceLength.cpp 26-42. *)
Definition sequenceLength (seq : mem T) : Z := seqLen seq.
(** SequenceEmpty.cpp 26-45. *)
Definition sequenceEmpty : mem T := alloc [0].

(** SequenceErase.cpp 26-88. The first loop stores at the position, not at the loop index (line 71). *)
Definition sequenceErase (seq : mem T) (pos : option Z) : option (mem T) :=
  let bound := seqLen seq in
  let out := alloc [bound - 1] in
  let position := match pos with None => bound - 1 | Some p => fixPosition bound p end in
  out <- forLoop 0 position (fun k out => element <- load seq [k] ;; store out [position] element) out ;;
  forLoop (position + 1) bound (fun k out => element <- load seq [k] ;; store out [k - 1] element) out.

(** SequenceInsert.cpp 27-105. staticOne: the type of the result has length 1. The first loop stores at the
    position (line 84) and the second starts after it (line 89). *)
Definition sequenceInsert (staticOne : bool) (seq : mem T) (tensor : T) (pos : option Z) : option (mem T) :=
  let bound := seqLen seq in
  let out := alloc [bound + 1] in
  let position := match pos with None => bound | Some p => fixPosition bound p end in
  out <- (if staticOne then Some out else
          out <- forLoop 0 position (fun k out => element <- load seq [k] ;; store out [position] element) out ;;
          forLoop (position + 1) bound (fun k out => element <- load seq [k] ;; store out [k + 1] element) out) ;;
  store out [position] tensor.
End Seq.

(** Clip, Elementwise.cpp 1414-1427. Elements are integers, or floating-point numbers by their order (no NaN). *)
Definition clip (minVal maxVal : option Z) (x : Z) : Z :=
  let res := match minVal with Some m => Z.max m x | None => x end in
  match maxVal with Some m => Z.min m res | None => res end.
(** maxOrDefault and minOrDefault, Canonicalize.cpp 145-165; a missing bound is None. *)
Definition maxOrDefault (a b : option Z) : option Z := match a, b with None, _ => b | _, None => a | Some x, Some y => Some (Z.max x y) end.
Definition minOrDefault (a b : option Z) : option Z := match a, b with None, _ => b | _, None => a | Some x, Some y => Some (Z.min x y) end.
(** FuseConsecutiveClipsPattern, Canonicalize.td 1099-1107: the bounds of the one Clip that replaces
    Clip (Clip x min1 max1) min2 max2. *)
Definition fuseClips (min1 max1 min2 max2 : option Z) : option Z * option Z := (maxOrDefault min1 min2, minOrDefault max1 max2).
