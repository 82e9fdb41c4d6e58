(** Memrefs and the loop nests that the ONNX-to-Krnl lowerings emit over them. A memref
    has a shape and cells that hold nothing until they are written. [None] is undefined
    behaviour: an access out of bounds or a read of a cell never written.
    Simplification: memory is per memref (two memrefs never alias) and the layout is not
    modelled (it is the subject of C19, C20 and C24). *)
From Coq Require Import List ZArith Bool.
From Verif Require Import Util TensorSpec.
Import ListNotations.
Open Scope Z_scope.

Section Memref.
Context {T : Type}.

Record mem := Mem { mShape : list Z; mAt : list Z -> option T }.

Fixpoint inb (s idx : list Z) : bool :=
  match s, idx with
  | [], [] => true
  | d :: s', i :: idx' => (0 <=? i) && (i <? d) && inb s' idx'
  | _, _ => false
  end.
Fixpoint ieqb (a b : list Z) : bool :=
  match a, b with
  | [], [] => true
  | x :: a', y :: b' => (x =? y) && ieqb a' b'
  | _, _ => false
  end.

(** create.mem.alignedAlloc: /repo/src/Dialect/Mlir/DialectBuilder.cpp 1284-1316. *)
Definition alloc (s : list Z) : mem := Mem s (fun _ => None).
(** create.krnl.load / store (KrnlLoadOp, KrnlStoreOp):
    /repo/src/Dialect/Krnl/DialectBuilder.cpp 60-84. *)
Definition load (m : mem) (idx : list Z) : option T := if inb (mShape m) idx then mAt m idx else None.
Definition store (m : mem) (idx : list Z) (v : T) : option mem :=
  if inb (mShape m) idx then Some (Mem (mShape m) (fun j => if ieqb idx j then Some v else mAt m j)) else None.
(** create.krnl.iterateIE over zero lower bounds: /repo/src/Dialect/Krnl/DialectBuilder.cpp
    266-306; the loops run in lexicographic order (no krnl.block/permute is applied by the
    lowerings modelled here). *)
Definition iterate {S} (ubs : list Z) (body : list Z -> S -> option S) (s : S) : option S := foldM body (indices ubs) s.

End Memref.
Arguments mem : clear implicits.
