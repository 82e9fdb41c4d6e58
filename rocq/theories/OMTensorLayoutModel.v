(** Model of the layout part of src/Runtime/OMTensor.inc. *)
From Coq Require Import List ZArith Bool.
From Verif Require Import Util.
Import ListNotations.
Open Scope Z_scope.

(** OMTensor.inc:144-149 [getNumElems], a left-to-right loop. *)
Definition getNumElems (shape : list Z) : Z := fold_left Z.mul shape 1.

(** OMTensor.inc:186-192, the stride loop of [omTensorCreate], from i = rank-1
    down: strides[rank-1] = 1, strides[i] = strides[i+1] * shape[i+1]. *)
Fixpoint omStrides (shape : list Z) : list Z :=
  match shape with
  | [] => []
  | _ :: r =>
      let st := omStrides r in
      match st with
      | s1 :: _ => (s1 * hd 0 r) :: st
      | [] => [1]
      end
  end.

(** OMTensor.inc:152-163 [computeElemOffset] = [inner_product strides indexes]. *)
Definition computeElemOffset (strides indexes : list Z) : Z :=
  fold_left Z.add (map2 Z.mul strides indexes) 0.

(** OMTensor.inc:385-399 [omTensorGetNumElems]: asserts dense strides ([None]
    when an assertion fails); the inner loop multiplies shape[j] for j > i. *)
Fixpoint denseStridesOk (shape strides : list Z) : bool :=
  match shape, strides with
  | _ :: r, s :: st => (s =? fold_left Z.mul r 1) && denseStridesOk r st
  | _, _ => true
  end.
Definition omTensorGetNumElems (shape strides : list Z) : option Z :=
  if denseStridesOk shape strides then Some (getNumElems shape) else None.

(** OMTensor.inc:341-353: element strides from PyArray byte strides (C integer
    division truncates). *)
Definition pyStrides (bytesz : Z) (stridesInBytes : list Z) : list Z :=
  map (fun b => Z.quot b bytesz) stridesInBytes.
