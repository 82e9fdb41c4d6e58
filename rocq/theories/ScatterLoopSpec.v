(** ScatterElements and ScatterND from the ONNX operator definitions. *)
From Coq Require Import List ZArith Bool.
From Verif Require Import Util TensorSpec GatherLoopSpec.
Import ListNotations.
Open Scope Z_scope.

(** The reduction attribute, and what one update does to an element. *)
Inductive reduction := RNone | RAdd | RMul | RMax | RMin.
Definition updated (r : reduction) (old new : Z) : Z :=
  match r with RNone => new | RAdd => old + new | RMul => old * new | RMax => Z.max old new | RMin => Z.min old new end.

(** [out] is [data] with the updates [uv] at the positions [us] written to [target]s. ONNX
    leaves open which of several updates of one element wins; here it is the last one in
    row-major order. *)
Definition scattered {T} (sd : shape) (dv : index -> T) (us : shape) (uv : index -> T) (target : index -> index) (out : index -> option T) : Prop :=
  (forall o, valid sd o -> (forall u, valid us u -> target u <> o) -> out o = Some (dv o)) /\
  (forall u, valid us u -> (forall u', valid us u' -> target u' = target u -> rowmajor us u' <= rowmajor us u) -> out (target u) = Some (uv u)).
