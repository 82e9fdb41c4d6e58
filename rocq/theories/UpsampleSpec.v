(** UpsampleAndPad, after its description in /repo/src/Dialect/ONNX/AdditionalONNXOps.td 706-745. *)
From Coq Require Import List ZArith Arith.
From Verif Require Import TensorSpec.
Import ListNotations.
Open Scope Z_scope.

(** Stride and pads of dimension r of a tensor of the given rank: the attributes are about the last dimensions;
    a missing stride is 1 and a missing pad is 0. The first half of the pads is for the beginnings. *)
Definition strideAt (rank : nat) (strides : option (list Z)) (r : nat) : Z :=
  match strides with None => 1 | Some l => if (r <? rank - length l)%nat then 1 else nth (r - (rank - length l)) l 1 end.
Definition beginAt (rank : nat) (pads : option (list Z)) (r : nat) : Z :=
  match pads with None => 0 | Some l => let k := (length l / 2)%nat in if (r <? rank - k)%nat then 0 else nth (r - (rank - k)) l 0 end.
Definition endAt (rank : nat) (pads : option (list Z)) (r : nat) : Z :=
  match pads with None => 0 | Some l => let k := (length l / 2)%nat in if (r <? rank - k)%nat then 0 else nth (k + (r - (rank - k))) l 0 end.

(** Element i of the input is element o of the output. *)
Definition placed (strides pads : option (list Z)) (i o : list Z) : Prop :=
  length o = length i /\ forall r, (r < length i)%nat -> nth r o 0 = nth r i 0 * strideAt (length i) strides r + beginAt (length i) pads r.
(** Shape of the output. *)
Definition upsampledShape (strides pads : option (list Z)) (s t : list Z) : Prop :=
  length t = length s /\ forall r, (r < length s)%nat -> nth r t 0 = (nth r s 0 - 1) * strideAt (length s) strides r + 1 + beginAt (length s) pads r + endAt (length s) pads r.
(** Attributes that fit the rank: strides are positive, pads come in pairs, one pair for each stride. *)
Definition fits (rank : nat) (strides pads : option (list Z)) : Prop :=
  match strides with Some l => (length l <= rank)%nat /\ Forall (fun x => 0 < x) l | None => True end /\
  match pads with Some p => exists k, (length p = 2 * k)%nat /\ (k <= rank)%nat /\ match strides with Some l => k = length l | None => True end | None => True end.

(** The output, of shape t and elements at: every element x i of the input in its place and zero elsewhere. *)
Definition isUpsampled {T} (zero : T) (strides pads : option (list Z)) (s : list Z) (x : list Z -> T) (t : list Z) (at_ : list Z -> option T) : Prop :=
  upsampledShape strides pads s t /\
  (forall i o, valid s i -> placed strides pads i o -> at_ o = Some (x i)) /\
  (forall o, valid t o -> (forall i, valid s i -> ~ placed strides pads i o) -> at_ o = Some zero).
