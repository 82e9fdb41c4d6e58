(** Elementwise binary operations, Expand and Reshape on tensors, for their rewriting. *)
From Coq Require Import List ZArith.
From Verif Require Import Util TensorSpec ShapeOpsModel ShapeOpsSpec BroadcastSpec ReshapeRewriteSpec.
Import ListNotations.
Open Scope Z_scope.

(** [z] is [f] of the elements of [x] and [y], broadcast. *)
Definition isBinary {A B C} (f : A -> B -> C) (x : tensor A) (y : tensor B) (z : tensor C) : Prop :=
  broadcast [tShape x; tShape y] (tShape z) /\
  forall idx, valid (tShape z) idx -> tAt z idx = f (tAt x (bindex (tShape x) idx)) (tAt y (bindex (tShape y) idx)).
(** Binary operations of ONNX 1 to 6 with broadcast = 1 and an axis: the shape of [y] is a part of the
    shape of [x], from that axis. *)
Definition isLegacyBinary {A B C} (f : A -> B -> C) (axis : nat) (x : tensor A) (y : tensor B) (z : tensor C) : Prop :=
  (axis + length (tShape y) <= length (tShape x))%nat /\
  tShape y = firstn (length (tShape y)) (skipn axis (tShape x)) /\ tShape z = tShape x /\
  forall idx, valid (tShape z) idx -> tAt z idx = f (tAt x idx) (tAt y (firstn (length (tShape y)) (skipn axis idx))).
(** Expand. *)
Definition isExpanded {A} (x : tensor A) (sh : list Z) (z : tensor A) : Prop :=
  broadcast [tShape x; sh] (tShape z) /\ forall idx, valid (tShape z) idx -> tAt z idx = tAt x (bindex (tShape x) idx).
(** Reshape: the elements keep their row-major order. *)
Definition isReshaped {A} (allowzero : bool) (x : tensor A) (target : list Z) (z : tensor A) : Prop :=
  (if allowzero then reshapes_to_allowing_zero else reshapes_to) (tShape x) target (tShape z) /\
  forall i j, valid (tShape x) i -> valid (tShape z) j -> rowmajor (tShape x) i = rowmajor (tShape z) j -> tAt z j = tAt x i.
