(** What Trilu, Hardmax and LRN compute, after the ONNX operator reference. *)
From Coq Require Import List ZArith Bool.
From Verif Require Import Util TensorSpec.
Import ListNotations.
Open Scope Z_scope.

(** Element (row, col) of a matrix is kept by Trilu: on or above (upper), on or below (lower) diagonal k. *)
Definition kept (upper : bool) (k row col : Z) : Prop := if upper then col - row >= k else col - row <= k.
(** Row and column of an index: its last two components. *)
Definition rowOf (i : list Z) : Z := nth (length i - 2) i 0.
Definition colOf (i : list Z) : Z := nth (length i - 1) i 0.

(** Position p is the first of the greatest among n values. *)
Definition firstGreatest (n : Z) (value : Z -> Z) (p : Z) : Prop :=
  0 <= p < n /\ (forall q, 0 <= q < n -> value q <= value p) /\ (forall q, 0 <= q < p -> value q < value p).

(** Channels that count for channel c in LRN: from c - floor((size-1)/2) to c + ceil((size-1)/2). *)
Definition inRegion (size c q : Z) : bool := (2 * (c - q) <=? size - 1) && (2 * (q - c) <=? size).
