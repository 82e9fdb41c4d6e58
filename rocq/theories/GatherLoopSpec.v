(** Gather, GatherElements and GatherND from the ONNX operator definitions. *)
From Coq Require Import List ZArith Bool.
From Verif Require Import Util TensorSpec.
Import ListNotations.
Open Scope Z_scope.

(** An index [v] into an axis of size [d]: negative values count from the end; legal
    values are [-d .. d-1]. *)
Definition wrap (d v : Z) : Z := if v <? 0 then v + d else v.
Definition legal (d v : Z) : Prop := - d <= v < d.
(** The nearest position of an axis of size [d]. *)
Definition clamp (d v : Z) : Z := Z.max 0 (Z.min (d - 1) v).
(** An axis attribute naming dimension [a] of a tensor of rank [r]. *)
Definition names_axis (r a : nat) (axis : Z) : Prop := (a < r)%nat /\ (axis = Z.of_nat a \/ axis = Z.of_nat a - Z.of_nat r).
