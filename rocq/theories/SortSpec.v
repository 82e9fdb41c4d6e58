(** Independent specification of sorting and TopK along the last axis. *)
From Coq Require Import List ZArith Permutation Sorted.
From Verif Require Import Util TensorSpec.
Import ListNotations.
Open Scope Z_scope.

Section Spec.
Context {V : Type}.
(** [dir v w]: value [v] comes strictly before [w] in the requested direction;
    [eqv v w]: the values are equal. *)
Variables dir eqv : V -> V -> bool.

(** What a comparison of element values must satisfy: a strict weak order
    whose equivalence is [eqv].  Integers and floats without NaN qualify. *)
Record value_order : Prop := {
  vo_irr : forall x, dir x x = false;
  vo_trans : forall x y z, dir x y = true -> dir y z = true -> dir x z = true;
  vo_eqv : forall x y, eqv x y = true <-> (dir x y = false /\ dir y x = false);
  vo_eqv_trans : forall x y z, eqv x y = true -> eqv y z = true -> eqv x z = true
}.

(** In the values [x], index [i] is ordered before index [j]: by value, ties by index. *)
Definition before (x : list V) (i j : Z) : Prop :=
  exists v w, zget x i = Some v /\ zget x j = Some w /\
    (dir v w = true \/ (eqv v w = true /\ i < j)).

(** [p] lists all indices of [x] in order. *)
Definition sorted_indices (x : list V) (p : list Z) : Prop :=
  Permutation (zrange (Z.of_nat (length x))) p /\ StronglySorted (before x) p.

(** [p] holds [k] distinct indices of [x], and no other index has a strictly better value. *)
Definition best (k : Z) (x : list V) (p : list Z) : Prop :=
  Z.of_nat (length p) = k /\ NoDup p /\
  (forall i, In i p -> 0 <= i < Z.of_nat (length x)) /\
  (forall i j v w, In i p -> ~ In j p -> zget x i = Some v -> zget x j = Some w -> dir w v = false).

(** ONNX TopK: "Given two equivalent values, this operator uses the indices
    along the axis as a tiebreaker. That is, the element with the lower index
    will appear first." *)
Definition top_k (k : Z) (x : list V) (p : list Z) : Prop :=
  Z.of_nat (length p) = k /\
  exists rest, Permutation (zrange (Z.of_nat (length x))) (p ++ rest) /\ StronglySorted (before x) (p ++ rest).
End Spec.

(** [s] is the row of [data] (of shape [outer ++ [n]]) at outer index [o]. *)
Definition is_row {A} (outer : shape) (n : Z) (data : list A) (o : index) (s : list A) : Prop :=
  Z.of_nat (length s) = n /\
  forall i, 0 <= i < n -> elem (outer ++ [n]) data (o ++ [i]) = zget s i.
