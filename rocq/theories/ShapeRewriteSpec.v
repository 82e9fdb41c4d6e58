(** ONNX operations on shapes and dims, for the rewriting of shape computations. *)
From Coq Require Import List ZArith.
From Verif Require Import Util ShapeOpsSpec.
Import ListNotations.
Open Scope Z_scope.

(** Unsqueeze: ones at the axes, the dims of the data, in order, at the other positions. *)
Definition unsqueezed (data axes out : list Z) : Prop :=
  let rank := Z.of_nat (length data) + Z.of_nat (length axes) in
  Z.of_nat (length out) = rank /\ (forall a, axis_in rank axes a -> zget out a = Some 1) /\ others out (axis_in rank axes) data.

(** Where(Equal(c, k), x, y) on vectors, one of them of length n, the others of length n or 1. *)
Definition bat (l : list Z) (i : nat) : Z := if (length l =? 1)%nat then nth 0 l 0 else nth i l 0.
Definition where_equal (n : nat) (c k x y : list Z) : list Z :=
  map (fun i => if bat c i =? bat k i then bat x i else bat y i) (seq 0 n).

(** The permutation a perm attribute stands for: reversal by default, negative entries counted
    from the end. *)
Definition perm_of (rank : nat) (attr : option (list Z)) (perm : list nat) : Prop :=
  match attr with
  | None => perm = rev (seq 0 rank)
  | Some l => map Z.of_nat perm = map (fun p => if p <? 0 then p + Z.of_nat rank else p) l
  end.
