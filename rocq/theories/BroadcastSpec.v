(** NumPy broadcasting, from the ONNX definition ("Broadcasting in ONNX"): shapes are
    aligned at the right, missing dimensions count as 1. *)
From Coq Require Import List ZArith.
From Verif Require Import Util TensorSpec.
Import ListNotations.
Open Scope Z_scope.

(** Dimension [j] counted from the right. *)
Definition rdim (s : list Z) (j : nat) : Z := nth j (rev s) 1.
(** The sizes [vals] broadcast to [o]. *)
Definition bcast_dim (vals : list Z) (o : Z) : Prop := In o vals /\ forall v, In v vals -> v = 1 \/ v = o.
Definition broadcast (shapes : list (list Z)) (out : list Z) : Prop :=
  (forall s, In s shapes -> (length s <= length out)%nat) /\ (exists s, In s shapes /\ length s = length out) /\
  forall j, (j < length out)%nat -> bcast_dim (map (fun s => rdim s j) shapes) (rdim out j).
(** The element of an operand of shape [s] used for output index [idx]. *)
Definition bindex (s idx : list Z) : list Z :=
  map2 (fun d i => if d =? 1 then 0 else i) s (skipn (length idx - length s) idx).
