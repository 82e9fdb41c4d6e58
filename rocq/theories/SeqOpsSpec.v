(** What the sequence operators compute, after the ONNX operator reference; and what Clip computes. *)
From Coq Require Import List ZArith.
Import ListNotations.
Open Scope Z_scope.

(** The place named by a position in a sequence of n tensors: counted from the front, or from the back when
    negative. *)
Definition names_place (n place pos : Z) : Prop := pos = place \/ (place < n /\ pos = place - n).
(** Contents of a sequence as a list. *)
Definition insertAt {A} (p : nat) (x : A) (l : list A) : list A := firstn p l ++ x :: skipn p l.
Definition eraseAt {A} (p : nat) (l : list A) : list A := firstn p l ++ skipn (S p) l.

(** Clip: bounds may be missing; the upper bound wins when they cross. *)
Definition Clip (lo hi : option Z) (x : Z) : Z :=
  let y := match lo with Some l => if x <? l then l else x | None => x end in
  match hi with Some h => if h <? y then h else y | None => y end.
