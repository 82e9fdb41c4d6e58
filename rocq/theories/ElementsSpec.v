(** Independent specification of the ONNX tensor operations that the compiler
    folds on constants, in terms of shapes and multi-indices only. *)
From Coq Require Import List ZArith Bool.
From Verif Require Import Util TensorSpec.
Import ListNotations.
Open Scope Z_scope.

(** Transpose: out.shape[i] = in.shape[perm[i]], and likewise for indices. *)
Definition permute (perm : list nat) (l : list Z) : list Z := map (fun p => nth p l 0) perm.

(** NumPy unidirectional broadcasting: [s], right-aligned with [t], has in
    each axis either 1 or the same dimension. *)
Definition broadcastable (s t : shape) : Prop :=
  (length s <= length t)%nat /\
  Forall2 (fun d D => d = 1 \/ d = D) s (skipn (length t - length s) t).

(** The source index selected by broadcasting: drop leading axes, 0 on axes of
    dimension 1. *)
Definition bsel (s : shape) (idx : index) : index :=
  map2 (fun d i => if d =? 1 then 0 else i) s (skipn (length idx - length s) idx).

(** Replace the coordinate of an axis. *)
Definition set_axis (a : nat) (v : Z) (l : list Z) : list Z := upd a v l.

(** Element at an index counted from the end when negative. *)
Definition wrap (n i : Z) : Z := if i <? 0 then i + n else i.

(** ONNX ScatterND: the tuple of coordinates stored in row [o] of indices. *)
Definition index_row {W} (toZ : W -> Z) (outer : list Z) (nd : nat) (ids : list W) (o : list Z) : list Z :=
  map (fun k => match elem (outer ++ [Z.of_nat nd]) ids (o ++ [k]) with Some w => toZ w | None => 0 end)
      (zrange (Z.of_nat nd)).

(** Reductions. [axes_mask rank axes]: which axes are reduced. *)
Definition axes_mask (rank : nat) (axes : list nat) : list bool :=
  map (fun a => existsb (Nat.eqb a) axes) (seq 0 rank).

(** Drop the masked coordinates, or with keepdims replace them by [v]. *)
Fixpoint reduced (v : Z) (keepdims : bool) (mask : list bool) (l : list Z) : list Z :=
  match mask, l with
  | true :: m, _ :: l' => if keepdims then v :: reduced v keepdims m l' else reduced v keepdims m l'
  | false :: m, x :: l' => x :: reduced v keepdims m l'
  | _, _ => []
  end.
(** Shape of the result; index of the result element that input [idx] contributes to. *)
Definition reduced_shape keepdims mask (s : shape) : shape := reduced 1 keepdims mask s.
Definition reduced_index keepdims mask (idx : index) : index := reduced 0 keepdims mask idx.

(** Equality of indices. *)
Definition beq_idx (a b : list Z) : bool := if list_eq_dec Z.eq_dec a b then true else false.

(** Left fold of a non-empty list from its first element. *)
Definition fold1 {W} (f : W -> W -> W) (l : list W) : option W :=
  match l with [] => None | x :: r => Some (fold_left f r x) end.

(** Dimension [i] counted from the end; missing axes count as 1. *)
Definition dim_back (s : shape) (i : nat) : Z := nth i (rev s) 1.

(** [c] is the NumPy broadcast of the shapes [a] and [b]: axes are aligned at
    the end; two dimensions must be equal or one of them must be 1. *)
Definition is_broadcast (a b c : shape) : Prop :=
  length c = Nat.max (length a) (length b) /\
  forall i, (i < length c)%nat ->
    (dim_back a i = dim_back b i /\ dim_back c i = dim_back a i) \/
    (dim_back a i = 1 /\ dim_back c i = dim_back b i) \/
    (dim_back b i = 1 /\ dim_back c i = dim_back a i).

(** An axis that is present for matrices and absent for vectors. *)
Definition opt_axis (vec : bool) (x : Z) : list Z := if vec then [] else [x].
