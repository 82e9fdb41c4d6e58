(** Specification of the ONNX reductions. *)
From Coq Require Import List ZArith Bool.
From Verif Require Import TensorSpec LoopModel.
Import ListNotations.
Open Scope Z_scope.

(** Which dimensions of a tensor of rank [rank] a reduction reduces. [axes]: the axes given
    ([] if the operand is absent or empty); negative axes count from the end; without axes
    all dimensions are reduced unless [noop] (noop_with_empty_axes = 1). *)
Definition isReduced (rank : nat) (axes : list Z) (noop : bool) (r : nat) : Prop :=
  (axes = [] /\ noop = false) \/ In (Z.of_nat r) axes \/ In (Z.of_nat r - Z.of_nat rank) axes.
(** [l] without the reduced dimensions, or with [one] there. *)
Fixpoint reduceDims (red : list bool) (keepdims : bool) (one : Z) (l : list Z) : list Z :=
  match red, l with
  | r :: red', x :: l' => (if r then (if keepdims then [one] else []) else [x]) ++ reduceDims red' keepdims one l'
  | _, _ => []
  end.
(** The elements reduced into output position [o], in row-major order. *)
Definition reducedElements {T} (red : list bool) (keepdims : bool) (s : shape) (dv : index -> T) (o : index) : list T :=
  map dv (filter (fun i => ieqb (reduceDims red keepdims 0 i) o) (indices s)).
Definition describes (red : list bool) (rank : nat) (axes : list Z) (noop : bool) : Prop :=
  length red = rank /\ forall r, (r < rank)%nat -> (nth r red false = true <-> isReduced rank axes noop r).
(** A compile-time type, whose [None] dimensions are unknown, fits the shape [s]. *)
Definition typed (ty : list (option Z)) (s : list Z) : Prop := Forall2 (fun t d => match t with Some x => x = d | None => True end) ty s.
