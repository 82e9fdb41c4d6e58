(** src/Builder/ImportONNXUtils.cpp: checking and restoring the order of the nodes of the
    main graph.  A node is seen through its explicit inputs and outputs; the names a
    subgraph captures are not among them (NodeProto::input).  std::set, std::map and
    std::multiset are lists; inDegrees, a vector indexed by nodes, is a function. *)
From Coq Require Import String List Bool Arith ZArith.
From Verif Require Import Util.
Import ListNotations.
Open Scope list_scope.

Section Sort.
Context {N : Type} (ins outs : N -> list string).
Definition mem (x : string) (l : list string) : bool := existsb (String.eqb x) l.

(** IsTopologicallySorted, lines 21-40; [visited]: initializers and inputs so far. *)
Fixpoint isTopologicallySorted (visited : list string) (nodes : list N) : bool :=
  match nodes with
  | [] => true
  | n :: r => forallb (fun x => mem x visited) (ins n) && isTopologicallySorted (visited ++ outs n) r
  end.

(** SortGraph, lines 44-155. *)
(** origIndex, lines 47-54: a later node overwrites an earlier one. *)
Fixpoint origIndex (i : nat) (l : list N) (x : string) : option nat :=
  match l with
  | [] => None
  | n :: r => match origIndex (S i) r x with Some j => Some j | None => if mem x (outs n) then Some i else None end
  end.
(** Lines 73-84: the producer of each counted input; [None]: no producer, return false. *)
Fixpoint parents (idx : string -> option nat) (free : list string) (xs : list string) : option (list nat) :=
  match xs with
  | [] => Some []
  | x :: r => if mem x free then parents idx free r else p <- idx x ;; ps <- parents idx free r ;; Some (p :: ps)
  end.
Fixpoint allParents (idx : string -> option nat) (free : list string) (nodes : list N) : option (list (list nat)) :=
  match nodes with [] => Some [] | n :: r => p <- parents idx free (ins n) ;; ps <- allParents idx free r ;; Some (p :: ps) end.
(** users[u], lines 70-88: once for each use, in the order of the nodes. *)
Fixpoint users (i : nat) (pars : list (list nat)) (u : nat) : list nat :=
  match pars with [] => [] | ps :: r => map (fun _ => i) (filter (Nat.eqb u) ps) ++ users (S i) r u end.
(** inDegrees, lines 90-102. *)
Definition inDegrees (pars : list (list nat)) (v : nat) : Z := Z.of_nat (length (nth v pars [])).
(** std::multiset<int>::insert. *)
Fixpoint insert (v : nat) (q : list nat) : list nat :=
  match q with [] => [v] | w :: r => if (v <=? w)%nat then v :: q else w :: insert v r end.
(** Lines 104-110. *)
Definition initial (n : nat) (D : nat -> Z) : list nat := fold_left (fun q i => if (D i =? 0)%Z then insert i q else q) (seq 0 n) [].
(** Lines 127-132. *)
Fixpoint release (vs : list nat) (D : nat -> Z) (q : list nat) : (nat -> Z) * list nat :=
  match vs with
  | [] => (D, q)
  | v :: r => let d := (D v - 1)%Z in release r (fun k => if Nat.eqb k v then d else D k) (if (d =? 0)%Z then insert v q else q)
  end.
(** Lines 118-134; [None]: out of fuel. *)
Fixpoint kahn (fuel : nat) (pars : list (list nat)) (D : nat -> Z) (q order : list nat) : option (list nat) :=
  match q with
  | [] => Some order
  | u :: q' =>
      match fuel with
      | O => None
      | S f => let '(D', q'') := release (users 0 pars u) D q' in kahn f pars D' q'' (order ++ [u])
      end
  end.
(** RepeatedPtrField::SwapElements and std::swap. *)
Definition swapElements {A} (l : list A) (i j : nat) : option (list A) :=
  a <- nth_error l i ;; b <- nth_error l j ;; Some (upd j a (upd i b l)).
Fixpoint index (t : nat) (l : list nat) : option nat :=
  match l with [] => None | x :: r => if Nat.eqb t x then Some 0%nat else option_map S (index t r) end.
(** Lines 141-153. *)
Fixpoint reorder (top : list nat) (res : nat) (cur : list nat) (ns : list N) : option (list N) :=
  match top with
  | [] => Some ns
  | t :: r =>
      c <- nth_error cur res ;;
      if Nat.eqb t c then reorder r (S res) cur ns
      else match option_map (fun k => S res + k)%nat (index t (skipn (S res) cur)) with
           | None => reorder r (S res) cur ns
           | Some search => ns' <- swapElements ns res search ;; cur' <- swapElements cur search res ;; reorder r (S res) cur' ns'
           end
  end.
Inductive sortResult := Sorted (l : list N) | NotSortable | Stuck.
Definition sortGraph (inits inputs : list string) (nodes : list N) : sortResult :=
  let free := inits ++ inputs ++ [""%string] in
  let n := length nodes in
  match allParents (origIndex 0 nodes) free nodes with
  | None => NotSortable
  | Some pars =>
      match kahn n pars (inDegrees pars) (initial n (inDegrees pars)) [] with
      | None => Stuck
      | Some order =>
          if Nat.eqb (length order) n then match reorder order 0 (seq 0 n) nodes with Some l => Sorted l | None => Stuck end
          else NotSortable
      end
  end.
End Sort.
Arguments sortResult : clear implicits.
