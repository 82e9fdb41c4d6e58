(** When a list of nodes is in order, and comparing orders. *)
From Coq Require Import String List Arith.
Import ListNotations.
Open Scope list_scope.

Section Order.
Context {N : Type} (ins outs : N -> list string).
(** Every input is already known, or an output of an earlier node. *)
Definition in_order (known : list string) (l : list N) : Prop :=
  forall before n after, l = before ++ n :: after -> forall x, In x (ins n) -> In x known \/ exists m, In m before /\ In x (outs m).
(** No name outside [known] is produced by two nodes. *)
Definition single_producer (known : list string) (l : list N) : Prop :=
  forall before m middle n after x, l = before ++ m :: middle ++ n :: after -> In x (outs m) -> In x (outs n) -> In x known.
(** [l] is the list of the nodes of [nodes] at the positions [p]. *)
Definition arranged (nodes : list N) (p : list nat) (l : list N) : Prop := map Some l = map (nth_error nodes) p.
End Order.
Fixpoint lex_le (p q : list nat) : Prop :=
  match p, q with
  | [], _ => True
  | _ :: _, [] => False
  | a :: p, b :: q => (a < b)%nat \/ a = b /\ lex_le p q
  end.
