(** Tensors over any numbers, and graphs of the operations around an attention score:
    ((X1*A1 + B1) * (X2*A2 + B2)) / k. *)
From Coq Require Import ZArith List.
Import ListNotations.
Open Scope Z_scope.

Section Numbers.
Variable F : Type.
Variables (zero : F) (add mul : F -> F -> F).

Record tensor := { shape : list Z; at_ : list Z -> F }.
Definition teq (a b : tensor) : Prop := shape a = shape b /\ forall i, at_ a i = at_ b i.

(** Broadcasting: dims are aligned at the end; index 0 is read along a dim of size 1. *)
Definition bread (s i : list Z) : list Z :=
  map (fun p => if fst p =? 1 then 0 else snd p) (combine s (skipn (length i - length s) i)).
Fixpoint zipDims (a b : list Z) : list Z :=
  match a, b with x :: a', y :: b' => (if x =? 1 then y else x) :: zipDims a' b' | [], l | l, [] => l end.
Definition bshape (a b : list Z) : list Z := rev (zipDims (rev a) (rev b)).
Fixpoint sum (n : nat) (f : Z -> F) : F := match n with O => zero | S m => add (sum m f) (f (Z.of_nat m)) end.
Definition most (i : list Z) : list Z := firstn (length i - 2) i.
Definition row (i : list Z) : Z := nth (length i - 2) i 0.
Definition col (i : list Z) : Z := nth (length i - 1) i 0.
(** MatMul of tensors of rank at least 2, with broadcasting of the other dims. *)
Definition matmul (a b : tensor) : tensor :=
  {| shape := bshape (most (shape a)) (most (shape b)) ++ [row (shape a); col (shape b)];
     at_ := fun i => sum (Z.to_nat (col (shape a))) (fun k =>
              mul (at_ a (bread (most (shape a)) (most i) ++ [row i; k])) (at_ b (bread (most (shape b)) (most i) ++ [k; col i]))) |}.
Definition plus (a b : tensor) : tensor :=
  {| shape := bshape (shape a) (shape b); at_ := fun i => add (at_ a (bread (shape a) i)) (at_ b (bread (shape b) i)) |}.
(** alpha * op(a) * op(b) + beta * c; op may transpose. *)
Definition gemmIndex (t : bool) (i j : Z) : list Z := if t then [j; i] else [i; j].
Definition gemm (alpha beta : F) (tA tB : bool) (a b : tensor) (c : option tensor) : tensor :=
  let dimOf (t : bool) s := if t then [col s; row s] else [row s; col s] in
  {| shape := [row (dimOf tA (shape a)); col (dimOf tB (shape b))];
     at_ := fun i =>
       let p := mul alpha (sum (Z.to_nat (col (dimOf tA (shape a)))) (fun k => mul (at_ a (gemmIndex tA (row i) k)) (at_ b (gemmIndex tB k (col i))))) in
       match c with Some t => add p (mul beta (at_ t (bread (shape t) i))) | None => p end |}.
(** Reshape, Transpose, Squeeze, Unsqueeze: the element at i is the operand's at g i. *)
Definition reindex (s : list Z) (g : list Z -> list Z) (a : tensor) : tensor := {| shape := s; at_ := fun i => at_ a (g i) |}.
Definition mapT (f : F -> F) (a : tensor) : tensor := {| shape := shape a; at_ := fun i => f (at_ a i) |}.

(** A value and what it is computed from. The flag says whether the value has other uses than the one
    shown (not counting the reading of its dims). *)
Inductive graph :=
| Value (used : bool) (t : tensor)                                  (* anything else *)
| Const (t : tensor)
| Shape (used : bool) (s : list Z) (g : list Z -> list Z) (x : graph)
| MatMul (used : bool) (x y : graph)
| Add (used : bool) (x y : graph)
| Gemm (used : bool) (alpha beta : F) (tA tB : bool) (x y : graph) (c : option graph).
Fixpoint eval (e : graph) : tensor :=
  match e with
  | Value _ t | Const t => t
  | Shape _ s g x => reindex s g (eval x)
  | MatMul _ x y => matmul (eval x) (eval y)
  | Add _ x y => plus (eval x) (eval y)
  | Gemm _ alpha beta tA tB x y c => gemm alpha beta tA tB (eval x) (eval y) (match c with Some z => Some (eval z) | None => None end)
  end.
(** What the other uses see, in the order of the graph; the use of a constant elsewhere does not count, as
    constants are not changed. *)
Fixpoint seen (e : graph) : list tensor :=
  let self (u : bool) := if u then [eval e] else [] in
  match e with
  | Value u _ => self u
  | Const _ => []
  | Shape u _ _ x => self u ++ seen x
  | MatMul u x y | Add u x y => self u ++ seen x ++ seen y
  | Gemm u _ _ _ _ x y c => self u ++ seen x ++ seen y ++ match c with Some z => seen z | None => [] end
  end.
(** Division (or multiplication) of the result by a scalar: the scaled result, and what other uses see. *)
Definition scaledResult (scale : F -> F) (e : graph) : list tensor := mapT scale (eval e) :: seen e.
End Numbers.
Arguments shape {F}. Arguments at_ {F}. Arguments teq {F}. Arguments mapT {F}. Arguments Build_tensor {F}.
Arguments Value {F}. Arguments Const {F}. Arguments Shape {F}. Arguments MatMul {F}. Arguments Add {F}. Arguments Gemm {F}.

(** The order of operations in a block: each is a name and the names of its operands; operands come first. *)
Definition block := list (nat * list nat).
Definition ordered (params : list nat) (b : block) : Prop :=
  forall pre name args post, b = pre ++ (name, args) :: post -> forall a, In a args -> In a params \/ In a (map fst pre).
