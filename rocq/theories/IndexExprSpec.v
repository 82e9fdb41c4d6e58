(** What a sequence of index-expression operations denotes: plain integer
    arithmetic on the run-time values of the dimensions. *)
From Coq Require Import List ZArith Bool.
From Verif Require Import Util IndexExprModel.
Import ListNotations.
Open Scope Z_scope.

Definition znth (zs : list Z) (i : nat) : option Z := nth_error zs i.
Definition bin (zs : list Z) (i j : nat) (f : Z -> Z -> option Z) : option Z :=
  x <- znth zs i ;; y <- znth zs j ;; f x y.

(** Comparison predicates. *)
Definition compares (p : cmpi) (x y : Z) : bool :=
  match p with Eq_ => x =? y | Ne_ => negb (x =? y) | Slt => x <? y | Sle => x <=? y | Sgt => x >? y | Sge => x >=? y end.
Definition truth (b : bool) : Z := if b then 1 else 0.

(** The number a command denotes, given the external values [env] and the numbers
    [zs] of the registers; [None]: undefined (division by 0, modulus not positive,
    empty min, clamp with lo > hi).  Floor and ceiling are mathematical, the
    remainder is the non-negative one. *)
Definition sem (env : nat -> Z) (zs : list Z) (c : cmd) : option Z :=
  match c with
  | CLit z => Some z
  | CDim n | CSym n | CVal n => Some (env n)
  | CAdd i j => bin zs i j (fun x y => Some (x + y))
  | CSub i j => bin zs i j (fun x y => Some (x - y))
  | CMul i j => bin zs i j (fun x y => Some (x * y))
  | CFloor i j => bin zs i j (fun x y => if y =? 0 then None else Some (x / y))
  | CCeil i j => bin zs i j (fun x y => if y =? 0 then None else Some (- ((- x) / y)))
  | CMod i j => bin zs i j (fun x y => if 0 <? y then Some (x mod y) else None)
  | CMinMax isMin l =>
      vs <- mapO (znth zs) l ;;
      match vs with [] => None | v :: r => Some (fold_left (if isMin then Z.min else Z.max) r v) end
  | CClamp v lo hi =>
      x <- znth zs v ;; l <- znth zs lo ;; h <- znth zs hi ;;
      if l <=? h then Some (Z.max l (Z.min x h)) else None
  | CCmp p i j => bin zs i j (fun x y => Some (truth (compares p x y)))
  | CSelect c t f =>
      k <- znth zs c ;; x <- znth zs t ;; y <- znth zs f ;; Some (if k =? 0 then y else x)
  | CAnd i j => bin zs i j (fun x y => Some (truth (negb (x =? 0) && negb (y =? 0))))
  | COr i j => bin zs i j (fun x y => Some (truth (negb (x =? 0) || negb (y =? 0))))
  | CNot i => x <- znth zs i ;; Some (truth (x =? 0))
  end.
Fixpoint sems (env : nat -> Z) (zs : list Z) (cs : list cmd) : option (list Z) :=
  match cs with
  | [] => Some zs
  | c :: r => z <- sem env zs c ;; sems env (zs ++ [z]) r
  end.

(** Sorts of the registers: [true] for a predicate. *)
Definition sort_of (ts : list bool) (c : cmd) : option bool :=
  let int i := match nth_error ts i with Some false => true | _ => false end in
  let prd i := match nth_error ts i with Some true => true | _ => false end in
  match c with
  | CLit _ | CDim _ | CSym _ | CVal _ => Some false
  | CAdd i j | CSub i j | CMul i j | CFloor i j | CCeil i j | CMod i j =>
      if int i && int j then Some false else None
  | CMinMax _ l => if forallb int l then Some false else None
  | CClamp v l h => if int v && int l && int h then Some false else None
  | CCmp _ i j => if int i && int j then Some true else None
  | CSelect c t f => if prd c && int t && int f then Some false else None
  | CAnd i j | COr i j => if prd i && prd j then Some true else None
  | CNot i => if prd i then Some true else None
  end.
Fixpoint sorts (ts : list bool) (cs : list cmd) : option (list bool) :=
  match cs with [] => Some ts | c :: r => t <- sort_of ts c ;; sorts (ts ++ [t]) r end.

(** An external value is used as a dimension or as a symbol, not both. *)
Definition dims_not_symbols (cs : list cmd) : Prop :=
  forall n, In (CDim n) cs -> ~ In (CSym n) cs.

(** What can be read from an index expression in the lowering pass: its literal,
    its value (run on [env]), and, in the scope that made it, its affine
    expression. *)
Record reads (env : nat -> Z) (e : IE) (z : Z) : Prop := {
  rd_lit : literal e = true -> intLit e = z;
  rd_val : exists v, val e = Some v /\ veval env v = Some z
}.

(** ** Uses excluded from the soundness theorem (each is shown to go wrong) *)

(** The first operand of an all-literal min/max is already the result, or some
    operand is not a literal. *)
Definition fresh (isMin : bool) (es : list IE) : Prop :=
  (exists e, In e es /\ literal e = false) \/
  (exists e r, es = e :: r /\ forall e', In e' r -> if isMin then intLit e <= intLit e' else intLit e' <= intLit e).

(** [v] is computed by an affine.min or affine.max. *)
Definition is_minmax (e : IE) : bool :=
  match val e with Some (VMinMax _ _ _ _) => true | _ => false end.

Section Safe.
Variable simp : aexp -> option Z.
Variable ndebug : bool.
(** Pushing [f] into the terms of a min/max gives operands that are not all
    literals (or start with the result), and asserts are compiled in. *)
Definition propagates (sc : scope) (f : aexp -> aexp -> aexp) (a b : IE) : Prop :=
  (is_minmax a = false /\ is_minmax b = false) \/
  (ndebug = false /\ forall isMin ds ss l,
    (val a = Some (VMinMax isMin ds ss l) -> forall sc' ts,
       propagated simp (affineBin simp f) l true b sc = Some (sc', ts) -> fresh isMin ts) /\
    (val b = Some (VMinMax isMin ds ss l) -> forall sc' ts,
       propagated simp (affineBin simp f) l false a sc = Some (sc', ts) -> fresh isMin ts)).
(** [sc]: the scope before the command; [rs]: the registers; [zs]: their values. *)
Definition safe (sc : scope) (zs : list Z) (rs : list IE) (c : cmd) : Prop :=
  match c with
  | CAdd i j => forall a b, nth_error rs i = Some a -> nth_error rs j = Some b -> propagates sc AAdd a b
  | CSub i j => forall a b, nth_error rs i = Some a -> nth_error rs j = Some b ->
      propagates sc ASub a b /\ (is_minmax b = false \/ isAffine a = false)
  | CFloor i j | CCeil i j => forall a b, nth_error rs i = Some a -> nth_error rs j = Some b ->
      literal a = true -> literal b = true -> Z.abs (intLit a) < 2 ^ 53 /\ Z.abs (intLit b) <= 2 ^ 53
  | CMod i j => forall a b x, nth_error rs i = Some a -> nth_error rs j = Some b -> nth_error zs i = Some x ->
      0 <= x \/ (literal b = true /\ isAffine a = true)
  | CMinMax isMin l => forall es, mapO (nth_error rs) l = Some es -> fresh isMin es
  | _ => True
  end.
Fixpoint safe_run (env : nat -> Z) (sc : scope) (zs : list Z) (rs : list IE) (cs : list cmd) : Prop :=
  match cs with
  | [] => True
  | c :: r => safe sc zs rs c /\
      forall sc' e z, exec simp ndebug rs c sc = Some (sc', e) -> sem env zs c = Some z ->
        safe_run env sc' (zs ++ [z]) (rs ++ [e]) r
  end.
End Safe.

(** A simple sufficient condition on the commands and their values only: no
    min/max, exact literal divisions, non-negative dividends of [%]. *)
Definition plain (zs : list Z) (c : cmd) : Prop :=
  match c with
  | CMinMax _ _ => False
  | CFloor i j | CCeil i j => forall x y, nth_error zs i = Some x -> nth_error zs j = Some y -> Z.abs x < 2 ^ 53 /\ Z.abs y <= 2 ^ 53
  | CMod i j => forall x, nth_error zs i = Some x -> 0 <= x
  | _ => True
  end.
Fixpoint plain_run (env : nat -> Z) (zs : list Z) (cs : list cmd) : Prop :=
  match cs with
  | [] => True
  | c :: r => plain zs c /\ forall z, sem env zs c = Some z -> plain_run env (zs ++ [z]) r
  end.

(** Divisions stay where double arithmetic is exact. *)
Definition exact_div (zs : list Z) (c : cmd) : Prop :=
  match c with
  | CFloor i j | CCeil i j => forall x y, nth_error zs i = Some x -> nth_error zs j = Some y -> Z.abs x < 2 ^ 53 /\ Z.abs y <= 2 ^ 53
  | _ => True
  end.
Fixpoint exact_divs (env : nat -> Z) (zs : list Z) (cs : list cmd) : Prop :=
  match cs with
  | [] => True
  | c :: r => exact_div zs c /\ forall z, sem env zs c = Some z -> exact_divs env (zs ++ [z]) r
  end.
