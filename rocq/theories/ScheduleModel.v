(** The lowering of krnl.iterate and its schedule to affine loops:
    /repo/src/Conversion/KrnlToAffine/ConvertKrnlToAffine.cpp.

    A loop nest is a list of affine.for, outermost first. MLIR's tilePerfectlyNested and
    permuteLoops are part of the model (they are in the LLVM project, not in /repo). Operations
    between two loops of a nest, unrolling and threads are not modelled: an unrolled or a parallel
    loop runs the same iterations. *)
From Coq Require Import List ZArith Bool.
From Verif Require Import Util ScheduleSpec.
Import ListNotations.
Open Scope Z_scope.

(** Bounds of affine.for: constants, or the index of an enclosing loop plus a constant; the upper
    bound is the minimum of several ones. *)
Inductive bound := Cst (z : Z) | Iv (r off : Z).
Record loop := { ref : Z; lb : bound; ub : bound; ubs : list bound; step : Z }.

Definition ev (f : Z -> Z) (b : bound) : Z := match b with Cst z => z | Iv r o => f r + o end.
Definition evMin (f : Z -> Z) (l : loop) : Z := fold_left Z.min (map (ev f) (ubs l)) (ev f (ub l)).
Definition reads (l : loop) : list Z :=
  flat_map (fun b => match b with Cst _ => [] | Iv r _ => [r] end) (lb l :: ub l :: ubs l).

(** affine.for from lo to hi by st. *)
Definition iters (lo hi st : Z) : list Z := map (fun k => lo + k * st) (zrange ((hi - lo + st - 1) / st)).

(** The iterations of a nest: the indices of its loops (innermost first), in execution order. *)
Definition env := list (Z * Z).
Definition look (e : env) (r : Z) : Z := match find (fun q => fst q =? r) e with Some q => snd q | None => 0 end.
Fixpoint trace (nest : list loop) (e : env) : list env :=
  match nest with
  | [] => [e]
  | l :: nest' => flat_map (fun v => trace nest' ((ref l, v) :: e)) (iters (ev (look e) (lb l)) (evMin (look e) l) (step l))
  end.

(** Lowering state: the nest, the references whose loop is an affine.parallel, whether the outer
    iterate was erased already, and the references that stand for the block arguments of the iterate. *)
Record state := { nest : list loop; par : list Z; erased : bool; args : list Z }.

(** ConvertKrnlToAffine.cpp 368-402 lowerIterateOp: one affine.for per bounds, step 1. *)
Definition lowerIterate (p : program) : state :=
  {| nest := map (fun d => {| ref := fst d; lb := Cst (fst (snd d)); ub := Cst (snd (snd d)); ubs := []; step := 1 |}) (dims p);
     par := []; erased := false; args := map fst (dims p) |}.

Definition rn (r r2 q : Z) : Z := if q =? r then r2 else q.
Definition renB (r r2 : Z) (b : bound) : bound := match b with Cst z => Cst z | Iv q o => Iv (rn r r2 q) o end.
Definition renL (r r2 : Z) (l : loop) : loop :=
  {| ref := ref l; lb := renB r r2 (lb l); ub := renB r r2 (ub l); ubs := map (renB r r2) (ubs l); step := step l |}.

(** MLIR tilePerfectlyNested on one loop: the tile loop, and inside it the loop over a tile, whose
    index replaces the one of the original loop. *)
Definition tile (l : loop) (s r1 r2 : Z) : loop * loop :=
  ({| ref := r1; lb := lb l; ub := ub l; ubs := ubs l; step := s * step l |},
   {| ref := r2; lb := Iv r1 0; ub := Iv r1 (s * step l); ubs := ub l :: ubs l; step := step l |}).
Definition tileNest (ls : list loop) (r r1 r2 : Z) (mk : loop -> loop * loop) : list loop :=
  flat_map (fun l => if ref l =? r then let (a, b) := mk l in [a; b] else [renL r r2 l]) ls.

(** 689-694: an inner loop whose reference is not used gets the bounds 0 and 1. *)
Definition trivialised (l : loop) : loop := {| ref := ref l; lb := Cst 0; ub := Cst 1; ubs := []; step := 1 |}.

(** 689: blockOp.getResult(1).use_empty(). The uses by an erased iterate are gone. *)
Definition useEmpty (p : program) (later : list directive) (er : bool) (r : Z) : bool :=
  negb (memb r (flat_map operands later)) && negb (memb r (flat_map fst (nested p))) && negb (memb r (indices p))
  && negb (memb r (kernel p)) && (er || negb (memb r (optimized p))).

(** 678-709 KrnlBlockOp. The tile size is converted to unsigned. *)
Definition doBlock (p : program) (later : list directive) (r r1 r2 s : Z) (st : state) : option state :=
  let s := s mod 2 ^ 32 in
  if (s =? 0) || negb (memb r (map ref (nest st))) || memb r (par st) then None
  else
    let mk l := let (a, b) := tile l s r1 r2 in (a, if useEmpty p later (erased st) r2 then trivialised b else b) in
    Some {| nest := tileNest (nest st) r r1 r2 mk; par := par st; erased := erased st; args := map (rn r r2) (args st) |}.

(** MLIR permuteLoops: loop [i] goes to position [to[i]]. *)
Definition permuted (seg : list loop) (to : list Z) : list loop :=
  flat_map (fun j => map snd (filter (fun q => fst q =? j) (combine to seg))) (zrange (Z.of_nat (length seg))).
Fixpoint nodupb (l : list Z) : bool := match l with [] => true | a :: r => negb (memb a r) && nodupb r end.
Definition listEqb (a b : list Z) : bool := if list_eq_dec Z.eq_dec a b then true else false.
(** Split the nest around the loops to permute, which must be nested perfectly and in order. *)
Fixpoint segment (rs : list Z) (ls : list loop) : option (list loop * list loop * list loop) :=
  if listEqb (map ref (firstn (length rs) ls)) rs then Some ([], firstn (length rs) ls, skipn (length rs) ls)
  else match ls with
       | [] => None
       | l :: ls' => x <- segment rs ls' ;; let '(a, b, c) := x in Some (l :: a, b, c)
       end.
(** 710-733 KrnlPermuteOp; removeOps first erases the outer iterate, lowered before. *)
Definition doPermute (rs to : list Z) (st : state) : option state :=
  if existsb (fun r => memb r (par st)) rs then None
  else if negb (nodupb to && (Nat.eqb (length to) (length rs)) && forallb (fun j => (0 <=? j) && (j <? Z.of_nat (length rs))) to) then None
  else x <- segment rs (nest st) ;;
       let '(a, b, c) := x in
       Some {| nest := a ++ permuted b to ++ c; par := par st; erased := true; args := args st |}.

(** 735-800 KrnlParallelOp: the affine.for becomes an affine.parallel with the same bounds. *)
Definition doParallel (r : Z) (st : state) : option state :=
  if negb (memb r (map ref (nest st))) || memb r (par st) then None
  else Some {| nest := nest st; par := r :: par st; erased := erased st; args := args st |}.

(** 655-804 interpretOperation: the directives in program order. *)
Fixpoint interpret (p : program) (ds : list directive) (st : state) : option state :=
  match ds with
  | [] => Some st
  | d :: ds' =>
    st' <- match d with
           | Block r r1 r2 s => doBlock p ds' r r1 r2 s st
           | Permute rs to => doPermute rs to st
           | Parallel r => doParallel r st
           | Unroll r => if memb r (map ref (nest st)) then Some st else None
           end ;;
    interpret p ds' st'
  end.

(** 473-574: the loop of a nested iterate that carries values is created again, with step 1. With
    several loops, the second one is created inside the first old one and erased with it. *)
Definition recreate (st : state) (n : list Z * bool) : option state :=
  match n with
  | (_, false) => Some st
  | ([r], true) =>
    if negb (memb r (map ref (nest st))) || memb r (par st) then None
    else Some {| nest := map (fun l => if ref l =? r then {| ref := ref l; lb := lb l; ub := ub l; ubs := ubs l; step := 1 |} else l) (nest st);
                 par := par st; erased := erased st; args := args st |}
  | (_, true) => None
  end.

(** Every index is read inside its loop (dominance, checked by the verifier). *)
Fixpoint scoped (sc : list Z) (ls : list loop) : bool :=
  match ls with
  | [] => true
  | l :: ls' => forallb (fun r => memb r sc) (reads l) && scoped (ref l :: sc) ls'
  end.
(** Split after the loop [r]. *)
Fixpoint splitAfter (r : Z) (ls : list loop) : option (list loop * list loop) :=
  match ls with
  | [] => None
  | l :: ls' => if ref l =? r then Some ([l], ls') else x <- splitAfter r ls' ;; Some (l :: fst x, snd x)
  end.

(** 181-189 toMoveUnder: the body goes under the innermost loop of the innermost iterate. *)
Definition bodyLoop (p : program) : option Z :=
  match rev (optimized p :: map fst (nested p)) with
  | rs :: _ => match rev rs with r :: _ => Some r | [] => None end
  | [] => None
  end.
(** 868-1010 runOnOperation: the loops around the body, the loops beneath it, and the loops whose
    indices are the arguments of the iterate. Loops given to a kernel are erased (982-986); a body
    beneath such a loop is an error here. *)
Definition lower (p : program) : option (list loop * list loop * list Z) :=
  if negb (nodupb (map fst (dims p) ++ outers (directives p) ++ locals (directives p))) then None
  else
    st <- interpret p (directives p) (lowerIterate p) ;;
    st <- foldM (fun n st => recreate st n) (nested p) st ;;
    if negb (scoped [] (nest st)) then None
    else
      r <- bodyLoop p ;;
      x <- splitAfter r (nest st) ;;
      if existsb (fun l => memb (ref l) (kernel p)) (fst x) then None
      else Some (fst x, filter (fun l => negb (memb (ref l) (kernel p))) (snd x), args st).
