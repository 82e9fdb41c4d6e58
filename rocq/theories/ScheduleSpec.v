(** What a krnl.iterate with krnl.block, krnl.permute, krnl.parallel and krnl.unroll directives
    must execute (/repo/src/Dialect/Krnl/Krnl.td 421-540, docs of the operations). *)
From Coq Require Import List ZArith Bool.
From Verif Require Import Util.
Import ListNotations.
Open Scope Z_scope.

(** A schedule. Loop references are numbers. *)
Inductive directive :=
| Block (loop outer local size : Z)        (* %outer, %local = krnl.block %loop size *)
| Permute (loops : list Z) (to : list Z)   (* loop i goes to position to[i] *)
| Parallel (loop : Z)
| Unroll (loop : Z).

Record program := {
  dims : list (Z * (Z * Z));            (* the original loops with their bounds, outermost first *)
  directives : list directive;
  optimized : list Z;                   (* the loops named by the iterate *)
  nested : list (list Z * bool);        (* iterates nested in it: loops, and whether values are carried *)
  indices : list Z;                     (* loops whose index is read by krnl.get_induction_var_value *)
  kernel : list Z                       (* loops handed to a kernel such as krnl.matmul *)
}.

(** The points of a range, and those of every tuple of ranges. *)
Definition points (lo hi : Z) : list Z := map (fun k => lo + k) (zrange (hi - lo)).
Fixpoint grid (l : list (list Z)) : list (list Z) :=
  match l with [] => [[]] | r :: l' => flat_map (fun x => map (cons x) (grid l')) r end.

(** The start of the innermost tile containing [x], for tiles of the given sizes, each inside the
    one before. *)
Fixpoint tileStart (lo : Z) (sizes : list Z) (x : Z) : Z :=
  match sizes with [] => lo | s :: sizes' => tileStart (lo + (x - lo) / s * s) sizes' x end.
(** The points to visit: all of them, or every [s]-th one of each innermost tile. *)
Definition visited (lo hi : Z) (sizes : list Z) (last : option Z) : list Z :=
  match last with
  | None => points lo hi
  | Some s => filter (fun x => (x - tileStart lo sizes x) mod s =? 0) (points lo hi)
  end.

Definition locals (ds : list directive) : list Z :=
  flat_map (fun d => match d with Block _ _ r2 _ => [r2] | _ => [] end) ds.
Definition outers (ds : list directive) : list Z :=
  flat_map (fun d => match d with Block _ r1 _ _ => [r1] | _ => [] end) ds.
Definition operands (d : directive) : list Z :=
  match d with Block r _ _ _ => [r] | Permute rs _ => rs | Parallel r => [r] | Unroll r => [r] end.
Definition memb (r : Z) (l : list Z) : bool := existsb (Z.eqb r) l.

(** The second result of a block that is not iterated over: nothing mentions it, or it is handed to
    a kernel (and at most permuted). *)
Definition notIterated (p : program) (r : Z) : bool :=
  memb r (locals (directives p)) && negb (memb r (optimized p)) && negb (memb r (flat_map fst (nested p)))
  && negb (memb r (indices p))
  && negb (memb r (flat_map (fun d => match d with Permute _ _ => [] | _ => operands d end) (directives p)))
  && (memb r (kernel p) || negb (memb r (flat_map operands (directives p)))).

(** For each original loop: the loop that gives its index, the sizes of its nested tiles, and the
    size of the last tile when its points are not iterated over. [None]: not covered, a block whose
    points are not iterated over applies to a loop that does not give an index of its own. *)
Definition plan := (Z * list Z * option Z)%type.
Definition handle (q : plan) : Z := fst (fst q).
Definition stepPlan (skip : Z -> bool) (d : directive) (qs : list plan) : option (list plan) :=
  match d with
  | Block r r1 r2 s =>
    if skip r2 then
      if existsb (fun q => (handle q =? r) && match snd q with None => true | _ => false end) qs then
        Some (map (fun '(h, c, l) => if h =? r then (r1, c, Some s) else (h, c, l)) qs)
      else None
    else Some (map (fun '(h, c, l) => if h =? r then (r2, match l with None => c ++ [s] | _ => c end, l) else (h, c, l)) qs)
  | _ => Some qs
  end.
Definition plans (p : program) : option (list plan) :=
  foldM (stepPlan (notIterated p)) (directives p) (map (fun d => (fst d, [], None)) (dims p)).
(** The tuples of indices to execute, each once. *)
Definition iterations (p : program) (qs : list plan) : list (list Z) :=
  grid (map2 (fun d q => visited (fst (snd d)) (snd (snd d)) (snd (fst q)) (snd q)) (dims p) qs).

(** No block comes after a permute. *)
Fixpoint blocksFirst (ds : list directive) : Prop :=
  match ds with
  | [] => True
  | Permute _ _ :: ds' => locals ds' = [] /\ blocksFirst ds'
  | _ :: ds' => blocksFirst ds'
  end.
(** Loops that go one by one. *)
Definition unitLoops (p : program) : list Z :=
  fold_left (fun u d => match d with
    | Block r r1 r2 s => if memb r u then r2 :: (if s =? 1 then r1 :: u else u) else u
    | _ => u end) (directives p) (map fst (dims p)).
Definition sizesOK (p : program) : Prop :=
  forall r r1 r2 s, In (Block r r1 r2 s) (directives p) -> 0 < s < 2 ^ 32.
(** A nested iterate that carries values goes over loops that go one by one. *)
Definition carriedOK (p : program) : Prop :=
  forall rs, In (rs, true) (nested p) -> forall r, In r rs -> In r (unitLoops p).
