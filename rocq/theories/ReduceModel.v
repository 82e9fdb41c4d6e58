(** Model of ElementsAttrBuilder::reduce (ElementsAttrBuilder.cpp:841-955),
    including its parallel execution: each thread runs a sequence of atomic
    accesses to the shared result buffer and the schedule interleaves the
    threads arbitrarily.

    Simplifications: the number of threads and the offsets of a tile are
    unbounded integers (C++: size_t and int); parallelFor (MLIR library) is
    taken to run [work] exactly once per thread number. *)
From Coq Require Import List ZArith Bool Arith.
From Verif Require Import Util StridesModel ElementsModel.
Import ListNotations.
Open Scope Z_scope.

(** std::sort of the axes, lines 850-851. *)
Fixpoint insert_axis (a : nat) (l : list nat) : list nat :=
  match l with
  | [] => [a]
  | b :: l' => if (a <=? b)%nat then a :: l else b :: insert_axis a l'
  end.
Definition sort_axes (l : list nat) : list nat := fold_right insert_axis [] l.

(** Lines 852-854: the assertion that neighbours differ. *)
Fixpoint axes_unique (l : list nat) : bool :=
  match l with
  | a :: ((b :: _) as l') => negb (a =? b)%nat && axes_unique l'
  | _ => true
  end.

(** Lines 862-881: [it] is the iterator over the sorted axes; result is
    ((axesShape, axesStrides), (reducedShape, reducedStrides)). *)
Fixpoint reduce_split (axis : nat) (it : list nat) (keepdims : bool) (shape strides : list Z)
  : (list Z * list Z) * (list Z * list Z) :=
  match shape, strides with
  | d :: sh, k :: st =>
      match it with
      | a :: it' =>
          if (a =? axis)%nat then
            let '((ash, ast), (rsh, rst)) := reduce_split (S axis) it' keepdims sh st in
            if keepdims then ((d :: ash, k :: ast), (1 :: rsh, 0 :: rst))
            else ((d :: ash, k :: ast), (rsh, rst))
          else
            let '((ash, ast), (rsh, rst)) := reduce_split (S axis) it keepdims sh st in
            ((ash, ast), (d :: rsh, k :: rst))
      | [] =>
          let '((ash, ast), (rsh, rst)) := reduce_split (S axis) it keepdims sh st in
          ((ash, ast), (d :: rsh, k :: rst))
      end
  | _, _ => (([], []), ([], []))
  end.

(** Lines 887-890: the batch of (flattenedIndex, offset). *)
Definition reduce_batch (rsh rst : list Z) : list (Z * Z) :=
  map (fun it => (flattenedIndex it, off it 0)) (StridesRange rsh [rst]).

(** Lines 892-912 [fetchBatch] for parallel = true; [None] if the tile leaves the batch. *)
Definition fetchBatch (numThreads : Z) (batch : list (Z * Z)) (threadNumber : Z) : option (list (Z * Z)) :=
  let n := Z.of_nat (length batch) in
  let tileSize := n / numThreads in
  let leftovers := n mod numThreads in
  let '(begin, len) :=
    if threadNumber <? leftovers then (threadNumber * (tileSize + 1), tileSize + 1)
    else (threadNumber * tileSize + leftovers, tileSize) in
  if (0 <=? begin) && (begin + len <=? n) then Some (firstn (Z.to_nat len) (skipn (Z.to_nat begin) batch))
  else None.

(** Atomic accesses of [work] (lines 914-931) to the result buffer. *)
Inductive action :=
| Init (p srcPos : Z)   (* d = srcNums[srcPos] *)
| Acc (p srcPos : Z).   (* d = reducer(d, srcNums[srcPos]) *)

Definition cell (a : action) : Z := match a with Init p _ | Acc p _ => p end.

Section Exec.
Context {W : Type}.
Variable src : list W.
Variable reducer : W -> W -> W.

Definition exec (a : action) (dst : list W) : option (list W) :=
  match a with
  | Init p q => x <- zget src q ;; zset dst p x
  | Acc p q => d <- zget dst p ;; x <- zget src q ;; zset dst p (reducer d x)
  end.
End Exec.

(** Lines 917-930: the accesses for one batch entry.  The loop skips the first
    position of axesRange, whose offset is 0 (line 924 asserts it). *)
Definition entry_actions (axesOffsets : list Z) (b : Z * Z) : list action :=
  Init (fst b) (snd b) :: map (fun o => Acc (fst b) (snd b + o)) (tl axesOffsets).

(** [work] over a tile. *)
Definition work (axesOffsets : list Z) (tile : list (Z * Z)) : list action :=
  flat_map (entry_actions axesOffsets) tile.

(** All interleavings of the threads' access sequences. *)
Inductive interleave {A} : list (list A) -> list A -> Prop :=
| il_done ts : Forall (fun t => t = []) ts -> interleave ts []
| il_step ts1 a t ts2 tr :
    interleave (ts1 ++ t :: ts2) tr -> interleave (ts1 ++ (a :: t) :: ts2) (a :: tr).

(** Lines 945-952: sequential below 2000 source elements, else one [work] per thread. *)
Definition schedule (numThreads : Z) (batch : list (Z * Z)) (axesOffsets : list Z) (tr : list action) : Prop :=
  if Z.of_nat (length batch) * Z.of_nat (length axesOffsets) <? 2000 then tr = work axesOffsets batch
  else exists tiles,
    Forall2 (fun t tile => fetchBatch numThreads batch t = Some tile) (zrange numThreads) tiles /\
    interleave (map (work axesOffsets) tiles) tr.

Section Reduce.
Context {W : Type}.
Variable junk : W.

(** [reduce], lines 841-955: [reduce_run numThreads e axes keepdims reducer r]
    holds when [r] is a possible outcome. *)
Definition reduce_run (numThreads : Z) (e : elements W) (axes : list nat) (keepdims : bool)
    (reducer : W -> W -> W) (r : option (elements W)) : Prop :=
  if getNumElements (e_shape e) =? 0 then r = None (* assert(!elms.empty()) *)
  else match axes with
  | [] => r = Some e
  | _ =>
      let sorted := sort_axes axes in
      if negb (axes_unique sorted) then r = None (* assertion, line 852 *)
      else
        let '((ash, ast), (rsh, rst)) := reduce_split 0 sorted keepdims (e_shape e) (e_strides e) in
        let axesOffsets := map (fun it => off it 0) (StridesRange ash [ast]) in
        if negb (match axesOffsets with o :: _ => o =? 0 | [] => false end) then r = None (* line 924 *)
        else exists tr, schedule numThreads (reduce_batch rsh rst) axesOffsets tr /\
               r = fromWideNums junk rsh (foldM (exec (bufferAsWideNums e) reducer) tr)
  end.
End Reduce.
