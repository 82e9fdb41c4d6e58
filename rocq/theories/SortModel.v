(** Model of src/Runtime/OMSort.c and src/Runtime/OMTopK.c.

    The element type dispatch of getCompareFunction (OMSort.c:252-309) is
    represented by the comparison [dir v1 v2] ("comes strictly first") and the
    equality [eqv] of the element type.  rand() is an oracle: an arbitrary
    stream of numbers.  [None] is a failed assertion, an out-of-bounds access,
    or (never, as proved) the exhaustion of the model's loop bound.

    Simplifications: the int loop counters of the five outer loops do not
    overflow; indices are unbounded integers. *)
From Coq Require Import List ZArith Bool Arith.
From Verif Require Import Util.
Import ListNotations.
Open Scope Z_scope.

Section Sort.
Context {V : Type}.
Variables dir eqv : V -> V -> bool.

(** OMSort.c:50-58 [compareFunctionBody]. *)
Definition compare (data : list V) (idx1 idx2 : Z) : option Z :=
  v1 <- zget data idx1 ;;
  v2 <- zget data idx2 ;;
  Some (if dir v1 v2 || (eqv v1 v2 && (idx1 <? idx2)) then -1 else 1).

(** OMSort.c:127-132 [SWAP_INDEX] / OMTopK.c:34-38 [swap_indices]. *)
Definition swap (l : list Z) (i j : Z) : option (list Z) :=
  a <- zget l i ;;
  b <- zget l j ;;
  l1 <- zset l i b ;;
  zset l1 j a.

(** OMSort.c:194-206: the loop of the partition, from [j] to [end]. *)
Definition partition_step (data : list V) (end_ : Z) (j : Z) (st : Z * list Z) : option (Z * list Z) :=
  let '(i, idx) := st in
  a <- zget idx j ;;
  p <- zget idx end_ ;;
  c <- compare data a p ;;
  if c <=? 0 then idx' <- swap idx i j ;; Some (i + 1, idx') else Some (i, idx).

(** OMSort.c:186-209 [quick_sort_partition]; [r] is the value of rand(). *)
Definition quick_sort_partition (data : list V) (r : Z) (idx : list Z) (begin end_ : Z) : option (Z * list Z) :=
  idx1 <- swap idx (begin + r mod (end_ - begin + 1)) end_ ;;
  st <- foldM (partition_step data end_) (zseq begin (Z.to_nat (end_ - begin))) (begin, idx1) ;;
  let '(i, idx2) := st in
  idx3 <- swap idx2 end_ i ;;
  Some (i, idx3).

(** OMSort.c:177-183 [log2u]: the loop halves until n <= 1. *)
Fixpoint log2u_loop (fuel : nat) (n b : Z) : Z :=
  match fuel with
  | O => b
  | S f => if 1 <? n then log2u_loop f (n / 2) (b + 1) else b
  end.
Definition log2u (n : Z) : option Z := if 0 <? n then Some (log2u_loop (Z.to_nat n) n 0) else None.

(** OMSort.c:149-154 [STACK_PUSH]: the stack holds two numbers per entry; top first. *)
Definition push (stackSize : Z) (stack : list (Z * Z)) (e : Z * Z) : option (list (Z * Z)) :=
  if 2 * Z.of_nat (length stack) <=? stackSize - 2 then Some (e :: stack) else None.

(** OMSort.c:231-249: the main loop. *)
Fixpoint quick_sort_loop (fuel : nat) (data : list V) (rands : list Z) (stackSize : Z)
    (idx : list Z) (stack : list (Z * Z)) : option (list Z) :=
  match stack with
  | [] => Some idx
  | (begin, end_) :: stack1 =>
      match fuel with
      | O => None
      | S f =>
          if begin <? end_ then
            match rands with
            | [] => None
            | r :: rands' =>
                pr <- quick_sort_partition data r idx begin end_ ;;
                let '(pivot, idx') := pr in
                stack3 <-
                  (if (pivot - begin) >? (end_ - pivot) then
                     stack2 <- (if begin <? pivot - 1 then push stackSize stack1 (begin, pivot - 1) else Some stack1) ;;
                     (if pivot + 1 <? end_ then push stackSize stack2 (pivot + 1, end_) else Some stack2)
                   else
                     stack2 <- (if pivot + 1 <? end_ then push stackSize stack1 (pivot + 1, end_) else Some stack1) ;;
                     (if begin <? pivot - 1 then push stackSize stack2 (begin, pivot - 1) else Some stack2)) ;;
                quick_sort_loop f data rands' stackSize idx' stack3
            end
          else quick_sort_loop f data rands stackSize idx stack1
      end
  end.

(** OMSort.c:213-250 [quick_sort_custom]; [rands] are the results of the
    successive calls of rand() (at most one per element). *)
Definition quick_sort_custom (rands : list Z) (data : list V) (idx : list Z) : option (list Z) :=
  let n := Z.of_nat (length idx) in
  lg <- log2u (n + 1) ;;
  let stackSize := (lg + 2) * 2 in
  stack <- push stackSize [] (0, n - 1) ;;
  quick_sort_loop (S (length idx)) data rands stackSize idx stack.

(** The five outer loops (OMSort.c:362-388, OMTopK.c:186-237) over the slices:
    [f off order] processes the slice at offset [off]. *)
Fixpoint slice_offsets (shape strides : list Z) : list Z :=
  match shape, strides with
  | d :: sh, s :: st => flat_map (fun i => map (fun o => i * s + o) (slice_offsets sh st)) (zrange d)
  | _, _ => [0]
  end.

(** The [n] elements from offset [off]. *)
Definition sub {A} (l : list A) (off n : Z) : option (list A) :=
  if (0 <=? off) && (off + n <=? Z.of_nat (length l)) && (0 <=? n)
  then Some (firstn (Z.to_nat n) (skipn (Z.to_nat off) l)) else None.
Definition put {A} (l : list A) (off : Z) (s : list A) : list A :=
  firstn (Z.to_nat off) l ++ s ++ skipn (Z.to_nat off + length s) l.

(** OMSort.c:311-391 [omTensorSort]: [shape], [strides] and [data] of the input
    tensor, [order] the buffer of the order tensor; [sortFunc] is qsort_r or
    quick_sort_custom; its extra argument, the slice offset, stands for the state
    of rand() when the slice is processed.  Virtual unit axes (lines 349-359) contribute offset 0. *)
Definition for_slices (shape strides : list Z) (data : list V) (order : list Z)
    (work : Z -> list V -> list Z -> option (list Z)) : option (list Z) :=
  let rank := length shape in
  if (6 <? rank)%nat || (rank =? 0)%nat || negb (length strides =? rank)%nat then None
  else if negb (last strides 0 =? 1) then None
  else
    let n := last shape 0 in
    foldM (fun off ord =>
        d <- sub data off n ;;
        s <- sub ord off n ;;
        s' <- work off d s ;;
        Some (put ord off s'))
      (slice_offsets (removelast shape) (removelast strides)) order.

Definition omTensorSort (sortFunc : Z -> list V -> list Z -> option (list Z))
    (shape strides : list Z) (data : list V) (order : list Z) : option (list Z) :=
  if last shape 0 =? 0 then Some order else for_slices shape strides data order sortFunc.
End Sort.

Section TopK.
Context {V : Type}.
Variables dir eqv : V -> V -> bool.

(** OMTopK.c:43-87 [heap_sift_down]. *)
Fixpoint heap_sift_down (fuel : nat) (data : list V) (heap : list Z) (root end_ : Z) : option (list Z) :=
  if root * 2 + 1 <=? end_ then
    match fuel with
    | O => None
    | S f =>
        let child := root * 2 + 1 in
        x <- zget heap root ;;
        c <- zget heap child ;;
        cmp1 <- compare dir eqv data x c ;;
        let swap_idx := if 0 <? cmp1 then child else root in
        swap_idx2 <-
          (if child + 1 <=? end_ then
             a <- zget heap swap_idx ;;
             b <- zget heap (child + 1) ;;
             cmp2 <- compare dir eqv data a b ;;
             Some (if 0 <? cmp2 then child + 1 else swap_idx)
           else Some swap_idx) ;;
        if swap_idx2 =? root then Some heap
        else
          heap' <- swap heap root swap_idx2 ;;
          heap_sift_down f data heap' swap_idx2 end_
    end
  else Some heap.

(** OMTopK.c:92-103 [make_heap]: start = heap_size/2 - 1 down to 0. *)
Definition make_heap (data : list V) (heap : list Z) (heap_size : Z) : option (list Z) :=
  foldM (fun start h => heap_sift_down (length h) data h start (heap_size - 1))
    (rev (zrange (heap_size / 2))) heap.

End TopK.

Section TopK2.
Context {V : Type}.
Variables dir rdir eqv : V -> V -> bool. (* requested direction, and the opposite one *)

(** OMTopK.c:206-222, STEP 2 for one element. *)
Definition topk_step (k : Z) (data : list V) (i : Z) (idx : list Z) : option (list Z) :=
  a <- zget idx i ;;
  r <- zget idx 0 ;;
  c <- compare dir eqv data a r ;;
  if c <? 0 then
    idx' <- swap idx 0 i ;;
    heap_sift_down rdir eqv (length idx) data idx' 0 (k - 1)
  else Some idx.

(** OMTopK.c:194-232: one slice.  [sortFunc] sorts the first k entries. *)
Definition topk_slice (sortFunc : list V -> list Z -> option (list Z)) (k : Z) (sorted : bool)
    (data : list V) (idx : list Z) : option (list Z) :=
  let n := Z.of_nat (length idx) in
  idx1 <- make_heap rdir eqv data idx k ;;
  idx2 <- foldM (topk_step k data) (zseq k (Z.to_nat (n - k))) idx1 ;;
  if sorted then
    s <- sub idx2 0 k ;;
    s' <- sortFunc data s ;;
    Some (put idx2 0 s')
  else Some idx2.

(** OMTopK.c:115-238 [omTensorTopK].  The test k >= (int64_t)(n * 0.9) of line
    143 (floating point) is the arbitrary boolean [large]; both outcomes are
    covered by the theorems, provided k < n when it is false. *)
Definition omTensorTopK (sortFunc : Z -> list V -> list Z -> option (list Z)) (large : bool)
    (shape strides : list Z) (data : list V) (order : list Z) (k : Z) (sorted : bool) : option (list Z) :=
  if (k =? 0) || (last shape 0 =? 0) then Some order
  else if large then omTensorSort sortFunc shape strides data order
  else for_slices shape strides data order (fun off => topk_slice (sortFunc off) k sorted).
End TopK2.
