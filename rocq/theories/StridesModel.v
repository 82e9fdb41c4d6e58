(** Model of src/Dialect/ONNX/ElementsAttr/Strides.cpp and StridesRange.hpp(.inc).
    Numbers: the code uses int64_t/uint64_t; the model uses unbounded [Z].  All
    operations are ring operations modulo 2^64 (or division of non-negative
    numbers), so the two agree whenever the final positions fit in 63 bits,
    which every in-memory tensor satisfies. *)
From Coq Require Import List ZArith Bool.
From Verif Require Import Util.
Import ListNotations.
Open Scope Z_scope.

(** Strides.cpp:20-29 [getStridesPosition]: sum of index[axis]*strides[axis].
    The accumulation order is immaterial (integers). *)
Fixpoint getStridesPosition (index strides : list Z) : Z :=
  match index, strides with
  | i :: index', s :: strides' => i * s + getStridesPosition index' strides'
  | _, _ => 0
  end.

(** mlir::ShapedType::getNumElements: product of the dimensions. *)
Definition getNumElements (shape : list Z) : Z := prodZ shape.

(** Strides.cpp:44-55 [getDefaultStrides]: the loop runs from the last axis with
    [mult]; the recursion returns (strides of this suffix, mult). *)
Fixpoint defaultStrides_mult (shape : list Z) : list Z * Z :=
  match shape with
  | [] => ([], 1)
  | d :: r =>
      let '(st, mult) := defaultStrides_mult r in
      ((if d =? 1 then 0 else mult) :: st, mult * d)
  end.
Definition getDefaultStrides (shape : list Z) : list Z := fst (defaultStrides_mult shape).

(** Strides.cpp:31-42 [areStridesContiguous]: same loop, comparing. The
    recursion returns (all suffix strides matched, mult). *)
Fixpoint contiguous_mult (shape strides : list Z) : bool * Z :=
  match shape, strides with
  | d :: r, s :: st =>
      let '(b, mult) := contiguous_mult r st in
      (b && (s =? (if d =? 1 then 0 else mult)), mult * d)
  | _, _ => (true, 1)
  end.
Definition areStridesContiguous (shape strides : list Z) : bool :=
  fst (contiguous_mult shape strides).

(** Strides.cpp:57-59 [getSplatStrides]. *)
Definition getSplatStrides (shape : list Z) : list Z := repeat 0 (length shape).

(** Strides.hpp [areStridesSplat]: all strides are zero. *)
Definition areStridesSplat (strides : list Z) : bool := forallb (Z.eqb 0) strides.

(** Strides.cpp:137-144 [expandStrides]: left-pad with zeros. The assertion
    rank >= strides.size() is a [None]. *)
Definition expandStrides (strides expandedShape : list Z) : option (list Z) :=
  if (length strides <=? length expandedShape)%nat
  then Some (repeat 0 (length expandedShape - length strides) ++ strides)
  else None.

(** Strides.cpp:146-154 [transposeDims]. *)
Definition transposeDims (dims : list Z) (perm : list nat) : list Z :=
  map (fun p => nth p dims 0) perm.

(** Strides.cpp:156-164 [untransposeDims]: unpermuted[perm[i]] = dims[i].  The
    uninitialised vector is modelled as zeros (every slot is overwritten when
    perm is a permutation). *)
Fixpoint untranspose_loop (dims : list Z) (perm : list nat) (acc : list Z) : list Z :=
  match dims, perm with
  | d :: dims', p :: perm' => untranspose_loop dims' perm' (upd p d acc)
  | _, _ => acc
  end.
Definition untransposeDims (dims : list Z) (perm : list nat) : list Z :=
  untranspose_loop dims perm (repeat 0 (length perm)).

(** Strides.cpp:166-183 [unflattenIndex]: [rshape] is the shape reversed, so the
    loop for (axis = rank-1; axis >= 1; --axis) is structural. [None] is a
    failed assertion (lines 173, 179). *)
Fixpoint unflatten_loop (rshape : list Z) (flat : Z) (acc : list Z) : option (list Z) :=
  match rshape with
  | [] => Some acc
  | [d0] => if flat <? d0 then Some (flat :: acc) else None
  | d :: r =>
      if 0 <? d then unflatten_loop r (flat / d) (flat mod d :: acc) else None
  end.
Definition unflattenIndex (shape : list Z) (flat : Z) : option (list Z) :=
  unflatten_loop (rev shape) flat [].

(** StridesRange.hpp:31-45 [StridesIndexOffsets]. *)
Record item := Item { flattenedIndex : Z; it_index : list Z; offsets : list Z }.

(** StridesRange.hpp.inc:7-27 [StridesIterator::operator++], loop body: [axis]
    counts down, [strides] is the array of N stride vectors.  The N=2
    specialisation (lines 34-61) is the same computation on locals. *)
Fixpoint inc_loop (shape : list Z) (strides : list (list Z)) (axis : nat)
    (index offs : list Z) : list Z * list Z :=
  match axis with
  | O => (index, offs)
  | S a =>
      let dim := nth a shape 0 in
      let offs1 := map2 (fun o st => o + nth a st 0) offs strides in
      let i1 := nth a index 0 + 1 in
      if i1 <? dim then (upd a i1 index, offs1)
      else
        let offs2 := map2 (fun o st => o - dim * nth a st 0) offs1 strides in
        inc_loop shape strides a (upd a 0 index) offs2
  end.

Definition increment (shape : list Z) (strides : list (list Z)) (it : item) : item :=
  let '(ix, of) := inc_loop shape strides (length shape) (it_index it) (offsets it) in
  Item (flattenedIndex it + 1) ix of.

(** StridesRange.hpp:88-94, begin iterator. *)
Definition begin_item (shape : list Z) (strides : list (list Z)) : item :=
  Item 0 (repeat 0 (length shape)) (repeat 0 (length strides)).

(** StridesRange.hpp:142-161: the items visited by
    [for (auto &idxoffs : StridesRange<N>(shape, strides))], i.e. from begin
    until flattenedIndex == numElements. *)
Fixpoint items_from (shape : list Z) (strides : list (list Z)) (n : nat) (it : item) : list item :=
  match n with
  | O => []
  | S m => it :: items_from shape strides m (increment shape strides it)
  end.
Definition StridesRange (shape : list Z) (strides : list (list Z)) : list item :=
  items_from shape strides (Z.to_nat (getNumElements shape)) (begin_item shape strides).

(** [dst] of numElements uninitialised elements (resize_for_overwrite). The
    uninitialised content is an arbitrary list supplied by the caller. *)

(** Strides.cpp:185-211 [restrideArray]: copy a strided array to row-major.
    The element width dispatch is represented by the element type [A]. *)
Definition off (it : item) (k : nat) : Z := nth k (offsets it) 0.

Definition restrideArray {A} (shape srcStrides : list Z) (src dst : list A) : option (list A) :=
  xp <- expandStrides srcStrides shape ;;
  foldM (fun it dst => v <- zget src (off it 0) ;; zset dst (flattenedIndex it) v)
        (StridesRange shape [xp]) dst.

(** * Zero-copy reshape, Strides.cpp:61-135 *)

Inductive rs_result :=
| RS_some (strides : list Z)   (* returns the reshaped strides *)
| RS_none                      (* returns std::nullopt *)
| RS_assert                    (* a failed assertion *)
| RS_fuel.                     (* the model's loop bound was hit (never happens) *)

(** Lines 80-84; [l] is shape zipped with strides from axis a1. *)
Fixpoint zero_run (l : list (Z * Z)) (m : Z) : Z * list (Z * Z) :=
  match l with
  | (d, s) :: r => if s =? 0 then zero_run r (m * d) else (m, l)
  | [] => (m, [])
  end.

(** Lines 86-91; [r] is reshapedShape from axis a2. *)
Fixpoint zero_take (r : list Z) (m m2 : Z) (acc : list Z) : Z * list Z * list Z :=
  match r with
  | d :: r' => if m2 * d <=? m then zero_take r' m (m2 * d) (acc ++ [0]) else (m2, r, acc)
  | [] => (m2, [], acc)
  end.

(** Lines 106-114, after the first iteration's [n *= shape[a1]; last = ...]:
    skip dimSize 1 axes (assert stride 0), continue while contiguous. *)
Fixpoint contig_run (n last : Z) (l : list (Z * Z)) : option (Z * Z * list (Z * Z)) :=
  match l with
  | [] => Some (n, last, [])
  | (d, s) :: r =>
      if d =? 1 then (if s =? 0 then contig_run n last r else None)
      else if last =? d * s then contig_run (n * d) s r
      else Some (n, last, l)
  end.

(** Lines 117-127. *)
Fixpoint contig_take (r : list Z) (n n2 total : Z) (acc : list Z) : Z * Z * list Z * list Z :=
  match r with
  | d :: r' =>
      if n2 * d <=? n then
        if d =? 1 then contig_take r' n n2 total (acc ++ [0])
        else contig_take r' n (n2 * d) (Z.quot total d) (acc ++ [Z.quot total d])
      else (n2, total, r, acc)
  | [] => (n2, total, [], acc)
  end.

(** Lines 132-134. *)
Definition rs_finish (r acc : list Z) : rs_result :=
  match r with [] => RS_some acc | _ => RS_assert end.

(** Lines 76-131, the outer do-while. *)
Fixpoint reshape_loop (fuel : nat) (l : list (Z * Z)) (r acc : list Z) : rs_result :=
  match fuel with
  | O => RS_fuel
  | S f =>
      let '(m, l1) := zero_run l 1 in
      let '(m2, r1, acc1) := zero_take r m 1 acc in
      if m2 <? m then RS_none else
      match l1 with
      | [] => rs_finish r1 acc1
      | (d, s) :: l1' =>
          if negb ((1 <? d) && (0 <? s)) then RS_assert else
          match contig_run d s l1' with
          | None => RS_assert
          | Some (n, last, l2) =>
              if negb (s * d =? n * last) then RS_assert else
              let '(n2, total, r2, acc2) := contig_take r1 n 1 (s * d) acc1 in
              if n2 <? n then RS_none else
              if negb (last =? total) then RS_assert else
              match l2 with
              | [] => rs_finish r2 acc2
              | _ => reshape_loop f l2 r2 acc2
              end
          end
      end
  end.

(** Strides.cpp:61-135 [reshapeStrides]. *)
Definition reshapeStrides (shape strides reshapedShape : list Z) : rs_result :=
  if negb ((length shape =? length strides)%nat
           && (getNumElements shape =? getNumElements reshapedShape)) then RS_assert
  else if areStridesContiguous shape strides then RS_some (getDefaultStrides reshapedShape)
  else if negb (1 <? getNumElements shape) then RS_assert
  else reshape_loop (S (length shape)) (combine shape strides) reshapedShape [].
