(** Model of src/Runtime/OMUnique.c.

    Element values have a decidable equality [veqb] (memcmp of the bytes) and an
    order [vlt] (isLessNum, lines 88-120).  A pointer argument that may be NULL
    is an [option]; a buffer is a list, and a write outside it is [None].

    Simplification: the slice table [sliceDataPtr] is a list of slots, one slot
    per slice, instead of raw bytes. *)
From Coq Require Import List ZArith Bool Arith.
From Verif Require Import Util TensorSpec OMTensorLayoutModel.
Import ListNotations.
Open Scope Z_scope.

Section Unique.
Context {V : Type}.
Variables veqb vlt : V -> V -> bool.

(** memcmp(a, b, sliceSizeInBytes) == 0, lines 220-221. *)
Fixpoint sliceEq (a b : list V) : bool :=
  match a, b with
  | x :: a', y :: b' => veqb x y && sliceEq a' b'
  | [], [] => true
  | _, _ => false
  end.

(** OMUnique.c:123-135 [isLessSlice]. *)
Fixpoint isLessSlice (a b : list V) : bool :=
  match a, b with
  | x :: a', y :: b' => if veqb x y then isLessSlice a' b' else vlt x y
  | _, _ => false
  end.

(** OMUnique.c:30-40 [sliceTable]; maxNumberOfSlices is never read. *)
Record sliceTable := {
  t_sorted : bool;
  t_num : Z;                       (* numberOfSlices *)
  t_data : list (list V);          (* sliceDataPtr *)
  t_indices : option (list Z);
  t_inverse : option (list Z);
  t_counts : option (list Z)
}.

(** OMUnique.c:218-231: the search loop over the registered slices. *)
Fixpoint search (sorted : bool) (tbl : list (list V)) (slice : list V) (i : Z) : Z * bool :=
  match tbl with
  | [] => (i, false)
  | s :: r =>
      if sliceEq s slice then (i, true)
      else if sorted && negb (isLessSlice s slice) then (i, false)
      else search sorted r slice (i + 1)
  end.

(** OMUnique.c:234-242, for one of the arrays: a[j] = a[j-1] for j from
    [num] down to [ins + 1].  (The C loop interleaves the independent arrays.) *)
Definition shift {A} (a : list A) (ins num : Z) : option (list A) :=
  foldM (fun j a => v <- zget a (j - 1) ;; zset a j v) (rev (zseq (ins + 1) (Z.to_nat (num - ins)))) a.

(** An array operation skipped when the pointer is NULL. *)
Definition onPtr {A} (p : option A) (f : A -> option A) : option (option A) :=
  match p with None => Some None | Some a => b <- f a ;; Some (Some b) end.

(** OMUnique.c:243-248: renumber the inverse indices. *)
Definition renumber (inv : list Z) (off ins : Z) : option (list Z) :=
  foldM (fun j inv => v <- zget inv j ;; if ins <=? v then zset inv j (v + 1) else Some inv) (zrange off) inv.

(** OMUnique.c:209-260 [sliceTableRegister]; also returns [found]. *)
Definition sliceTableRegister (t : sliceTable) (slice : list V) (off : Z) : option (sliceTable * bool) :=
  let '(ins, found) := search (t_sorted t) (firstn (Z.to_nat (t_num t)) (t_data t)) slice 0 in
  if found then
    counts <- onPtr (t_counts t) (fun c => v <- zget c ins ;; zset c ins (v + 1)) ;;
    inverse <- onPtr (t_inverse t) (fun a => zset a off ins) ;;
    Some ({| t_sorted := t_sorted t; t_num := t_num t; t_data := t_data t; t_indices := t_indices t;
             t_inverse := inverse; t_counts := counts |}, true)
  else
    data1 <- shift (t_data t) ins (t_num t) ;;
    counts1 <- onPtr (t_counts t) (fun c => shift c ins (t_num t)) ;;
    indices1 <- onPtr (t_indices t) (fun c => shift c ins (t_num t)) ;;
    inverse1 <- onPtr (t_inverse t) (fun a => renumber a off ins) ;;
    data2 <- zset data1 ins slice ;;
    counts2 <- onPtr counts1 (fun c => zset c ins 1) ;;
    indices2 <- onPtr indices1 (fun c => zset c ins off) ;;
    inverse2 <- onPtr inverse1 (fun a => zset a off ins) ;;
    Some ({| t_sorted := t_sorted t; t_num := t_num t + 1; t_data := data2; t_indices := indices2;
             t_inverse := inverse2; t_counts := counts2 |}, false).

(** The registration loops, OMUnique.c:378-383 and 402-408. *)
Definition registerAll (slices : Z -> option (list V)) (n : Z) (t : sliceTable) : option (sliceTable * Z) :=
  foldM (fun off st =>
      let '(t, count) := st in
      s <- slices off ;;
      r <- sliceTableRegister t s off ;;
      let '(t', found) := r in
      Some (t', if found : bool then count else count + 1)) (zrange n) (t, 0).

(** Element offset of an index: sum of dim[i] * strides[i]. *)
Definition offset (strides idx : list Z) : Z := sumZ (map2 Z.mul idx strides).

(** The six nested loops, dim[5] outermost and dim[0] innermost (lines 172-177
    and 304-309); virtual unit axes contribute nothing. *)
Definition loopOrder (shape : list Z) : list (list Z) := map (@rev Z) (indices (rev shape)).

(** OMUnique.c:146-194 [getSliceData]. *)
Definition getSliceData (shape strides : list Z) (data : list V) (sliceAxis : nat) (idxInSliceAxis : Z) : option (list V) :=
  if (6 <? length shape)%nat || (length shape <=? sliceAxis)%nat then None else
  foldM (fun dim acc =>
      let tdim := upd sliceAxis idxInSliceAxis dim in
      v <- zget data (offset strides tdim) ;;
      Some (acc ++ [v])) (loopOrder (upd sliceAxis 1 shape)) [].

(** OMUnique.c:268-334 [produceY]: [count] is indicesShape[0], the length of the
    indices tensor. *)
Definition produceY (shape strides : list Z) (data : list V) (indices : list Z) (sliceAxis : nat) (Y : list V) : option (list V) :=
  if (6 <? length shape)%nat || (length shape <=? sliceAxis)%nat then None else
  let count := Z.of_nat (length indices) in
  let outShape := upd sliceAxis count shape in
  foldM (fun dim Y =>
      k <- nth_error dim sliceAxis ;;
      i <- zget indices k ;;
      let tdim := upd sliceAxis i dim in
      v <- zget data (offset strides tdim) ;;
      zset Y (offset (omStrides outShape) dim) v) (loopOrder outShape) Y.

(** OMUnique.c:348-427 [omTensorUnique] without axis (sliceAxis < 0), lines
    370-384.  Returns the total and the four output buffers. *)
Definition omTensorUniqueFlat (sorted : bool) (shape : list Z) (data : list V)
    (Y : option (list V)) (indices inverse counts : option (list Z)) (scratch : V)
    : option (Z * option (list V) * option (list Z) * option (list Z) * option (list Z)) :=
  if (6 <? length shape)%nat then None else
  let elementNum := getNumElems shape in
  (* alloca when Y is NULL *)
  let slots := match Y with Some y => map (fun v => [v]) y | None => repeat [scratch] (Z.to_nat elementNum) end in
  r <- registerAll (fun off => v <- zget data off ;; Some [v]) elementNum
         {| t_sorted := sorted; t_num := 0; t_data := slots; t_indices := indices; t_inverse := inverse; t_counts := counts |} ;;
  let '(t, count) := r in
  Some (count, match Y with Some _ => Some (concat (t_data t)) | None => None end,
        t_indices t, t_inverse t, t_counts t).

(** OMUnique.c:348-427 [omTensorUnique] with sliceAxis >= 0, lines 385-412.
    [slots] is the slice table memory: alloca'd, or the memory of Y; [tmp] is the
    temporary index buffer of line 395. *)
Definition omTensorUniqueAxis (sorted : bool) (shape strides : list Z) (data : list V) (sliceAxis : nat)
    (Y : option (list V)) (indices inverse counts : option (list Z)) (slots : list (list V)) (tmp : list Z)
    : option (Z * option (list V) * option (list Z) * option (list Z) * option (list Z)) :=
  if (6 <? length shape)%nat || (length shape <=? sliceAxis)%nat then None else
  numOfSlices <- nth_error shape sliceAxis ;;
  let indicesPtr := match Y, indices with Some _, None => Some tmp | _, _ => indices end in
  r <- registerAll (getSliceData shape strides data sliceAxis) numOfSlices
         {| t_sorted := sorted; t_num := 0; t_data := slots; t_indices := indicesPtr; t_inverse := inverse; t_counts := counts |} ;;
  let '(t, count) := r in
  Y' <- match Y with
        | Some y =>
            if 0 <? count then
              match indices, t_indices t with
              | Some _, Some ind => y' <- produceY shape strides data ind sliceAxis y ;; Some (Some y')
              | _, _ => None   (* produceY is given the NULL indices tensor, line 410 *)
              end
            else Some (Some y)
        | None => Some None
        end ;;
  Some (count, Y', match indices with Some _ => t_indices t | None => None end, t_inverse t, t_counts t).
End Unique.
Arguments sliceTable : clear implicits.
