(** Model of constants (DisposableElementsAttr / DenseElementsAttr) and of the
    folding operations of src/Dialect/ONNX/ElementsAttr/ElementsAttrBuilder.cpp.

    A constant is what ElementsAttrBuilder::getElementsProperties (lines
    1126-1150) returns: shape, strides, buffer, transformer.  A splat
    DenseElementsAttr is a one-element buffer with splat strides, a non-splat
    one has default strides.

    Simplifications: buffer elements are already widened ([W] stands for
    WideNum), so byte widths and BType dispatch are not represented; the
    transformer acts elementwise (it is only ever built by functionTransformer
    and composition).  Uninitialised memory is filled with an arbitrary [junk]
    value: all theorems quantify over it. *)
From Coq Require Import List ZArith Bool.
From Verif Require Import Util StridesModel.
Import ListNotations.
Open Scope Z_scope.

Section Elements.
Context {W : Type}.
Variable junk : W.

Record elements := Elements {
  e_shape : list Z;
  e_strides : list Z;
  e_buf : list W;
  e_tr : option (W -> W)
}.

Definition applyT (t : option (W -> W)) (w : W) : W :=
  match t with Some f => f w | None => w end.

(** ElementsAttrBuilder.cpp:1172-1184 [composeTransforms]. *)
Definition composeTransforms (first : option (W -> W)) (second : W -> W) : option (W -> W) :=
  match first with
  | None => Some second
  | Some f => Some (fun w => second (f w))
  end.

(** DisposableElementsAttr.cpp:255-263 [getBufferAsWideNums]. *)
Definition bufferAsWideNums (e : elements) : list W := map (applyT (e_tr e)) (e_buf e).

(** DisposableElementsAttr.cpp:80-82 [isSplat]. *)
Definition isSplat (e : elements) : bool :=
  areStridesSplat (e_strides e) && negb (match e_buf e with [] => true | _ => false end).

(** Splat value: element at flat index 0, i.e. buffer position 0. *)
Definition splatValue (e : elements) : option W := zget (bufferAsWideNums e) 0.

Definition alloc (shape : list Z) : list W := repeat junk (Z.to_nat (getNumElements shape)).

(** DisposableElementsAttr.cpp:140-147 [readWideNums]; widenArray (line 51)
    asserts equal sizes. *)
Definition readWideNums (e : elements) (dst : list W) : option (list W) :=
  if areStridesContiguous (e_shape e) (e_strides e) then
    if (length (e_buf e) =? length dst)%nat then Some (bufferAsWideNums e) else None
  else restrideArray (e_shape e) (e_strides e) (bufferAsWideNums e) dst.

(** DisposableElementsAttr.cpp:130-138 [getWideNums]. *)
Definition getWideNums (e : elements) : option (list W) :=
  if areStridesContiguous (e_shape e) (e_strides e) then Some (bufferAsWideNums e)
  else readWideNums e (alloc (e_shape e)).

(** DisposableElementsAttr.cpp:276-283 [flatIndexToBufferPos] and 265-274 [atFlatIndex]. *)
Definition flatIndexToBufferPos (e : elements) (flat : Z) : option Z :=
  if (flat =? 0) || areStridesContiguous (e_shape e) (e_strides e) then Some flat
  else if isSplat e then Some 0
  else idx <- unflattenIndex (e_shape e) flat ;; Some (getStridesPosition idx (e_strides e)).
Definition atFlatIndex (e : elements) (flat : Z) : option W :=
  p <- flatIndexToBufferPos e flat ;; zget (bufferAsWideNums e) p.

(** ElementsAttrBuilder.cpp:172-179 [fromWideNums] / 1218-1222
    [createWithDefaultStrides]: [fill] computes the row-major data. *)
Definition fromWideNums (shape : list Z) (fill : list W -> option (list W)) : option elements :=
  data <- fill (alloc shape) ;; Some (Elements shape (getDefaultStrides shape) data None).

(** ElementsAttrBuilder.cpp:1152-1166 [getWideNumsAndExpandedStrides]. *)
Definition getWideNumsAndExpandedStrides (e : elements) (xpShape : list Z)
  : option (list W * list Z) :=
  st <- expandStrides (e_strides e) xpShape ;; Some (bufferAsWideNums e, st).

(** ElementsAttrBuilder.cpp:1186-1194 [doTransform]. *)
Definition transform (e : elements) (f : W -> W) : elements :=
  Elements (e_shape e) (e_strides e) (e_buf e) (composeTransforms (e_tr e) f).

(** ElementsAttrBuilder.cpp:1196-1206 [expandAndTransform]. *)
Definition expandAndTransform (e : elements) (shape : list Z) (f : W -> W) : option elements :=
  st <- expandStrides (e_strides e) shape ;;
  Some (Elements shape st (e_buf e) (composeTransforms (e_tr e) f)).

(** ElementsAttrBuilder.cpp:485-493 [isIdentityPermutation]. *)
Definition isIdentityPermutation (perm : list nat) : bool :=
  forallb (fun p => Nat.eqb (fst p) (snd p)) (combine perm (seq 0 (length perm))).

(** ElementsAttrBuilder.cpp:495-508 [transpose]. *)
Definition transpose (e : elements) (perm : list nat) : elements :=
  if isIdentityPermutation perm then e
  else Elements (transposeDims (e_shape e) perm) (transposeDims (e_strides e) perm)
         (e_buf e) (e_tr e).

(** ElementsAttrBuilder.cpp:510-540 [reshape]. The raw-bytes path (lines
    527-533) and the WideNums path (535-537) both materialise the strided view;
    the raw path keeps "no transformer", the other applies it. *)
Definition reshape (e : elements) (r : list Z) : option elements :=
  if list_eq_dec Z.eq_dec r (e_shape e) then Some e
  else match reshapeStrides (e_shape e) (e_strides e) r with
       | RS_some st => Some (Elements r st (e_buf e) (e_tr e))
       | RS_none =>
           match e_tr e with
           | None => fromWideNums r (restrideArray (e_shape e) (e_strides e) (e_buf e))
           | Some _ => fromWideNums r (readWideNums e)
           end
       | _ => None
       end.

(** ElementsAttrBuilder.cpp:542-554 [expand]. *)
Definition expand (e : elements) (xpShape : list Z) : option elements :=
  if list_eq_dec Z.eq_dec xpShape (e_shape e) then Some e
  else st <- expandStrides (e_strides e) xpShape ;;
       Some (Elements xpShape st (e_buf e) (e_tr e)).

(** ElementsAttrBuilder.cpp:184-222 [combine]. *)
Definition combine2 (lhs rhs : elements) (shape : list Z) (f : W -> W -> W) : option elements :=
  if isSplat lhs then
    x <- splatValue lhs ;; expandAndTransform rhs shape (fun n => f x n)
  else if isSplat rhs then
    y <- splatValue rhs ;; expandAndTransform lhs shape (fun n => f n y)
  else
    l <- getWideNumsAndExpandedStrides lhs shape ;;
    r <- getWideNumsAndExpandedStrides rhs shape ;;
    fromWideNums shape (fun dst =>
      foldM (fun it d =>
        v <- (x <- zget (fst l) (off it 0) ;; y <- zget (fst r) (off it 1) ;; Some (f x y)) ;;
        zset d (flattenedIndex it) v)
      (StridesRange shape [snd l; snd r]) dst).

(** ElementsAttrBuilder.cpp:224-273 [where]; [truth w] is [w.u64 != 0]. *)
Definition where_ (truth : W -> bool) (cond lhs rhs : elements) (shape : list Z) : option elements :=
  if isSplat cond then
    c <- splatValue cond ;; expand (if truth c then lhs else rhs) shape
  else if isSplat lhs && isSplat rhs then
    x <- splatValue lhs ;; y <- splatValue rhs ;;
    expandAndTransform cond shape (fun n => if truth n then x else y)
  else
    c <- getWideNumsAndExpandedStrides cond shape ;;
    l <- getWideNumsAndExpandedStrides lhs shape ;;
    r <- getWideNumsAndExpandedStrides rhs shape ;;
    fromWideNums shape (fun dst =>
      dst1 <- restrideArray shape (snd c) (fst c) dst ;;
      foldM (fun it d =>
        res <- zget d (flattenedIndex it) ;;
        v <- (if truth res then zget (fst l) (off it 0) else zget (fst r) (off it 1)) ;;
        zset d (flattenedIndex it) v)
      (StridesRange shape [snd l; snd r]) dst1).

(** ElementsAttrBuilder.cpp:109-138 [equal]; [eqw] is the comparison of the
    narrowed values. *)
Definition equal (eqw : W -> W -> bool) (shape : list Z) (lhs rhs : elements) : option bool :=
  l <- getWideNumsAndExpandedStrides lhs shape ;;
  r <- getWideNumsAndExpandedStrides rhs shape ;;
  foldM (fun it acc =>
    x <- zget (fst l) (off it 0) ;; y <- zget (fst r) (off it 1) ;;
    Some (acc && eqw x y)) (StridesRange shape [snd l; snd r]) true.

(** ElementsAttrBuilder.cpp:141-170 [allEqual]: compares every element of the
    underlying buffer (not of the view). *)
Definition allEqual (eqw : W -> W -> bool) (e : elements) (n : W) : bool :=
  forallb (eqw n) (bufferAsWideNums e).

(** The loop header [for (offset = start; offset < limit; offset += step)]:
    the offsets visited; [None] when it would not terminate (step 0). *)
Fixpoint offsets_loop (fuel : nat) (start step limit : Z) : option (list Z) :=
  if start <? limit then
    match fuel with
    | O => None
    | S f => r <- offsets_loop f (start + step) step limit ;; Some (start :: r)
    end
  else Some [].
Definition for_offsets (start step limit : Z) : option (list Z) :=
  offsets_loop (Z.to_nat (limit - start)) start step limit.

(** std::copy_n(src + from, n, out): [n] checked reads. *)
Definition copy_n {A} (src : list A) (from n : Z) : option (list A) :=
  if (from <? 0) || (Z.of_nat (length src) <? from + n) then None
  else Some (firstn (Z.to_nat n) (skipn (Z.to_nat from) src)).

(** ElementsAttrBuilder.cpp:557-565 [splitImpl]: sequential writes through
    [out], so the output is the concatenation; the final assertion
    out == splitData.end() is checked. *)
Definition splitImpl (data : list W) (start len stride : Z) (splitData : list W) : option (list W) :=
  offs <- for_offsets start stride (Z.of_nat (length data)) ;;
  out <- foldM (fun o acc => c <- copy_n data o len ;; Some (acc ++ c)) offs [] ;;
  if (length out =? length splitData)%nat then Some out else None.

(** ElementsAttrBuilder.cpp:568-602 [split]. *)
Fixpoint split_loop (data : list W) (shape : list Z) (axis : nat) (stride substride offset : Z)
    (sizes : list Z) : option (list elements) :=
  match sizes with
  | [] => Some []
  | sz :: sizes' =>
      let splitShape := upd axis sz shape in
      let len := sz * substride in
      e <- fromWideNums splitShape (splitImpl data offset len stride) ;;
      r <- split_loop data shape axis stride substride (offset + len) sizes' ;;
      Some (e :: r)
  end.

Definition split (e : elements) (axis : nat) (sizes : list Z) : option (list elements) :=
  if negb ((axis <? length (e_shape e))%nat) then None
  else let axisSize := nth axis (e_shape e) 0 in
  if negb (sumZ sizes =? axisSize) then None
  else match sizes with
  | [] => Some []
  | [_] => Some [e]
  | _ =>
      data <- getWideNums e ;;
      let stride := getNumElements (skipn axis (e_shape e)) in
      if axisSize =? 0 then None (* size_t division by zero, line 585 *)
      else split_loop data (e_shape e) axis stride (stride / axisSize) 0 sizes
  end.

(** ElementsAttrBuilder.cpp:633-650, the copy loop of [concat] for one input:
    [items] are the remaining positions of [it]. *)
Definition concat_block (src : list W) (blk : Z) (offset : Z) (st : list W * list item)
  : option (list W * list item) :=
  foldM (fun p st =>
    let '(dst, items) := st in
    match items with
    | [] => None
    | it :: items' =>
        v <- zget src (off it 0) ;;
        dst' <- zset dst (offset + p) v ;;
        Some (dst', items')
    end) (zrange blk) st.

Definition concat_input (postN outBlockLen : Z) (axis : nat) (e : elements)
    (st : list W * Z) : option (list W * Z) :=
  let '(dst, start) := st in
  let blk := nth axis (e_shape e) 0 * postN in
  offs <- for_offsets start outBlockLen (Z.of_nat (length dst)) ;;
  r <- foldM (concat_block (bufferAsWideNums e) blk) offs
         (dst, StridesRange (e_shape e) [e_strides e]) ;;
  match r with
  | (dst', []) => Some (dst', start + blk)
  | _ => None (* assert(it == range.end()) *)
  end.

(** ElementsAttrBuilder.cpp:604-654 [concat]. *)
Definition concat (elms : list elements) (axis : nat) : option elements :=
  match elms with
  | [] => None
  | first :: rest =>
      let firstShape := e_shape first in
      if negb (axis <? length firstShape)%nat then None
      else match rest with
      | [] => Some first
      | _ =>
          if negb (forallb (fun e =>
               (length (e_shape e) =? length firstShape)%nat
               && forallb (fun a => (a =? axis)%nat || (nth a (e_shape e) 0 =? nth a firstShape 0))
                    (seq 0 (length firstShape))) rest) then None
          else
            let outAxis := sumZ (map (fun e => nth axis (e_shape e) 0) elms) in
            let outShape := upd axis outAxis firstShape in
            let postN := getNumElements (skipn (axis + 1) outShape) in
            fromWideNums outShape (fun dst =>
              r <- foldM (concat_input postN (outAxis * postN) axis) elms (dst, 0) ;;
              Some (fst r))
      end
  end.

(** ElementsAttrBuilder.cpp:656-671 [slice]. *)
Definition slice (e : elements) (shape starts steps : list Z) : option elements :=
  fromWideNums shape (fun dst =>
    let src := bufferAsWideNums e in
    let start := sumZ (map2 Z.mul starts (e_strides e)) in
    let strides := map2 Z.mul (e_strides e) steps in
    foldM (fun it d => v <- zget src (start + off it 0) ;; zset d (flattenedIndex it) v)
      (StridesRange shape [strides]) dst).

(** ElementsAttrBuilder.cpp:717-724: (betweenRowsPads, (beginPad, endPad), multiplier). *)
Fixpoint pad_setup (outShape left right : list Z) : list Z * (Z * Z) * Z :=
  match outShape, left, right with
  | o :: os, l :: ls, r :: rs =>
      let '(btw, (b, e), mult) := pad_setup os ls rs in
      let b' := b + l * mult in
      let e' := e + r * mult in
      ((b' + e') :: btw, (b', e'), mult * o)
  | _, _, _ => ([], (0, 0), 1)
  end.

(** Lines 744-746: lastZero. *)
Fixpoint last_zero (index : list Z) (n : nat) : nat :=
  match n with
  | O => O
  | S m => if nth m index 0 =? 0 then last_zero index m else n
  end.

Definition fill_n (n : Z) (v : W) : list W := repeat v (Z.to_nat n).

(** Lines 735-748: the row loop; [out] collects the sequential writes. *)
Fixpoint pad_rows (fuel : nat) (src : list W) (numCols : Z) (rank : nat) (btw : list Z) (v : W)
    (items : list item) (out : list W) : option (list W) :=
  match fuel with
  | O => None
  | S f =>
      if Z.of_nat (length items) <? numCols then None
      else
        let n := Z.to_nat numCols in
        out1 <- foldM (fun it o => x <- zget src (off it 0) ;; Some (o ++ [x])) (firstn n items) out ;;
        match skipn n items with
        | [] => Some out1
        | it :: _ =>
            let lz := last_zero (it_index it) (rank - 1) in
            pad_rows f src numCols rank btw v (skipn n items) (out1 ++ fill_n (nth lz btw 0) v)
        end
  end.

(** ElementsAttrBuilder.cpp:685-753 [pad]. *)
Definition pad (e : elements) (pads : list Z) (v : W) : option elements :=
  let rank := length (e_shape e) in
  match rank with
  | O => Some e
  | _ =>
      let left := firstn rank pads in
      let right := skipn (length pads - rank) pads in
      let outShape := map2 Z.add (e_shape e) (map2 Z.add left right) in
      if getNumElements (e_shape e) =? 0 then
        Some (Elements outShape (getSplatStrides outShape) [v] None)
      else fromWideNums outShape (fun dst =>
        let '(btw, (b, en), _) := pad_setup outShape left right in
        out <- pad_rows (S (Z.to_nat (getNumElements (e_shape e)))) (bufferAsWideNums e)
                 (last (e_shape e) 0) rank btw v
                 (StridesRange (e_shape e) [e_strides e]) (fill_n b v) ;;
        let out' := out ++ fill_n en v in
        if (length out' =? length dst)%nat then Some out' else None)
  end.

(** Write a block: std::copy_n(in, n, out + offset). *)
Definition write_block {A} (dst : list A) (offset : Z) (vs : list A) : option (list A) :=
  foldM (fun kv d => zset d (offset + fst kv) (snd kv)) (List.combine (zrange (Z.of_nat (length vs))) vs) dst.

(** ElementsAttrBuilder.cpp:784-791, loop body of [gather] for one index. *)
Definition gather_one (src : list W) (axisSize postN outBlockLen : Z) (idx : Z)
    (st : list W * Z) : option (list W * Z) :=
  let '(dst, start) := st in
  let adj := if idx <? 0 then idx + axisSize else idx in
  offs <- for_offsets start outBlockLen (Z.of_nat (length dst)) ;;
  r <- foldM (fun o st =>
         let '(d, inp) := st in
         c <- copy_n src inp postN ;;
         d' <- write_block d o c ;;
         Some (d', inp + axisSize * postN)) offs (dst, adj * postN) ;;
  Some (fst r, start + postN).

(** ElementsAttrBuilder.cpp:755-793 [gather]; [toZ] is the int64 value of an
    index element. *)
Definition gather (toZ : W -> Z) (input indices : elements) (axis : nat) : option elements :=
  let shape := e_shape input in
  if negb (axis <? length shape)%nat then None
  else
    let post := skipn (axis + 1) shape in
    let outShape := firstn axis shape ++ e_shape indices ++ post in
    fromWideNums outShape (fun dst =>
      let postN := getNumElements post in
      src <- getWideNums input ;;
      ind <- getWideNums indices ;;
      r <- foldM (gather_one src (nth axis shape 0) postN (Z.of_nat (length ind) * postN))
             (map toZ ind) (dst, 0) ;;
      Some (fst r)).

(** ElementsAttrBuilder.cpp:823-834, one slice of [scatterND].  [idxs] are
    reinterpreted as uint64_t: negative indices are not normalised; the
    position wraps modulo 2^64, so a negative coordinate contributes its
    negative value to [pos]. *)
Definition scatter_one (upd_src : list W) (sliceSize : Z) (sliceStrides : list Z) (idxs : list Z)
    (st : list W * list item) : option (list W * list item) :=
  r <- foldM (fun _ (st : list W * list item * Z) =>
         let '(dst, items, pos) := st in
         match items with
         | [] => None
         | it :: items' =>
             v <- zget upd_src (off it 0) ;;
             dst' <- zset dst pos v ;;
             Some (dst', items', pos + 1)
         end) (zrange sliceSize) (st, getStridesPosition idxs sliceStrides) ;;
  Some (fst r).

Fixpoint chunks {A} (n : nat) (k : nat) (l : list A) : list (list A) :=
  match n with O => [] | S m => firstn k l :: chunks m k (skipn k l) end.

(** ElementsAttrBuilder.cpp:795-839 [scatterND]. *)
Definition scatterND (toZ : W -> Z) (input indices updates : elements) : option elements :=
  fromWideNums (e_shape input) (fun dst0 =>
    let nd := Z.to_nat (last (e_shape indices) 0) in
    let outer := removelast (e_shape indices) in
    let nSlices := getNumElements outer in
    let sliceSize := getNumElements (skipn (length outer) (e_shape updates)) in
    let sliceStrides := firstn nd (getDefaultStrides (e_shape input)) in
    dst <- readWideNums input dst0 ;;
    ind <- getWideNums indices ;;
    r <- foldM (scatter_one (bufferAsWideNums updates) sliceSize sliceStrides)
           (chunks (Z.to_nat nSlices) nd (map toZ ind))
           (dst, StridesRange (e_shape updates) [e_strides updates]) ;;
    match r with
    | (d, []) => Some d
    | _ => None (* assert(updatesIter == updatesRange.end()) *)
    end).

(** ElementsAttrBuilder.cpp:1071-1085 [range]. *)
Fixpoint range_loop (add : W -> W -> W) (delta x : W) (n : nat) : list W :=
  match n with O => [] | S m => x :: range_loop add delta (add x delta) m end.
Definition range (add : W -> W -> W) (shape : list Z) (start delta : W) : option elements :=
  fromWideNums shape (fun dst => Some (range_loop add delta start (length dst))).

(** ElementsAttrBuilder.cpp:1094-1106 [nonZeroIndices]. *)
Definition nonZeroIndices (isZero : W -> bool) (e : elements) : option (list Z) :=
  foldM (fun it acc =>
    v <- atFlatIndex e (flattenedIndex it) ;;
    Some (if isZero v then acc else acc ++ it_index it)) (StridesRange (e_shape e) []) [].

(** ElementsAttrBuilder.cpp:1108-1123 [nonZero]: the shape of the result and
    its int64 content; [None] for rank 0 is the division [% rank]. *)
Definition nonZero (isZero : W -> bool) (e : elements) : option (list Z * list Z) :=
  ind <- nonZeroIndices isZero e ;;
  let rank := Z.of_nat (length (e_shape e)) in
  if rank =? 0 then None
  else if negb (Z.of_nat (length ind) mod rank =? 0) then None
  else
    let count := Z.of_nat (length ind) / rank in
    dst <- foldM (fun i d => foldM (fun j d =>
              v <- zget ind (i * rank + j) ;; zset d (j * count + i) v) (zrange rank) d)
             (zrange count) (repeat 0 (Z.to_nat (rank * count))) ;;
    Some ([rank; count], dst).

(** mlir::OpTrait::util::getBroadcastedShape on static shapes (MLIR library,
    called at ElementsAttrBuilder.cpp:1010): right-aligned, 1 stretches, unequal
    dimensions are incompatible.  [broadcast_rev] works on reversed shapes. *)
Fixpoint broadcast_rev (a b : list Z) : option (list Z) :=
  match a, b with
  | [], _ => Some b
  | _, [] => Some a
  | x :: a', y :: b' =>
      r <- broadcast_rev a' b' ;;
      if x =? y then Some (x :: r)
      else if x =? 1 then Some (y :: r)
      else if y =? 1 then Some (x :: r)
      else None
  end.
Definition getBroadcastedShape (a b : list Z) : option (list Z) :=
  r <- broadcast_rev (rev a) (rev b) ;; Some (rev r).

(** drop_back(n). *)
Definition drop_back (n : nat) (l : list Z) : list Z := firstn (length l - n) l.

(** ElementsAttrBuilder.cpp:1018-1030: elements of the left operand, its
    strides in the outer loop, and its stride along the reduction axis. *)
Definition matMul_lhs (lhs : elements) (c : list Z) (M K : Z) : option (list W * list Z * Z) :=
  let isVec := (length (e_shape lhs) =? 1)%nat in
  l <- getWideNumsAndExpandedStrides lhs (c ++ (if isVec then [] else [M]) ++ [K]) ;;
  let st := if isVec then firstn (length (snd l) - 1) (snd l) ++ 0 :: skipn (length (snd l) - 1) (snd l)
            else snd l in
  let matMulRank := (length c + 2)%nat in
  if negb (length st =? matMulRank)%nat then None
  else Some (fst l, upd (matMulRank - 1) 0 st, nth (matMulRank - 1) st 0).

(** ElementsAttrBuilder.cpp:1032-1045, likewise for the right operand. *)
Definition matMul_rhs (rhs : elements) (c : list Z) (K N : Z) : option (list W * list Z * Z) :=
  let isVec := (length (e_shape rhs) =? 1)%nat in
  r <- getWideNumsAndExpandedStrides rhs (c ++ [K] ++ (if isVec then [] else [N])) ;;
  let st := if isVec then snd r ++ [0] else snd r in
  let matMulRank := (length c + 2)%nat in
  if negb (length st =? matMulRank)%nat then None
  else Some (fst r, upd (matMulRank - 2) 0 st, nth (matMulRank - 2) st 0).

(** ElementsAttrBuilder.cpp:957-1069 [matMul]; [zero], [add], [mul] are the
    arithmetic of the element type. *)
Definition matMul (zero : W) (add mul : W -> W -> W) (lhs rhs : elements) : option elements :=
  let lhsShape := e_shape lhs in
  let rhsShape := e_shape rhs in
  let lhsRank := length lhsShape in
  let rhsRank := length rhsShape in
  if ((lhsRank =? 0) || (rhsRank =? 0))%nat then None
  else
    let M := if (lhsRank =? 1)%nat then 1 else nth (lhsRank - 2) lhsShape 0 in
    let N := if (rhsRank =? 1)%nat then 1 else nth (rhsRank - 1) rhsShape 0 in
    let K := nth (lhsRank - 1) lhsShape 0 in
    if negb (K =? nth (if (rhsRank =? 1)%nat then 0 else rhsRank - 2)%nat rhsShape 0) then None
    else
      c <- getBroadcastedShape (drop_back (if (lhsRank =? 1)%nat then 1 else 2) lhsShape)
             (drop_back (if (rhsRank =? 1)%nat then 1 else 2) rhsShape) ;;
      l <- matMul_lhs lhs c M K ;;
      r <- matMul_rhs rhs c K N ;;
      let '(lnums, lst, lstep) := l in
      let '(rnums, rst, rstep) := r in
      let resultShape := c ++ (if (lhsRank =? 1)%nat then [] else [M]) ++ (if (rhsRank =? 1)%nat then [] else [N]) in
      fromWideNums resultShape (fun dst =>
        foldM (fun it d =>
          v <- (acc <- foldM (fun _ (st : W * Z * Z) =>
                   let '(acc, lp, rp) := st in
                   x <- zget lnums lp ;;
                   y <- zget rnums rp ;;
                   Some (add acc (mul x y), lp + lstep, rp + rstep))
                 (zrange K) (zero, off it 0, off it 1) ;;
                Some (fst (fst acc))) ;;
          zset d (flattenedIndex it) v)
        (StridesRange (c ++ [M; N]) [lst; rst]) dst).

End Elements.

Arguments elements : clear implicits.
