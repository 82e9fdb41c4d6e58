(** The SIMD and parallel versions of the reduction loops:
    /repo/src/Conversion/ONNXToKrnl/Math/Reduction.cpp. *)
From Coq Require Import List ZArith Bool Arith.
From Verif Require Import Util TensorSpec BroadcastModel LoopModel GatherLoopModel ArgLoopModel ReduceLoopModel.
Import ListNotations.
Open Scope Z_scope.

(** Access functions: an offset is added to the innermost index. *)
Definition addLast (af : list Z) (d : Z) : list Z := removelast af ++ [last af 0 + d].
(** ... to the index before it (simdReduce2DIE,
    /repo/src/Dialect/Mlir/DialectBuilder.hpp.inc 562-570). *)
Definition addSecondLast (af : list Z) (d : Z) : list Z := addLast (removelast af) d ++ [last af 0].

(** VectorBuilder::mergeHigh and mergeLow, /repo/src/Dialect/Mlir/DialectBuilder.cpp
    2023-2076; [half] is 0 or VL / 2. *)
Definition shuffleMask (VL step half : nat) : list nat :=
  flat_map (fun p => map (fun e => half + p * step + e)%nat (seq 0 step) ++ map (fun e => half + VL + p * step + e)%nat (seq 0 step)) (seq 0 (VL / (2 * step))).
Definition shuffle {T} (d : T) (lhs rhs : list T) (mask : list nat) : list T := map (fun i => nth i (lhs ++ rhs) d) mask.
Definition mergeHigh {T} (d : T) (lhs rhs : list T) (step : nat) : list T := shuffle d lhs rhs (shuffleMask (length lhs) step 0).
Definition mergeLow {T} (d : T) (lhs rhs : list T) (step : nat) : list T := shuffle d lhs rhs (shuffleMask (length lhs) step (length lhs / 2)).

Section SimdReduce.
(** [pre]: the optional processing of each input. *)
Context {T : Type} (op : T -> T -> T) (identity : T) (pre : T -> T) (divideBy : option (T -> Z -> T)).

(** VectorBuilder::loadIE and storeIE, DialectBuilder.cpp 1930-2000: VL consecutive
    elements along the innermost dimension. *)
Definition vload (m : mem T) (af : list Z) (offset VL : Z) : option (list T) :=
  omap (fun k => load m (addLast af (offset + k))) (zrange VL).
Definition vstore (m : mem T) (af : list Z) (vals : list T) : option (mem T) :=
  foldM (fun kv m => store m (addLast af (fst kv)) (snd kv)) (combine (zrange (Z.of_nat (length vals))) vals) m.

(** simdReduceIE, DialectBuilder.hpp.inc 366-534: the bodies of the vector loop (418-449)
    and of the scalar loop (481-508), for several reductions at once, each with the access
    functions of its input and of its temporary. Simplification: all share one operation,
    one input memref and one temporary memref, as in all callers but the fused min/max of
    DynamicQuantizeLinear, in which each step treats the two independently. *)
Definition reduceStep (input : mem T) (afs : list (list Z * list Z)) (j VL : Z) (tmp : mem T) : option (mem T) :=
  inputVals <- omap (fun af => vload input (fst af) j VL) afs ;;
  tmpVals <- omap (fun af => vload tmp (snd af) 0 VL) afs ;;
  let resultVals := map2 (map2 (fun inputVal tmpVal => op tmpVal (pre inputVal))) inputVals tmpVals in
  foldM (fun p m => vstore m (snd (fst p)) (snd p)) (combine afs resultVals) tmp.
(** Lines 400-512; the iterations are those of simdIterateIE. *)
Definition simdReduce (input : mem T) (afs : list (list Z * list Z)) (lb ub VL : Z) (fullySimd : bool) (tmp : mem T) : option (mem T) :=
  tmp <- foldM (fun af m => vstore m (snd af) (repeat identity (Z.to_nat VL))) afs tmp ;;
  foldM (fun p m => reduceStep input afs (fst p) (snd p) m) (simdIterate lb ub VL fullySimd) tmp.
(** VectorBuilder::reduction, DialectBuilder.cpp 2078-2131 (the vector dialect leaves the
    order of the lanes open for floats; here it is left to right). *)
Definition hreduce (lanes : list T) : T := match lanes with [] => identity | x :: r => fold_left op r x end.
(** math.div by the divisor for ReduceMean. *)
Definition post (v : T) (divisor : Z) : T := match divideBy with None => v | Some div => div v divisor end.

(** emitOneStepOfFullSIMDReduction, Reduction.cpp 298-387, with one reduction: the reduced
    value, before the division, and the temporary memref. *)
Definition oneStep (input : mem T) (lb ub VL : Z) (simdOnly : bool) (t : Z) (tmp : mem T) : option (T * mem T) :=
  tmp <- simdReduce input [([0], [t * VL])] lb ub VL simdOnly tmp ;;
  lanes <- vload tmp [t * VL] 0 VL ;;
  Some (hreduce lanes, tmp).
(** emitFullSIMDReductionFor, lines 389-522, without parallelism: reduction of a whole
    tensor to a scalar. The flattening is reshapeToFlatInnermost,
    DialectBuilder.cpp 1564-1594; it asserts that the rank is positive. *)
Definition fullReduction (VL : Z) (simdOnly : bool) (input : mem T) : option (mem T) :=
  if (length (mShape input) =? 0)%nat then None else
  let n := fold_left Z.mul (mShape input) 1 in
  r <- oneStep (reinterpret input [n]) 0 n VL simdOnly 0 (alloc [VL]) ;;
  store (alloc []) [] (post (fst r) n).
(** forExplicitParallelLoopIE, /repo/src/Dialect/Krnl/DialectBuilder.cpp 328-356: the
    bounds of thread [t]. *)
Definition chunk (n tNum t : Z) : Z * Z :=
  let blockSize := - (- n / tNum) in
  (t * blockSize, Z.min (t * blockSize + blockSize) n).
(** Lines 453-515: the parallel version; the eight chunks run one after the other in the
    order [threads]. Simplification: finer interleavings are not modelled; a thread writes
    only its own section of the temporary and its own output cell. *)
Definition fullReductionParallel (VL : Z) (threads : list Z) (input : mem T) : option (mem T) :=
  if (length (mShape input) =? 0)%nat then None else
  let tNum := 8 in
  let n := fold_left Z.mul (mShape input) 1 in
  let flat := reinterpret input [n] in
  st <- foldM (fun t st =>
    r <- oneStep flat (fst (chunk n tNum t)) (snd (chunk n tNum t)) VL false t (fst st) ;;
    out <- store (snd st) [t] (fst r) ;;
    Some (snd r, out)) threads (alloc [tNum * VL], alloc [tNum]) ;;
  r <- oneStep (snd st) 0 tNum 1 false 0 (fst st) ;;
  store (alloc []) [] (post (fst r) n).

(** Lines 437-443 with findSuitableParallelDimension, ONNXToKrnlCommon.cpp 707-733: parallel
    code for a size unknown at compile time or at least 32 * VL. *)
Definition largeEnough (VL : Z) (staticSize : option Z) : bool := match staticSize with None => true | Some n => 32 * VL <=? n end.
(** [par]: None without the parallel option. *)
Definition emitFull (par : option (list Z)) (staticSize : option Z) (VL : Z) (simdOnly : bool) (input : mem T) : option (mem T) :=
  match par with
  | Some threads => if largeEnough VL staticSize then fullReductionParallel VL threads input else fullReduction VL simdOnly input
  | None => fullReduction VL simdOnly input
  end.

(** genOneHorizontalSimdReduction, lines 1103-1139: one output element [o]. *)
Definition oneHorizontal (flatInput : mem T) (ub VL : Z) (simdOnly : bool) (divisor : Z) (o : list Z) (st : mem T * mem T) : option (mem T * mem T) :=
  tmp <- simdReduce flatInput [(o ++ [0], [0; 0])] 0 ub VL simdOnly (fst st) ;;
  lanes <- vload tmp [0; 0] 0 VL ;;
  out <- store (snd st) o (post (hreduce lanes) divisor) ;;
  Some (tmp, out).
(** genHorizontalSimdReduction, lines 1144-1196. *)
Definition horizontal (flatInput : mem T) (flatOut : list Z) (ub VL : Z) (simdOnly : bool) (divisor : Z) : option (mem T) :=
  iterate flatOut (fun o out =>
    st <- oneHorizontal flatInput ub VL simdOnly divisor o (alloc [1; VL], out) ;;
    Some (snd st)) (alloc flatOut).

(** VectorBuilder::multiReduction, DialectBuilder.cpp 2141-2184, for archVL vectors: one
    round of the loop over pairs (in place), and the rounds. [fuel] bounds the number of
    rounds; [None] when it does not suffice. *)
Definition pairRound (step numPairs : nat) (tmpArray : list (list T)) : list (list T) :=
  fold_left (fun a p =>
    let l := nth (2 * p) a [] in let r := nth (2 * p + 1) a [] in
    upd p (map2 (fun high low => op low high) (mergeHigh identity l r step) (mergeLow identity l r step)) a) (seq 0 numPairs) tmpArray.
Fixpoint multiReduction (fuel VL step numPairs : nat) (tmpArray : list (list T)) : option (list T) :=
  if (step <? VL)%nat then
    match fuel with
    | O => None
    | S f => multiReduction f VL (step * 2) (numPairs / 2) (pairRound step numPairs tmpArray)
    end
  else Some (nth 0 tmpArray []).
(** simdReduce2DIE, DialectBuilder.hpp.inc 536-600, as called by
    genVlHorizontalSimdReduction, Reduction.cpp 1216-1265: VL output elements from [o]. *)
Definition vlHorizontal (flatInput : mem T) (ub VL : Z) (simdOnly : bool) (divisor : Z) (o : list Z) (st : mem T * mem T) : option (mem T * mem T) :=
  let afs := map (fun v => (addSecondLast (o ++ [0]) v, addSecondLast [0; 0] v)) (zrange VL) in
  tmp <- simdReduce flatInput afs 0 ub VL simdOnly (fst st) ;;
  redIn <- omap (fun af => vload tmp (snd af) 0 VL) afs ;;
  redOut <- multiReduction (Z.to_nat VL) (Z.to_nat VL) 1 (Z.to_nat VL / 2) redIn ;;
  out <- vstore (snd st) o (map (fun v => post v divisor) redOut) ;;
  Some (tmp, out).
(** genShuffleHorizontalSimdReduction, lines 1277-1372: the innermost output loop is blocked
    by VL; a partial last block is done one by one. isTileFull: IndexExprBuilder.cpp 447-462
    (its shortcut for a literal multiple of VL gives the same answer). *)
Definition shuffleHorizontal (flatInput : mem T) (flatOut : list Z) (ub VL : Z) (simdOnly : bool) (divisor : Z) : option (mem T) :=
  let blockedUB := last flatOut 0 in
  iterate (removelast flatOut) (fun o out =>
    foldM (fun i out =>
      st <- (if blockedUB - VL - i <? 0
             then foldM (fun k st => oneHorizontal flatInput ub VL simdOnly divisor (o ++ [k]) st) (forLoop i blockedUB 1) (alloc [VL; VL], out)
             else vlHorizontal flatInput ub VL simdOnly divisor (o ++ [i]) (alloc [VL; VL], out)) ;;
      Some (snd st)) (forLoop 0 blockedUB VL) out) (alloc flatOut).
End SimdReduce.

(** What the target and computeSuitableSimdUnrollFactor (C44) decide: the parallel option
    with the order of the threads; vector length and absence of a remainder for a full
    reduction and for one of the innermost dimensions; horizontal vector operations. *)
Record simdConfig := { parallel : option (list Z); fullVL : Z; fullSimdOnly : bool; VLof : Z; simdOnlyOf : bool; hasHorizontalSimdSupport : bool }.

(** Lines 774-783: the number of innermost reduced dimensions. *)
Fixpoint innermostReduced (litAxes : list bool) : nat := match litAxes with true :: l => S (innermostReduced l) | _ => O end.

Section Lower.
Context {T : Type} (op : T -> T -> T) (identity : T) (divideBy : option (T -> Z -> T)).

(** reshapeToFlatInnermost on a shape. *)
Definition flattenInner (s : list Z) (k : nat) : list Z := firstn (length s - k) s ++ [fold_left Z.mul (skipn (length s - k) s) 1].
(** Lines 935-950, 1144-1175 and 1277-1310. *)
Definition reduceHorizontal (c : simdConfig) (h : nat) (keepdims : bool) (outShape : list Z) (input : mem T) : option (mem T) :=
  divisor <- divisorForMean divideBy (mShape input) outShape ;;
  let flatIn := flattenInner (mShape input) h in
  let flatOut := flattenInner outShape (if keepdims then S h else 1) in
  let gen := if hasHorizontalSimdSupport c then horizontal else shuffleHorizontal in
  res <- gen op identity (fun v => v) divideBy (reinterpret input flatIn) flatOut (last flatIn 0) (VLof c) (simdOnlyOf c) divisor ;;
  Some (reinterpret res outShape).
(** The product of the dimensions as an index expression. Simplification: a factor 0 does not
    make it a literal. *)
Definition staticSize (ty : list (option Z)) : option Z :=
  fold_right (fun d n => match d, n with Some a, Some b => Some (a * b) | _, _ => None end) (Some 1) ty.
(** matchAndRewrite with enableSIMD, lines 602-990: the test for full reductions (700-712),
    the test for horizontal ones (770-835), else the scalar loops. Simplification: a full
    reduction with run-time axes is taken before the compiler looks at their values. *)
Definition reduceSimd (c : simdConfig) (ty : list (option Z)) (ax : axesArg) (keepdims noop : bool) (input : mem T) : outcome (mem T) :=
  let rank := length (mShape input) in
  let rawAxesSize := match ax with
    | AxNone => rank
    | AxLit l => length l
    | AxDyn lengthKnown axes => if lengthKnown then Z.to_nat (nth 0 (mShape axes) 0) else O
    end in
  let isFull := match ax with AxNone => true | _ => (rawAxesSize =? rank)%nat end in
  let scalar := reduceLoop op identity divideBy ty ax keepdims noop input in
  match (match ax with AxLit l => inferAxes rank l noop | _ => Some [] end) with
  | None => Rejected
  | Some _ =>
      if isFull && negb keepdims then
        ofOption (emitFull op identity (fun v => v) divideBy (parallel c) (staticSize ty) (fullVL c) (fullSimdOnly c) input)
      else match ax with
           | AxDyn _ _ => scalar
           | _ =>
               match lowerAxes rank ax noop, inferAxes rank (match ax with AxLit l => l | _ => [] end) noop with
               | Some low, Some inferred =>
                   let h := innermostReduced (rev (map (fun i => existsb (Nat.eqb i) low) (seq 0 rank))) in
                   if (0 <? h)%nat && (h =? length low)%nat && (h <? rank)%nat && (1 <? VLof c) then
                     let outType := reducedType (map (fun i => existsb (Nat.eqb i) inferred) (seq 0 rank)) keepdims ty in
                     ofOption (reduceHorizontal c h keepdims (staticOutShape outType (getReductionMapping rank low keepdims) (mShape input)) input)
                   else scalar
               | _, _ => Rejected
               end
           end
  end.
End Lower.
