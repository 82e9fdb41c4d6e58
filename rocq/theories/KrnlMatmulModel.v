(** The krnl.matmul tile computation and the lowerings of MatMul that use it.
    [None] is undefined behaviour, as in LoopModel.v, or a failed assertion of the compiler.
    Simplifications: the loops marked parallel by tryCreateKrnlParallel run in order; fma is
    a multiplication followed by an addition; the temporaries TmpC and TmpProd of
    KrnlMatmul.cpp (one cell per unrolled iteration) are the loop-carried value itself, so
    unrolling and jamming, which only reorders iterations on distinct temporaries, is not
    modelled. *)
From Coq Require Import List ZArith Bool.
From Verif Require Import Util TensorSpec TensorLemmas BroadcastModel LoopModel GatherLoopModel ReduceLoopModel SimdReduceModel.
Import ListNotations.
Open Scope Z_scope.

(** A dimension of a type: its value at run time and whether the compiler knows it
    (IndexExpr::isLiteral). *)
Record dim := Dim { lit : bool; dval : Z }.

(** IndexExprBuilder::isTileFull, partialTileSize and tileSize,
    /repo/src/Dialect/Mlir/IndexExprBuilder.cpp 447-500. [i]: first index of the tile. *)
Definition isTileFull (i block : Z) (UB : dim) : bool :=
  if lit UB && (dval UB mod block =? 0) then true else 0 <=? dval UB - block - i.
Definition partialTileSize (i block : Z) (UB : dim) : Z :=
  if lit UB then dval UB mod block else dval UB - i.
Definition tileSize (i block : Z) (UB : dim) : Z :=
  if lit UB && (dval UB mod block =? 0) then block else Z.min (dval UB - i) block.

(** The outer loop of krnl.block with tile size [block] (KrnlBuilder::block and
    blockAndPermute, /repo/src/Dialect/Krnl/DialectBuilder.cpp 131-184): a loop with a step,
    which must be positive. *)
Definition blocked (lb ub block : Z) : option (list Z) := if block <=? 0 then None else Some (forLoop lb ub block).

Section Matmul.
Context {T : Type} (add mul : T -> T -> T) (zero : T).

(** A position in a memref of rank at least two: leading indices and the last two. *)
Definition start := (list Z * (Z * Z))%type.
(** The access functions of loadIE / storeIE: start plus two offsets. *)
Definition access (s : start) (x y : Z) : list Z := fst s ++ [fst (snd s) + x; snd (snd s) + y].

(** VectorBuilder::loadIE and storeIE, /repo/src/Dialect/Mlir/DialectBuilder.cpp 1930-2000:
    VL consecutive elements of the row-major storage from an index on. *)
Definition vloadAt (m : mem T) (idx : list Z) (VL : Z) : option (list T) :=
  omap (fun l => load (reinterpret m [size (mShape m)]) [rm (mShape m) idx + l]) (zrange VL).
Definition storeFlat (m : mem T) (off : Z) (v : T) : option (mem T) :=
  if (0 <=? off) && (off <? size (mShape m)) then store m (unrm (mShape m) off) v else None.
Definition vstoreAt (m : mem T) (idx : list Z) (vals : list T) : option (mem T) :=
  foldM (fun lv m => storeFlat m (rm (mShape m) idx + fst lv) (snd lv)) (combine (zrange (Z.of_nat (length vals))) vals) m.

(** genScalar, /repo/src/Conversion/KrnlToAffine/KrnlMatmul.cpp 312-400. *)
Definition genScalar (A B : mem T) (aStart bStart cStart : start) (I J K : Z) (C : mem T) : option (mem T) :=
  foldM (fun i C => foldM (fun j C =>
    initVal <- load C (access cStart i j) ;;
    finalVal <- foldM (fun k tmpC =>
      a <- load A (access aStart i k) ;;
      b <- load B (access bStart k j) ;;
      Some (add (mul a b) tmpC)) (zrange K) initVal ;;
    store C (access cStart i j) finalVal) (zrange J) C) (zrange I) C.

(** genSimdMatMat, lines 510-606, with J = vectorLen, as in both calls: a row of VL results
    at a time. *)
Definition genSimdMatMat (A B : mem T) (aStart bStart cStart : start) (I K VL : Z) (C : mem T) : option (mem T) :=
  foldM (fun i C =>
    initVal <- vloadAt C (access cStart i 0) VL ;;
    tmpResults <- foldM (fun k tmpVal =>
      a <- load A (access aStart i k) ;;
      vb <- vloadAt B (access bStart k 0) VL ;;
      Some (map2 (fun b t => add (mul a b) t) vb tmpVal)) (zrange K) initVal ;;
    vstoreAt C (access cStart i 0) tmpResults) (zrange I) C.

(** genSimdMatVect, lines 405-508: VL partial sums for each of the I rows, then the parallel
    reductions of VL vectors at a time (VectorBuilder::multiReduction, DialectBuilder.cpp
    2141-2184). *)
Definition genSimdMatVect (A B : mem T) (aStart bStart cStart : start) (I K VL : Z) (C : mem T) : option (mem T) :=
  vProdList <- foldM (fun k tmpProd =>
    vb <- vloadAt B (access bStart k 0) VL ;;
    omap (fun it =>
      va <- vloadAt A (access aStart (fst it) k) VL ;;
      Some (map2 add (map2 mul va vb) (snd it))) (combine (zrange I) tmpProd))
    (forLoop 0 K VL) (repeat (repeat zero (Z.to_nat VL)) (Z.to_nat I)) ;;
  foldM (fun i C =>
    red <- multiReduction add zero (Z.to_nat VL) (Z.to_nat VL) 1 (Z.to_nat VL / 2) (firstn (Z.to_nat VL) (skipn (Z.to_nat (i * VL)) vProdList)) ;;
    vc <- vloadAt C (access cStart (i * VL) 0) VL ;;
    vstoreAt C (access cStart (i * VL) 0) (map2 add vc red)) (zrange (I / VL)) C.

(** KrnlMatmulLowering::matchAndRewrite, lines 52-287, with literal compute tile sizes
    (all callers give them). [aMem], [bMem], [cMem]: the position, in the coordinates of the
    whole product, of the first element of each memref. *)
Definition krnlMatmul (archVL : Z) (A : mem T) (aMem : start) (B : mem T) (bMem : start) (cMem : start)
    (computeStart : Z * Z * Z) (ubs : dim * dim * dim) (tiles : Z * Z * Z) (simdize : bool) (C : mem T) : option (mem T) :=
  let '(i0, j0, k0) := computeStart in
  let '(iUB, jUB, kUB) := ubs in
  let '(ti, tj, tk) := tiles in
  let matVectorProduct := lit jUB && (dval jUB =? 1) in
  let simdize := simdize && (if matVectorProduct then (ti mod archVL =? 0) && (tk mod archVL =? 0) else true) in
  let aStart := (fst aMem, (i0 - fst (snd aMem), k0 - snd (snd aMem))) in
  let bStart := (fst bMem, (k0 - fst (snd bMem), j0 - snd (snd bMem))) in
  let cStart := (fst cMem, (i0 - fst (snd cMem), j0 - snd (snd cMem))) in
  let allFullTiles := isTileFull i0 ti iUB && isTileFull j0 tj jUB && isTileFull k0 tk kUB in
  let iTrip := tileSize i0 ti iUB in
  let jTrip := tileSize j0 tj jUB in
  let kTrip := tileSize k0 tk kUB in
  if simdize then
    if matVectorProduct then
      if allFullTiles then genSimdMatVect A B aStart bStart cStart ti tk archVL C
      else genScalar A B aStart bStart cStart iTrip jTrip kTrip C
    else
      if allFullTiles then genSimdMatMat A B aStart bStart cStart ti tk tj C
      else if isTileFull j0 tj jUB then genSimdMatMat A B aStart bStart cStart iTrip kTrip tj C
      else genScalar A B aStart bStart cStart iTrip (partialTileSize j0 tj jUB) kTrip C
  else
    if allFullTiles then genScalar A B aStart bStart cStart ti tj tk C
    else genScalar A B aStart bStart cStart iTrip jTrip kTrip C.

(** ** /repo/src/Conversion/ONNXToKrnl/Math/MatMul.cpp *)

(** computeTileSizeForMatMatProduct, lines 143-213. *)
Definition matMatTiles (dimI dimJ dimK : dim) (simdize : bool) : Z * Z * Z * bool :=
  let iRegTile := if lit dimI && (dval dimI <? 4) then dval dimI else 4 in
  let jRegTile :=
    if lit dimJ then
      if dval dimJ =? 1 then 1
      else if negb (dval dimJ mod 8 =? 0) && (dval dimJ mod 4 =? 0) && (dval dimJ <=? 32) then 4 else 8
    else 8 in
  let simdize := if lit dimJ && (dval dimJ <? jRegTile) then false else simdize in
  let kRegTile := if lit dimK && (dval dimK <? 8) then dval dimK else 8 in
  (iRegTile, jRegTile, kRegTile, simdize).

(** computeTileSizeForMatVectProduct, lines 217-272. *)
Definition matVectTiles (VL : Z) (dimI dimK : dim) (simdize : bool) : Z * Z * Z * bool :=
  let '(kRegTile, simdize) :=
    if lit dimK then
      let k := dval dimK / VL * VL in
      if 64 * VL <? k then (64 * VL, simdize) else if k <? VL then (1, false) else (k, simdize)
    else (16 * VL, simdize) in
  let '(iRegTile, simdize) :=
    if lit dimI && (dval dimI <? 2 * VL) then
      let i := dval dimI / VL * VL in
      if i <? VL then (1, false) else (i, simdize)
    else (2 * VL, simdize) in
  (iRegTile, 1, kRegTile, simdize).

Definition tilesFor (archVL : Z) (dimI dimJ dimK : dim) (simdize : bool) : Z * Z * Z * bool :=
  if lit dimJ && (dval dimJ =? 1) then matVectTiles archVL dimI dimK simdize else matMatTiles dimI dimJ dimK simdize.

(** The blocked loops, lines 309-328 and 400-440. *)
Definition tiledProduct (archVL : Z) (enableSIMD : bool) (A B : mem T) (aPre bPre cPre : list Z) (I J K : dim) (C : mem T) : option (mem T) :=
  let '(ti, tj, tk, simdize) := tilesFor archVL I J K enableSIMD in
  is <- blocked 0 (dval I) ti ;; js <- blocked 0 (dval J) tj ;; ks <- blocked 0 (dval K) tk ;;
  foldM (fun i0 C => foldM (fun j0 C => foldM (fun k0 C =>
    krnlMatmul archVL A (aPre, (0, 0)) B (bPre, (0, 0)) (cPre, (0, 0)) (i0, j0, k0) (I, J, K) (ti, tj, tk) simdize C) ks C) js C) is C.

(** krnl.memset. *)
Definition memset (s : list Z) (v : T) : mem T := Mem s (fun _ => Some v).

(** ONNXGenericMatMulOpShapeHelper::computeShape,
    /repo/src/Dialect/ONNX/ONNXOps/Math/MatMul.cpp 45-167: the padded dimensions and which of
    them are padding, and the output dimensions ([None]: an error is emitted). *)
Definition padA (aDims : list dim) (paddedRank : nat) : list (dim * bool) :=
  repeat (Dim true 1, true) (paddedRank - length aDims) ++ map (fun d => (d, false)) aDims.
Definition padB (bDims : list dim) (paddedRank : nat) : list (dim * bool) :=
  if (length bDims =? 1)%nat
  then repeat (Dim true 1, true) (paddedRank - 2) ++ map (fun d => (d, false)) bDims ++ [(Dim true 1, true)]
  else repeat (Dim true 1, true) (paddedRank - length bDims) ++ map (fun d => (d, false)) bDims.
Definition isOne (d : dim) : bool := lit d && (dval d =? 1).
Definition batchDim (a b : dim) : option dim :=
  if isOne a then Some b
  else if isOne b then Some a
  else if lit a && lit b then if dval a =? dval b then Some a else None
  else if lit a then Some a
  else if lit b then Some b
  else Some a.
Definition matmulDims (aDims bDims : list dim) : option (list (dim * bool) * list (dim * bool) * list dim) :=
  let paddedRank := Nat.max (Nat.max (length aDims) (length bDims)) 2 in
  let a := padA aDims paddedRank in
  let b := padB bDims paddedRank in
  let d := (Dim true 1, true) in
  batch <- omap (fun i => batchDim (fst (nth i a d)) (fst (nth i b d))) (seq 0 (paddedRank - 2)) ;;
  let aN := nth (paddedRank - 2) a d in let aK := fst (nth (paddedRank - 1) a d) in
  let bK := fst (nth (paddedRank - 2) b d) in let bM := nth (paddedRank - 1) b d in
  if lit aK && lit bK && negb (dval aK =? dval bK) then None else
  Some (a, b, batch ++ (if snd aN then [] else [fst aN]) ++ (if snd bM then [] else [fst bM])).

(** replaceGenericMatmul, MatMul.cpp 49-141: the access functions and the loops. *)
Definition genericAccessA (a : list (dim * bool)) (outer : list Z) (k : Z) : list Z :=
  let aRank := length a in
  flat_map (fun i => if snd (nth i a (Dim true 1, true)) then [] else if (i =? aRank - 1)%nat then [k] else [nth i outer 0]) (seq 0 aRank).
Definition genericAccessB (b : list (dim * bool)) (outer : list Z) (k : Z) : list Z :=
  let bRank := length b in
  flat_map (fun i => if snd (nth i b (Dim true 1, true)) then [] else if (i =? bRank - 2)%nat then [k]
                     else if (i =? length outer)%nat then [nth (i - 1) outer 0] else [nth i outer 0]) (seq 0 bRank).
Definition genericMatmul (A B : mem T) (a b : list (dim * bool)) (outDims : list dim) : option (mem T) :=
  let innerUb := dval (fst (nth (length a - 1) a (Dim true 1, true))) in
  iterate (map dval outDims) (fun outer C =>
    acc <- foldM (fun k acc =>
      loadedA <- load A (genericAccessA a outer k) ;;
      loadedB <- load B (genericAccessB b outer k) ;;
      Some (add acc (mul loadedA loadedB))) (zrange innerUb) zero ;;
    store C outer acc) (alloc (map dval outDims)).

(** replace2x2Matmul2d (lines 278-330). *)
Definition matmul2d (archVL : Z) (enableSIMD : bool) (A B : mem T) (aDims outDims : list dim) : option (mem T) :=
  let d := Dim true 1 in
  tiledProduct archVL enableSIMD A B [] [] [] (nth 0 outDims d) (nth 1 outDims d) (nth 1 aDims d) (memset (map dval outDims) zero).
(** replace2x2Matmul2dBroadcasting (lines 336-430). *)
Definition matmulBroadcasting (archVL : Z) (enableSIMD broadcastingB sameStaticBroadcast : bool) (A B : mem T) (aDims bDims outDims : list dim) : option (mem T) :=
  let d := Dim true 1 in
  (* shapeHelper.aDims and bDims both have the padded rank *)
  let broadcastRank := (Nat.max (length aDims) (length bDims) - 2)%nat in
  let I := nth broadcastRank outDims d in
  let J := nth (broadcastRank + 1) outDims d in
  let K := if sameStaticBroadcast then nth broadcastRank bDims d else if broadcastingB then nth 1 aDims d else nth 0 bDims d in
  iterate (map dval (firstn broadcastRank outDims)) (fun b C =>
    tiledProduct archVL enableSIMD A B (if sameStaticBroadcast || negb broadcastingB then b else [])
      (if sameStaticBroadcast || broadcastingB then b else []) b I J K C) (memset (map dval outDims) zero).

(** matchAndRewrite, lines 438-530. [sameDim i]: what DimAnalysis::sameDim answers for the
    batch dimensions numbered [i] of A and B (its soundness is C53). *)
Definition lowerMatmul (archVL : Z) (enableTiling enableSIMD : bool) (sameDim : nat -> bool) (aDims bDims : list dim) (A B : mem T) : option (mem T) :=
  p <- matmulDims aDims bDims ;;
  let '(a, b, outDims) := p in
  let aRank := length aDims in let bRank := length bDims in
  if enableTiling && (aRank =? 2)%nat && (bRank =? 2)%nat then matmul2d archVL enableSIMD A B aDims outDims
  else if enableTiling && (aRank =? 2)%nat && (2 <? bRank)%nat then matmulBroadcasting archVL enableSIMD true false A B aDims bDims outDims
  else if enableTiling && (2 <? aRank)%nat && (bRank =? 2)%nat then matmulBroadcasting archVL enableSIMD false false A B aDims bDims outDims
  else if enableTiling && (2 <? aRank)%nat && (aRank =? bRank)%nat && forallb sameDim (seq 0 (aRank - 2))
  then matmulBroadcasting archVL enableSIMD true true A B aDims bDims outDims
  else genericMatmul A B a b outDims.

End Matmul.
