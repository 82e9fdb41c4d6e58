(** Model of the lowering of Gemm: /repo/src/Conversion/ONNXToKrnl/Math/Gemm.cpp,
    /repo/src/Conversion/KrnlToAffine/KrnlCopyToBuffer.cpp and KrnlCopyFromBuffer.cpp.
    Not modelled: parallel loops, padding (never used here) and reuse of the storage of tile
    buffers (each is a fresh, uninitialised memref, so reading a cell that was not copied is
    an error). *)
From Coq Require Import List ZArith Lia Bool Arith.
From Verif Require Import Util TensorSpec BroadcastModel LoopModel KrnlMatmulModel.
Import ListNotations.
Open Scope Z_scope.

Section Gemm.
Context {T : Type} (add mul : T -> T -> T) (zero : T).

(** KrnlCopyToBufferLowering::matchAndRewrite and genCopyLoops, KrnlCopyToBuffer.cpp 39-198,
    for rank 2 and no padding: [bs] is the shape of the buffer, [src] the dimensions of the
    source type. *)
Definition copyToBuffer (bs : Z * Z) (source : mem T) (src : dim * dim) (starts : Z * Z) (transpose : bool) : option (mem T) :=
  let readUBs :=
    if transpose then [tileSize (snd starts) (fst bs) (snd src); tileSize (fst starts) (snd bs) (fst src)]
    else [tileSize (fst starts) (fst bs) (fst src); tileSize (snd starts) (snd bs) (snd src)] in
  iterate readUBs (fun l buff =>
    let i := nth 0 l 0 in let j := nth 1 l 0 in
    sourceVal <- load source (if transpose then [j + fst starts; i + snd starts] else [i + fst starts; j + snd starts]) ;;
    store buff l sourceVal) (alloc [fst bs; snd bs]).

(** KrnlCopyFromBufferLowering::matchAndRewrite and genCopyLoops, KrnlCopyFromBuffer.cpp
    39-133. *)
Definition copyFromBuffer (bs : Z * Z) (buff : mem T) (dst : dim * dim) (starts : Z * Z) (dest : mem T) : option (mem T) :=
  iterate [tileSize (fst starts) (fst bs) (fst dst); tileSize (snd starts) (snd bs) (snd dst)] (fun l dest =>
    destVal <- load buff l ;;
    store dest [nth 0 l 0 + fst starts; nth 1 l 0 + snd starts] destVal) dest.

(** Attributes and types: alpha and beta as constants of the element type, and how their
    float values compare with 1 and 0; the bias, if any, with its dimensions. *)
Record gemmOp := GemmOp {
  transA : bool; transB : bool; alpha : T; beta : T; alphaIsOne : bool; betaIsOne : bool; betaIsZero : bool;
  aType : dim * dim; bType : dim * dim; bias : option (mem T) }.

(** ONNXGemmOpShapeHelper::computeShape, /repo/src/Dialect/ONNX/ONNXOps/Math/Gemm.cpp 28-115:
    the three dimensions ([None]: an error is emitted). The checks of the bias dimensions
    emit errors for bad biases only and are left out. *)
Definition gemmDims (op : gemmOp) : option (dim * dim * dim) :=
  let aDims := if transA op then (snd (aType op), fst (aType op)) else aType op in
  let bDims := if transB op then (snd (bType op), fst (bType op)) else bType op in
  if lit (snd aDims) && lit (fst bDims) && negb (dval (snd aDims) =? dval (fst bDims)) then None else
  let K := if lit (snd aDims) then snd aDims else if lit (fst bDims) then fst bDims else snd aDims in
  Some (fst aDims, snd bDims, K).

(** The element of the bias for output element [ij]: Gemm.cpp 115-126 and 357-367. *)
Definition biasAt (C : mem T) (ij : list Z) : option T :=
  let cRank := length (mShape C) in
  load C (map (fun x => if 1 <? nth (x - (2 - cRank)) (mShape C) 1 then nth x ij 0 else 0) (seq (2 - cRank) cRank)).

(** genericGemm, Gemm.cpp 51-129. *)
Definition genericGemm (op : gemmOp) (A B : mem T) (I J K : dim) : option (mem T) :=
  iterate [dval I; dval J] (fun outer R =>
    let i := nth 0 outer 0 in let j := nth 1 outer 0 in
    red <- foldM (fun k rVal =>
      aVal <- load A (if transA op then [k; i] else [i; k]) ;;
      bVal <- load B (if transB op then [j; k] else [k; j]) ;;
      Some (add (mul aVal bVal) rVal)) (zrange (dval K)) zero ;;
    let res := mul (alpha op) red in
    res <- match bias op with None => Some res | Some C => c <- biasAt C outer ;; Some (add res (mul (beta op) c)) end ;;
    store R outer res) (alloc [dval I; dval J]).

(** tiledTransposedGemm, Gemm.cpp 131-378. *)
Definition iCacheTile := 32.
Definition jCacheTile := 64.
Definition kCacheTile := 256.
Definition iRegTile := 4.
Definition jRegTile := 16.
Definition mustTileR (J : dim) : bool :=
  if negb (lit J) then true else if dval J <? jRegTile then false else negb (dval J mod jRegTile =? 0).
Definition gemmSimd (enableSIMD : bool) (J : dim) : bool :=
  if lit J && (dval J <? jRegTile) then false else enableSIMD.
(** The copies of the tiles of A and B, lines 237-245 and 283-296. *)
Definition copyA (op : gemmOp) (A : mem T) (i1 k1 : Z) : option (mem T) :=
  if transA op then copyToBuffer (iCacheTile, kCacheTile) A (aType op) (k1, i1) true
  else copyToBuffer (iCacheTile, kCacheTile) A (aType op) (i1, k1) false.
Definition copyB (op : gemmOp) (B : mem T) (k1 j1 : Z) : option (mem T) :=
  if transB op then copyToBuffer (kCacheTile, jCacheTile) B (bType op) (j1, k1) true
  else copyToBuffer (kCacheTile, jCacheTile) B (bType op) (k1, j1) false.
(** The register tiles of one cache tile, lines 246-262 and 297-311; [c0], [c1] is the
    position of the first element of the result memref. *)
Definition cacheTile (archVL : Z) (simdize : bool) (aBuff bBuff : mem T) (I J K : dim) (i1 j1 k1 c0 c1 : Z) (C : mem T) : option (mem T) :=
  foldM (fun j2 C => foldM (fun i2 C =>
    krnlMatmul add mul zero archVL aBuff ([], (i1, k1)) bBuff ([], (k1, j1)) ([], (c0, c1)) (i2, j2, k1) (I, J, K) (iRegTile, jRegTile, kCacheTile) simdize C)
    (forLoop i1 (Z.min (i1 + iCacheTile) (dval I)) iRegTile) C) (forLoop j1 (Z.min (j1 + jCacheTile) (dval J)) jRegTile) C.
Definition tiledProductR (archVL : Z) (simdize : bool) (op : gemmOp) (A B : mem T) (I J K : dim) (R : mem T) : option (mem T) :=
  if mustTileR J then
    foldM (fun i1 R => foldM (fun j1 R =>
      (* the buffer of the result has the type of the A tiles *)
      rBuff <- copyToBuffer (iCacheTile, kCacheTile) R (I, J) (i1, j1) false ;;
      rBuff <- foldM (fun k1 rBuff =>
        aBuff <- copyA op A i1 k1 ;;
        bBuff <- copyB op B k1 j1 ;;
        cacheTile archVL simdize aBuff bBuff I J K i1 j1 k1 i1 j1 rBuff) (forLoop 0 (dval K) kCacheTile) rBuff ;;
      copyFromBuffer (iCacheTile, kCacheTile) rBuff (I, J) (i1, j1) R)
      (forLoop 0 (dval J) jCacheTile) R) (forLoop 0 (dval I) iCacheTile) R
  else
    foldM (fun j1 R => foldM (fun k1 R =>
      bBuff <- copyB op B k1 j1 ;;
      foldM (fun i1 R =>
        aBuff <- copyA op A i1 k1 ;;
        cacheTile archVL simdize aBuff bBuff I J K i1 j1 k1 0 0 R) (forLoop 0 (dval I) iCacheTile) R)
      (forLoop 0 (dval K) kCacheTile) R) (forLoop 0 (dval J) jCacheTile) R.
Definition hasBias (op : gemmOp) : bool := match bias op with Some _ => true | None => false end.
Definition alphaBeta (op : gemmOp) (I J : dim) (R : mem T) : option (mem T) :=
  if alphaIsOne op && (betaIsZero op || negb (hasBias op)) then Some R else
  iterate [dval I; dval J] (fun outer R =>
    res <- load R outer ;;
    let res := if alphaIsOne op then res else mul (alpha op) res in
    res <- match bias op with
           | None => Some res
           | Some C => c <- biasAt C outer ;; Some (add res (if betaIsOne op then c else mul (beta op) c))
           end ;;
    store R outer res) R.

(** matchAndRewrite, Gemm.cpp 380-438. *)
Definition lowerGemm (archVL : Z) (enableTiling enableSIMD : bool) (op : gemmOp) (A B : mem T) : option (mem T) :=
  d <- gemmDims op ;;
  let '(dimI, dimJ, dimK) := d in
  if enableTiling then
    R <- tiledProductR archVL (gemmSimd enableSIMD dimJ) op A B dimI dimJ dimK (memset [dval dimI; dval dimJ] zero) ;;
    alphaBeta op dimI dimJ R
  else genericGemm op A B dimI dimJ dimK.

End Gemm.
Arguments GemmOp {T}.
