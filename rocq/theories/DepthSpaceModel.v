(** The code emitted for DepthToSpace and SpaceToDepth:
    /repo/src/Conversion/ONNXToKrnl/Tensor/DepthToSpace.cpp 32-98 and SpaceToDepth.cpp 31-82. *)
From Coq Require Import List ZArith Bool.
From Verif Require Import Util TensorSpec LoopModel GatherLoopModel ShapeOpsModel TransposeLoopModel.
Import ListNotations.
Open Scope Z_scope.

(** OnnxToKrnlBuilder::reshape, /repo/src/Conversion/ONNXToKrnl/ONNXToKrnlCommon.cpp 34-90,
    and the lowering of the Reshape it creates, Tensor/Reshape.cpp 31-68. Simplification: the
    identity case is the same view. *)
Definition reshapeBy {T} (x : mem T) (dims : list Z) : option (mem T) :=
  d <- reshapeRun (repeat None (length dims)) (mShape x) dims ;; Some (reinterpret x d).

(** DepthToSpace.cpp 32-98; [dcr]: the mode is DCR rather than CRD. [junk], [parInner] and
    [lits] are those of the Transpose in the middle. The assertion of a positive block size is
    in /repo/src/Dialect/ONNX/ONNXOps/Tensor/DepthToSpace.cpp 37-38. *)
Definition depthToSpace {T} (junk : Z) (parInner : bool) (lits : list bool) (dcr : bool) (bs : Z) (x : mem T) : option (mem T) :=
  match mShape x with
  | [B; C; H; W] =>
      if 0 <? bs then
        let newC := C / (bs * bs) in
        let '(outputDims1, perm) :=
          if dcr then ([B; bs; bs; newC; H; W], [0; 3; 4; 1; 5; 2])
          else ([B; newC; bs; bs; H; W], [0; 1; 4; 2; 5; 3]) in
        r1 <- reshapeBy x outputDims1 ;;
        t <- transposeLoop junk parInner lits (Some perm) r1 ;;
        reshapeBy t [B; newC; H * bs; W * bs]
      else None
  | _ => None
  end.
(** SpaceToDepth.cpp 31-82; the assertion of a positive block size is in
    /repo/src/Dialect/ONNX/ONNXOps/Tensor/SpaceToDepth.cpp 36. *)
Definition spaceToDepth {T} (junk : Z) (parInner : bool) (lits : list bool) (bs : Z) (x : mem T) : option (mem T) :=
  match mShape x with
  | [B; C; H; W] =>
      if 0 <? bs then
        let newH := H / bs in
        let newW := W / bs in
        r1 <- reshapeBy x [B; C; newH; bs; newW; bs] ;;
        t <- transposeLoop junk parInner lits (Some [0; 1; 3; 5; 2; 4]) r1 ;;
        reshapeBy t [B; C * (bs * bs); newH; newW]
      else None
  | _ => None
  end.
