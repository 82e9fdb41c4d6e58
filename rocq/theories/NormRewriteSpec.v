(** Normalizations of ONNX, for their rewriting. [nrm l x] is the normalized [x], [l] being the elements
    normalized together: (x - mean l) / sqrt (variance l + epsilon), or any other function. *)
From Coq Require Import List ZArith.
From Verif Require Import Util TensorSpec ShapeOpsModel BroadcastSpec.
Import ListNotations.
Open Scope Z_scope.

Section Norm.
Context {A : Type}.
Variables (nrm : list A -> A -> A) (add mul : A -> A -> A).

(** LayerNormalization: the elements that agree on the dims before [axis] are normalized together. *)
Definition layerNormed (axis : nat) (x scale : tensor A) (idx : list Z) : A :=
  mul (nrm (map (fun r => tAt x (firstn axis idx ++ r)) (indices (skipn axis (tShape x)))) (tAt x idx)) (tAt scale (bindex (tShape scale) idx)).
Definition isLayerNorm (axis : nat) (x scale : tensor A) (bias : option (tensor A)) (y : tensor A) : Prop :=
  tShape y = tShape x /\ broadcast [tShape x; tShape scale] (tShape x) /\
  match bias with
  | None => forall idx, valid (tShape x) idx -> tAt y idx = layerNormed axis x scale idx
  | Some b => broadcast [tShape x; tShape b] (tShape x) /\
      forall idx, valid (tShape x) idx -> tAt y idx = add (layerNormed axis x scale idx) (tAt b (bindex (tShape b) idx))
  end.

(** The second result of LayerNormalization, [mean] of what is normalized together. *)
Definition isLayerMean (mean : list A -> A) (axis : nat) (x m : tensor A) : Prop :=
  tShape m = firstn axis (tShape x) ++ map (fun _ => 1) (skipn axis (tShape x)) /\
  forall idx, valid (tShape m) idx -> tAt m idx = mean (map (fun r => tAt x (firstn axis idx ++ r)) (indices (skipn axis (tShape x)))).

(** InstanceNormalization: x is (batch, channel, D1, ..., Dn). *)
Definition isInstanceNorm (x scale b y : tensor A) : Prop :=
  exists N C D, tShape x = N :: C :: D /\ tShape scale = [C] /\ tShape b = [C] /\ tShape y = tShape x /\
  forall n c d, 0 <= n < N -> 0 <= c < C -> valid D d ->
    tAt y (n :: c :: d) = add (mul (nrm (map (fun r => tAt x (n :: c :: r)) (indices D)) (tAt x (n :: c :: d))) (tAt scale [c])) (tAt b [c]).

(** GroupNormalization: the channels form G groups of K. The scale and bias of ONNX 18 are per group, those
    of ONNX 21 per channel. *)
Definition isGroupNorm (perChannel : bool) (G : Z) (x scale b y : tensor A) : Prop :=
  exists N K D, tShape x = N :: G * K :: D /\ tShape scale = [if perChannel then G * K else G] /\ tShape b = tShape scale /\ tShape y = tShape x /\
  forall n g k d, 0 <= n < N -> 0 <= g < G -> 0 <= k < K -> valid D d ->
    let c := g * K + k in let s := if perChannel then c else g in
    tAt y (n :: c :: d) = add (mul (nrm (map (fun r => tAt x (n :: g * K + hd 0 r :: tl r)) (indices (K :: D))) (tAt x (n :: c :: d))) (tAt scale [s])) (tAt b [s]).
End Norm.
