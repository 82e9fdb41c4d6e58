(** Pad, Tile, OneHot and ReverseSequence from the ONNX operator definitions. *)
From Coq Require Import List ZArith Bool.
From Verif Require Import Util TensorSpec GatherLoopSpec.
Import ListNotations.
Open Scope Z_scope.

Inductive padMode := PConstant | PEdge | PReflect | PWrap.

(** Position [o] is position [i] moved by [b]. *)
Definition moved (b i o : index) : Prop := length o = length i /\ forall r, (r < length i)%nat -> nth r o 0 = nth r i 0 + nth r b 0.

(** The mirror image of position [x] in an axis of size [d]: the pattern 0 1 .. d-1 d-2 .. 1
    repeated in both directions (numpy.pad, mode "reflect"). *)
Definition mirror (d x : Z) : Z :=
  if d =? 1 then 0 else let p := 2 * (d - 1) in let m := x mod p in Z.min m (p - m).
(** Which element the padding at distance [x] from the first element repeats. *)
Definition padSource (mode : padMode) (d x : Z) : Z :=
  match mode with PEdge => clamp d x | PReflect => mirror d x | PWrap => x mod d | PConstant => x end.
Definition padSources (mode : padMode) (s b o : list Z) : index :=
  map (fun r => padSource mode (nth r s 0) (nth r o 0 - nth r b 0)) (seq 0 (length s)).
