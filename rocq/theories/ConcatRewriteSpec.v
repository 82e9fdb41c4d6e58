(** Transpose and Concat of ONNX, for their rewriting. *)
From Coq Require Import List ZArith.
From Verif Require Import Util TensorSpec ShapeOpsModel ShapeOpsSpec ElementsSpec.
Import ListNotations.
Open Scope Z_scope.

(** [y] is [x] transposed: axis k of [y] is axis perm[k] of [x]. *)
Definition isTransposed {T} (perm : list nat) (x y : tensor T) : Prop :=
  tShape y = permute perm (tShape x) /\ forall idx, valid (tShape x) idx -> tAt y (permute perm idx) = tAt x idx.
(** [y] is [f] of every element of [x]. *)
Definition isMapped {T U} (f : T -> U) (x : tensor T) (y : tensor U) : Prop :=
  tShape y = tShape x /\ forall idx, valid (tShape x) idx -> tAt y idx = f (tAt x idx).
(** [c] is the concatenation of [xs] along [axis]. *)
Definition isConcat {T} (axis : nat) (xs : list (tensor T)) (c : tensor T) : Prop :=
  xs <> [] /\ exists base, concatenable axis base xs /\
  tShape c = upd axis (sumZ (map (fun x => nth axis (tShape x) 0) xs)) base /\
  forall d idx, valid (tShape c) idx -> tAt c idx = concat_at d axis xs idx.
(** Same shape and elements. *)
Definition same {T} (x y : tensor T) : Prop := tShape x = tShape y /\ forall idx, valid (tShape x) idx -> tAt x idx = tAt y idx.
(** Axis attributes: negative counted from the end. *)
Definition isAxis (rank : nat) (attr : Z) (axis : nat) : Prop := Z.of_nat axis = (if attr <? 0 then attr + Z.of_nat rank else attr).
