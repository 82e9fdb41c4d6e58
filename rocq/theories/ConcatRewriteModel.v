(** Rewriting of Transpose and Concat (src/Dialect/ONNX/ONNXOps/Canonicalize.cpp 94-119, 137-143,
    1806-1941, Canonicalize.td 499-502, 582-710 and OpHelper.cpp 420-449). Attributes are present (shape
    inference gives Transpose its default permutation). *)
From Coq Require Import List ZArith Bool.
From Verif Require Import Util.
Import ListNotations.
Open Scope Z_scope.

(** OpHelper.cpp 421-437. An index out of the first vector is undefined. *)
Fixpoint combinedTranspose (initialPerm secondPerm : list Z) : option (list Z) :=
  match secondPerm with
  | [] => Some []
  | index :: r => v <- zget initialPerm index ;; res <- combinedTranspose initialPerm r ;; Some (v :: res)
  end.
(** OpHelper.cpp 441-449. *)
Fixpoint isIdentityFrom (currentIndex : Z) (perm : list Z) : bool :=
  match perm with [] => true | p :: r => if negb (p =? currentIndex) then false else isIdentityFrom (currentIndex + 1) r end.
Definition isIdentityPermuteVector (perm : option (list Z)) : bool :=
  match perm with None => false | Some p => isIdentityFrom 0 p end.
(** Canonicalize.cpp 94-104. [None]: the null attribute, with which no Concat can be built. *)
Fixpoint indexFrom (i : Z) (perm : list Z) (axis : Z) : option Z :=
  match perm with [] => None | p :: r => if p =? axis then Some i else indexFrom (i + 1) r axis end.
Definition getIndexOfAxisInPerm (perm : list Z) (axis : Z) : option Z := indexFrom 0 perm axis.

(** Operands of a Concat: how they are defined, and their type ([None]: no shape; dims [None]: dynamic).
    [V] are the values. *)
Section Operands.
Context {V : Type}.
Inductive operand :=
| Plain (v : V)
| Nested (axis : Z) (oneUse : bool) (inner : list V) (v : V).
Definition valueOf (o : operand) : V := match o with Plain v => v | Nested _ _ _ v => v end.
(** Canonicalize.cpp 1817-1822. *)
Definition isMergeableConcat (axis : Z) (o : operand) : bool :=
  match o with Plain _ => false | Nested a oneUse _ _ => (a =? axis) && oneUse end.
(** Canonicalize.cpp 1824-1865: the single operand, or the operands of the new Concat. *)
Inductive recomposed := NoMatch | Single (v : V) | Merged (l : list V).
Definition flatten (axis : Z) (inputs : list operand) : list V :=
  flat_map (fun o => match o with
                     | Nested _ _ inner v => if isMergeableConcat axis o then inner else [v]
                     | Plain v => [v]
                     end) inputs.
Definition recomposeConcat (axis : Z) (inputs : list operand) : recomposed :=
  match inputs with
  | [o] => Single (valueOf o)
  | _ => if existsb (isMergeableConcat axis) inputs then Merged (flatten axis inputs) else NoMatch
  end.

(** mlir::Operation::eraseOperand; an index out of range is undefined. *)
Definition eraseOperand (idx : nat) (l : list V) : option (list V) :=
  if (idx <? length l)%nat then Some (firstn idx l ++ skipn (S idx) l) else None.
(** Canonicalize.cpp 1898-1901 and 1931-1934: the operands are erased in the order of the indices. *)
Definition eraseAll (indices : list nat) (l : list V) : option (list V) := foldM eraseOperand indices l.
(** Canonicalize.cpp 1881-1893: [shape[axis]] with the attribute as it is. *)
Fixpoint zeroIndices (axis : Z) (i : nat) (types : list (option (list (option Z)))) : option (list nat) :=
  match types with
  | [] => Some []
  | None :: r | Some [] :: r => zeroIndices axis (S i) r
  | Some shape :: r => d <- zget shape axis ;; l <- zeroIndices axis (S i) r ;; Some (match d with Some 0 => i :: l | _ => l end)
  end.
(** Canonicalize.cpp 1875-1903. Outer [None]: undefined; inner [None]: no match. *)
Definition removeDimZero (axis : Z) (inputs : list (option (list (option Z)) * V)) : option (option (list V)) :=
  indices <- zeroIndices axis 0 (map fst inputs) ;;
  match indices with [] => Some None | _ => l <- eraseAll indices (map snd inputs) ;; Some (Some l) end.
(** Canonicalize.cpp 1912-1938: the operands of type <0xdtype>. *)
Fixpoint emptyIndices (i : nat) (types : list (option (list (option Z)))) : list nat :=
  match types with
  | [] => []
  | t :: r => match t with Some [Some 0] => i :: emptyIndices (S i) r | _ => emptyIndices (S i) r end
  end.
Definition removeEmpty (inputs : list (option (list (option Z)) * V)) : option (option (list V)) :=
  match emptyIndices 0 (map fst inputs) with [] => Some None | indices => l <- eraseAll indices (map snd inputs) ;; Some (Some l) end.
End Operands.
Arguments operand : clear implicits.
Arguments recomposed : clear implicits.
