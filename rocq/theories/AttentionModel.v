(** PropagateConstantScalingInAttentionLayerPattern (src/Dialect/ONNX/ONNXOps/Canonicalize.cpp): division or
    multiplication of a product by a scalar constant moves to the constants of one factor. *)
From Coq Require Import ZArith Bool List.
From Verif Require Import AttentionSpec.
Import ListNotations.

Section Numbers.
Variable F : Type.
(** Div or Mul by the scalar constant K (Canonicalize.cpp 595-602 checks that it has one element, of rank 0
    or 1; by broadcasting only its value matters). *)
Variable scale : F -> F.

Definition scaleConst (t : tensor F) : graph F := Const (mapT scale t).
(** matchShapeAddMatMul (Canonicalize.cpp 310-374) together with the changes in place (634-659). *)
Fixpoint moveInto (v : graph F) : option (graph F) :=
  match v with
  | Shape used s g x => if used then None else option_map (Shape used s g) (moveInto x)
  | Gemm used alpha beta tA tB x (Const A) c =>
      if used then None else
      match c with
      | None => Some (Gemm used alpha beta tA tB x (scaleConst A) None)
      | Some (Const C) => Some (Gemm used alpha beta tA tB x (scaleConst A) (Some (scaleConst C)))
      | Some _ => None
      end
  | Add used (MatMul usedM x (Const A)) (Const B) => if used || usedM then None else Some (Add used (MatMul usedM x (scaleConst A)) (scaleConst B))
  | _ => None
  end.
(** Canonicalize.cpp 596-665: the operand of Div (Mul), and what replaces the Div (Mul). *)
Definition propagate (operand : graph F) : option (graph F) :=
  match operand with
  | MatMul used lhs rhs =>
      match moveInto lhs with
      | Some lhs' => Some (MatMul used lhs' rhs)
      | None => match moveInto rhs with Some rhs' => Some (MatMul used lhs rhs') | None => None end
      end
  | _ => None
  end.
End Numbers.
Arguments propagate {F}. Arguments moveInto {F}.

(** Operation::moveBefore, as called at Canonicalize.cpp 632: operation k goes right before operation m of
    the same block. *)
Definition insertBefore (m : nat) (op : nat * list nat) : block -> block :=
  fix go b := match b with [] => [] | o :: r => if Nat.eqb (fst o) m then op :: o :: r else o :: go r end.
Definition moveBefore (k m : nat) (b : block) : block :=
  match find (fun o => Nat.eqb (fst o) k) b with
  | Some op => insertBefore m op (filter (fun o => negb (Nat.eqb (fst o) k)) b)
  | None => b
  end.
