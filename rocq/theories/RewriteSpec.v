(** Specification for the rewriting of integer tensor expressions: programs
    built from inputs, constants and elementwise operators, and the tensor
    each of them stands for.  Element arithmetic is that of FoldSpec,
    broadcasting that of BroadcastSpec.  Nothing here refers to how the
    compiler rewrites. *)
From Coq Require Import ZArith List Bool Lia.
From Verif Require Import Util TensorSpec BroadcastSpec FoldSpec.
Import ListNotations.
Open Scope Z_scope.

(** A static tensor type: unranked, or a list of dimensions, each unknown or
    known. *)
Definition sty := option (list (option Z)).

(** An expression.  Every operator carries the static type the program
    declares for its result; a constant's type is its shape. *)
Inductive texpr :=
| Var (n : nat) (T : sty)
| Const (s : list Z) (data : list Z)
| TUn (o : unop) (e : texpr) (T : sty)
| TBin (o : binop) (e1 e2 : texpr) (T : sty).

(** An input tensor: a shape and an element for every index. *)
Record tensor := mkTensor { tshape : list Z; tat : index -> Z }.

(** Dimension sizes [a] and [b] broadcast to ... *)
Definition bsize (a b : Z) : option Z :=
  if a =? 1 then Some b else if b =? 1 then Some a
  else if a =? b then Some a else None.

(** Lists combined elementwise; the longer one sticks out. *)
Fixpoint zipLong {A} (f : A -> A -> option A) (l m : list A) : option (list A) :=
  match l, m with
  | [], _ => Some m
  | _, [] => Some l
  | a :: l', b :: m' => d <- f a b ;; r <- zipLong f l' m' ;; Some (d :: r)
  end.

(** Shapes are aligned at the right. *)
Definition bshape (s1 s2 : list Z) : option (list Z) :=
  r <- zipLong bsize (rev s1) (rev s2) ;; Some (rev r).

Section Meaning.
  (** The element type, the same for the whole expression, and the inputs. *)
  Variable t : ety.
  Variable env : nat -> tensor.

  (** The shape of the result; [None] if operands do not broadcast. *)
  Fixpoint shapeOf (e : texpr) : option (list Z) :=
    match e with
    | Var n _ => Some (tshape (env n))
    | Const s _ => Some s
    | TUn _ e _ => shapeOf e
    | TBin _ e1 e2 _ => s1 <- shapeOf e1 ;; s2 <- shapeOf e2 ;; bshape s1 s2
    end.

  (** The element at an index; [None] where an operator defines none.  A
      constant's element is a value of the element type: a number that does
      not fit stands for the value it wraps around to. *)
  Fixpoint valueAt (e : texpr) (idx : index) : option Z :=
    match e with
    | Var n _ => Some (tat (env n) idx)
    | Const s data => v <- elem s data idx ;; Some (wrap t v)
    | TUn o e _ => a <- valueAt e idx ;; elemUn o t a
    | TBin o e1 e2 _ =>
        s1 <- shapeOf e1 ;; s2 <- shapeOf e2 ;;
        a <- valueAt e1 (bindex s1 idx) ;;
        b <- valueAt e2 (bindex s2 idx) ;; elemBin o t a b
    end.

  (** The run-time shape agrees with a static type. *)
  Definition conforms (T : sty) (s : list Z) : Prop :=
    match T with
    | None => True
    | Some ds => Forall2 (fun d n => d = None \/ d = Some n) ds s
    end.

  (** The inputs are tensors of the element type and of their static types. *)
  Fixpoint inputsOK (e : texpr) : Prop :=
    match e with
    | Var n T =>
        conforms T (tshape (env n)) /\ okshape (tshape (env n)) /\
        forall idx, valid (tshape (env n)) idx -> inRange t (tat (env n) idx)
    | Const _ _ => True
    | TUn _ e _ => inputsOK e
    | TBin _ e1 e2 _ => inputsOK e1 /\ inputsOK e2
    end.
End Meaning.

(** Two expressions stand for the same tensor: the same shape (or none) and
    the same element at every index. *)
Definition sameTensor (t : ety) (env : nat -> tensor) (e e' : texpr) : Prop :=
  shapeOf env e = shapeOf env e' /\
  forall s idx, shapeOf env e = Some s -> valid s idx ->
    valueAt t env e idx = valueAt t env e' idx.

(** ** Static types *)

(** What is known about the result of broadcasting two dimensions.  [None]:
    they cannot be broadcast. *)
Definition knownDim (a b : option Z) : option (option Z) :=
  match a, b with
  | Some x, Some y => match bsize x y with Some r => Some (Some r) | None => None end
  | None, Some y => if y =? 1 then Some None else Some (Some y)
  | Some x, None => if x =? 1 then Some None else Some (Some x)
  | None, None => Some None
  end.

Definition knownShape (T1 T2 : sty) : sty :=
  match T1, T2 with
  | Some a, Some b => r <- zipLong knownDim (rev a) (rev b) ;; Some (rev r)
  | _, _ => None
  end.

Definition ann (e : texpr) : sty :=
  match e with
  | Var _ T => T
  | Const s _ => Some (map Some s)
  | TUn _ _ T => T
  | TBin _ _ _ T => T
  end.

(** The most that the types of the inputs and constants say about the type
    of the result. *)
Fixpoint known (e : texpr) : sty :=
  match e with
  | Var _ T => T
  | Const s _ => Some (map Some s)
  | TUn _ e _ => known e
  | TBin _ e1 e2 _ => knownShape (known e1) (known e2)
  end.

(** A program whose types were inferred: every declared type is unranked or
    says everything that is known; constants have the right number of
    elements; operators keep the element type. *)
Fixpoint inferred (t : ety) (e : texpr) : Prop :=
  match e with
  | Var _ _ => True
  | Const s data => okshape s /\ is_data s data
  | TUn o e1 T => inferred t e1 /\ (T = None \/ T = known e) /\ tyUn o t = Some t
  | TBin o e1 e2 T =>
      inferred t e1 /\ inferred t e2 /\ (T = None \/ T = known e) /\ tyBin o t = Some t
  end.

(** All dimensions known. *)
Definition static (T : sty) : Prop :=
  match T with Some ds => Forall (fun d => d <> None) ds | None => False end.

Fixpoint allStatic (e : texpr) : Prop :=
  match e with
  | Var _ T => static T
  | Const _ _ => True
  | TUn _ e T => allStatic e /\ static T
  | TBin _ e1 e2 T => allStatic e1 /\ allStatic e2 /\ static T
  end.
