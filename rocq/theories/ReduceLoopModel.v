(** The loops emitted for ReduceSum, ReduceProd, ReduceMax, ReduceMin and ReduceMean without
    SIMD: /repo/src/Conversion/ONNXToKrnl/Math/Reduction.cpp. *)
From Coq Require Import List ZArith Bool.
From Verif Require Import Util TensorSpec LoopModel ArgLoopModel.
Import ListNotations.
Open Scope Z_scope.

(** The axes operand: absent; constants; or a run-time tensor of rank 1 whose length is
    known at compile time or not. Simplification: a tensor of axes of which only some
    elements are constants is a run-time tensor here; so is one of rank 0, which counts as
    one of length 1. *)
Inductive axesArg := AxNone | AxLit (l : list Z) | AxDyn (lengthKnown : bool) (axes : mem Z).

(** What compiling and running yields. *)
Inductive outcome (A : Type) := Rejected | Undefined | Result (a : A).
Arguments Rejected {A}. Arguments Undefined {A}. Arguments Result {A} a.
Definition ofOption {A} (o : option A) : outcome A := match o with Some a => Result a | None => Undefined end.

(** Reduction.cpp 704-723 and, in shape inference,
    /repo/src/Dialect/ONNX/ONNXOps/Math/Reduction.cpp 40-50: range check, normalisation, no
    duplicates. [None]: an error is reported. *)
Fixpoint uniqueAxes (rank : nat) (l : list Z) (acc : list nat) : option (list nat) :=
  match l with
  | [] => Some acc
  | axis :: l' =>
      if (axis <? - Z.of_nat rank) || (Z.of_nat rank - 1 <? axis) then None
      else let a := Z.to_nat (if 0 <=? axis then axis else Z.of_nat rank + axis) in
           uniqueAxes rank l' (if existsb (Nat.eqb a) acc then acc else acc ++ [a])
  end.
(** Dialect Reduction.cpp 37-56: the axes reduced according to shape inference. An absent
    operand is an empty list there. *)
Definition inferAxes (rank : nat) (l : list Z) (noop : bool) : option (list nat) :=
  match l with [] => Some (if noop then [] else seq 0 rank) | _ => uniqueAxes rank l [] end.
(** Dialect Reduction.cpp 59-76: the output type; [None] is a dimension unknown at compile
    time. *)
Fixpoint reducedType (isReductionAxis : list bool) (keepdims : bool) (ty : list (option Z)) : list (option Z) :=
  match isReductionAxis, ty with
  | r :: rs, d :: ds => (if r then (if keepdims then [Some 1] else []) else [d]) ++ reducedType rs keepdims ds
  | _, _ => []
  end.
(** Conversion Reduction.cpp 692-723: the axes reduced by the emitted code. *)
Definition lowerAxes (rank : nat) (ax : axesArg) (noop : bool) : option (list nat) :=
  match ax with
  | AxNone => Some (if noop then [] else seq 0 rank)
  | AxLit l => uniqueAxes rank l []
  | AxDyn _ _ => Some []
  end.
Fixpoint omap {A B} (f : A -> option B) (l : list A) : option (list B) :=
  match l with [] => Some [] | x :: l' => y <- f x ;; r <- omap f l' ;; Some (y :: r) end.
Definition lookupDim (m : list (nat * nat)) (i : nat) : option nat := option_map snd (find (fun p => (fst p =? i)%nat) m).

Section Reduce.
Context {T : Type} (op : T -> T -> T) (identity : T) (divideBy : option (T -> Z -> T)).

(** genScalarReduction, lines 994-1065, on the output memref [alloc]; [access] gives the
    accumulator access function of an iteration. divideBy: the division of ReduceMean. *)
Definition scalarReduction (input : mem T) (outShape : list Z) (access : list Z -> option (list Z)) (divisor : Z) : option (mem T) :=
  res <- iterate (mShape input) (fun i res =>
    o <- access i ;;
    next <- load input i ;;
    accumulated <- load res o ;;
    store res o (op accumulated next)) (Mem outShape (fun _ => Some identity)) ;;
  match divideBy with
  | None => Some res
  | Some div => iterate outShape (fun o res => v <- load res o ;; store res o (div v divisor)) res
  end.
(** Lines 905-922: the divisor for the mean; [None] is a division by zero. *)
Definition divisorForMean (inShape outShape : list Z) : option Z :=
  match divideBy with
  | None => Some 0
  | Some _ => let n := fold_left Z.mul outShape 1 in
              if n =? 0 then None else Some (fold_left Z.mul inShape 1 / n)
  end.
(** Lines 815-880: the mask of reduced dimensions for run-time axes. *)
Definition axesMask (rank : nat) (lengthKnown noop : bool) (axes : mem Z) : option (mem bool) :=
  let n := nth 0 (mShape axes) 0 in
  let initVal := if negb lengthKnown && negb noop then n =? 0 else false in
  mask <- iterate [Z.of_nat rank] (fun i m => store m i initVal) (alloc [Z.of_nat rank]) ;;
  iterate [n] (fun i m =>
    axe <- load axes i ;;
    store m [if axe <? 0 then axe + Z.of_nat rank else axe] true) mask.
(** Lines 885-903: the shape of the output memref. *)
Definition staticOutShape (outType : list (option Z)) (m : list (nat * nat)) (inShape : list Z) : list Z :=
  map (fun i => match nth i outType None with
                | Some d => d
                | None => nth (match lookupDim m i with Some k => k | None => O end) inShape 0
                end) (seq 0 (length outType)).

(** The branch for axes known at compile time, lines 747-750 and 883-990. *)
Definition reduceStatic (rank : nat) (low : list nat) (outType : list (option Z)) (keepdims : bool) (input : mem T) : outcome (mem T) :=
  let m := getReductionMapping rank low keepdims in
  let out := staticOutShape outType m (mShape input) in
  ofOption (divisor <- divisorForMean (mShape input) out ;;
            scalarReduction input out (fun i => Some (outLoopIVs m (length out) i)) divisor).
(** matchAndRewrite, lines 602-990, without SIMD. [ty]: the type of the input. With
    run-time axes the output type has no known dimension (dialect Reduction.cpp 144-147). *)
Definition reduceLoop (ty : list (option Z)) (ax : axesArg) (keepdims noop : bool) (input : mem T) : outcome (mem T) :=
  let rank := length (mShape input) in
  let static axesOp low :=
    match inferAxes rank axesOp noop with
    | None => Rejected
    | Some inferred =>
        reduceStatic rank low (reducedType (map (fun i => existsb (Nat.eqb i) inferred) (seq 0 rank)) keepdims ty) keepdims input
    end in
  match ax with
  | AxNone => match lowerAxes rank ax noop with None => Rejected | Some low => static [] low end
  | AxLit l => match lowerAxes rank ax noop with None => Rejected | Some low => static l low end
  | AxDyn lengthKnown axes =>
      if lengthKnown && (nth 0 (mShape axes) 0 =? 0) then
        (* rawAxesIE is empty, lines 664-668: no axis, not taken as dynamic *)
        reduceStatic rank [] (repeat None (if keepdims then rank else rank - 0)) keepdims input
      else if negb keepdims then Rejected
      else ofOption (
        mask <- axesMask rank lengthKnown noop axes ;;
        out <- omap (fun i => b <- load mask [Z.of_nat i] ;; Some (if b : bool then 1 else nth i (mShape input) 0)) (seq 0 rank) ;;
        divisor <- divisorForMean (mShape input) out ;;
        scalarReduction input out
          (fun l => omap (fun i => b <- load mask [Z.of_nat i] ;; Some (if b : bool then 0 else nth i l 0)) (seq 0 rank)) divisor)
  end.
End Reduce.
