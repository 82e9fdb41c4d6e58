(** Rewriting of Pow and of the recurrent operations (src/Dialect/ONNX/ONNXOps/Canonicalize.cpp
    1018-1241, 2556-2616, OpHelper.cpp 874-896). *)
From Coq Require Import List ZArith Bool SpecFloat.
From Verif Require Import Util TensorSpec ElementsSpec ShapeOpsModel TransposeLoopProofs RnnSpec PowRnnSpec ShapeRewriteModel.
Import ListNotations.
Open Scope Z_scope.

(** The element of a constant exponent, by type of its element; floats as double. *)
Inductive exponentAttr := IntExponent (v : Z) | FloatExponent (v : spec_float) | OtherExponent.
(** C++ floatVal == ceil(floatVal). *)
Definition isIntegral (v : spec_float) : bool :=
  match v with
  | S754_zero _ => true
  | S754_infinity _ => true
  | S754_nan => false
  | S754_finite _ m e => (0 <=? e) || (Z.pos m mod 2 ^ (- e) =? 0)
  end.
(** static_cast<int64_t>(double) of an integral value; [None]: undefined behaviour. *)
Definition toInt64 (v : spec_float) : option Z :=
  match v with
  | S754_zero _ => Some 0
  | S754_finite s m e =>
      let a := if 0 <=? e then Z.pos m * 2 ^ e else Z.pos m / 2 ^ (- e) in
      let z := if s then - a else a in
      if (- 2 ^ 63 <=? z) && (z <? 2 ^ 63) then Some z else None
  | _ => None
  end.
(** OpHelper.cpp 874-896. [eShape]: the shape of the constant exponent. *)
Definition hasIntegerPowerExponent (eShape : list Z) (e : exponentAttr) : outcome Z :=
  if negb (prodZ eShape =? 1) then NoMatch
  else match e with
       | FloatExponent v => if isIntegral v then match toInt64 v with Some z => Rewritten z | None => Undefined end else NoMatch
       | IntExponent v => Rewritten v
       | OtherExponent => NoMatch
       end.

Section Pow.
Context {A : Type}.
Variables (one : A) (mul : A -> A -> A).
(** create.onnx.mul of tensors of one shape. *)
Definition mulTensors (x y : tensor A) : tensor A := {| tShape := tShape x; tAt := fun i => mul (tAt x i) (tAt y i) |}.
(** Canonicalize.cpp 1218-1226; the fuel bounds the number of iterations. *)
Fixpoint powLoop (fuel : nat) (result : option (tensor A)) (input : tensor A) (exponent : Z) : option (tensor A) :=
  match fuel with
  | O => None
  | S fuel =>
      let result := if Z.odd exponent then match result with Some r => Some (mulTensors r input) | None => Some input end else result in
      let exponent := Z.shiftr exponent 1 in
      if exponent =? 0 then result else powLoop fuel result (mulTensors input input) exponent
  end.
Fixpoint staticShape (t : list (option Z)) : option (list Z) :=
  match t with
  | [] => Some []
  | d :: r => v <- d ;; l <- staticShape r ;; Some (v :: l)
  end.
(** Canonicalize.cpp 1194-1240. DenseElementsAttr::get asserts that its type has a static shape. *)
Definition powToMul (maxPower : Z) (x : tensor A) (eShape : list Z) (e : exponentAttr) (resultType : list (option Z)) : outcome (tensor A) :=
  match hasIntegerPowerExponent eShape e with
  | Undefined => Undefined
  | NoMatch => NoMatch
  | Rewritten exponent =>
      if negb ((0 <=? exponent) && (exponent <=? maxPower)) then NoMatch
      else if exponent =? 0 then
        match staticShape resultType with Some s => Rewritten {| tShape := s; tAt := fun _ => one |} | None => Undefined end
      else match powLoop (Z.to_nat exponent) None x exponent with Some r => Rewritten r | None => Undefined end
  end.
End Pow.

(** Canonicalize.cpp 1132-1180: is sequence_lens dropped? Types of X, initial_h ([None]: none value)
    and sequence_lens ([None]: none value); the inner [None] is an unranked type. *)
Definition dimIsOne (t : option (list (option Z))) (i : Z) : option bool :=
  match t with
  | None => Some false
  | Some s => d <- zget s i ;; Some (match d with Some v => v =? 1 | None => false end)
  end.
Definition rewriteSeqLen (xType : option (list (option Z))) (hType lensType : option (option (list (option Z)))) : outcome unit :=
  match lensType with
  | None => NoMatch
  | Some l =>
      let oneInSeqLen := match l with Some [Some v] => v =? 1 | _ => false end in
      match dimIsOne xType 1, (match hType with None => Some false | Some h => dimIsOne h 1 end) with
      | Some oneInX, Some oneInH => if negb oneInX && negb oneInH && negb oneInSeqLen then NoMatch else Rewritten tt
      | _, _ => Undefined
      end
  end.

(** onnx.Transpose as a function: axis k of the result is axis perm[k] of the input. *)
Definition transposeT {A} (perm : list nat) (x : tensor A) : tensor A :=
  {| tShape := permute perm (tShape x); tAt := fun idx => tAt x (map (fun o => nth (idxOf o perm) idx 0) (seq 0 (length perm))) |}.
(** Canonicalize.cpp 1027, 1031. *)
Definition perm3RNN : list nat := [1; 0; 2]%nat.
Definition perm4RNN : list nat := [2; 0; 1; 3]%nat.
(** Canonicalize.cpp 1073-1127: the inputs of the operation of layout 0 that replaces one of layout 1,
    and what its outputs [y], [yh], [yc] become. *)
Definition layoutInput {A} (x : option (tensor A)) : option (tensor A) := option_map (transposeT perm3RNN) x.
Definition rewriteLayoutIn {A} (t : rnnTensors A) (y yh yc : tensor A) : rnnTensors A :=
  {| tX := transposeT perm3RNN (tX t); tH0 := layoutInput (tH0 t); tC0 := layoutInput (tC0 t); tY := y; tYh := yh; tYc := yc |}.
Definition rewriteLayoutOut {A} (t : rnnTensors A) (y yh yc : tensor A) : rnnTensors A :=
  {| tX := tX t; tH0 := tH0 t; tC0 := tC0 t; tY := transposeT perm4RNN y; tYh := transposeT perm3RNN yh; tYc := transposeT perm3RNN yc |}.

(** Canonicalize.cpp 2561-2616: the users of the results of a Split, each a (kind, attributes without
    the node name, types equal, result of the Split used). The kind and attributes of the first user
    become those of the operation before the Split; opsToPullUp.front() of no users is undefined. *)
Record user (Attr : Type) := { uTarget : bool; uAttrs : Attr; uSameType : bool; uResult : nat }.
Arguments uTarget {Attr}. Arguments uAttrs {Attr}. Arguments uSameType {Attr}. Arguments uResult {Attr}.
Fixpoint pullUsers {Attr} (eqAttrs : Attr -> Attr -> bool) (first : option Attr) (us : list (user Attr)) : outcome Attr :=
  match us with
  | [] => match first with Some a => Rewritten a | None => Undefined end
  | u :: r =>
      if negb (uTarget u) then NoMatch
      else if negb (uSameType u) then NoMatch
      else match first with
           | None => pullUsers eqAttrs (Some (uAttrs u)) r
           | Some a => if eqAttrs a (uAttrs u) then pullUsers eqAttrs first r else NoMatch
           end
  end.
(** onnx.Split with the given sizes, result number k, and an elementwise operation. *)
Definition splitT {A} (axis : nat) (sizes : list Z) (k : nat) (x : tensor A) : tensor A :=
  {| tShape := upd axis (nth k sizes 0) (tShape x); tAt := fun idx => tAt x (upd axis (nth axis idx 0 + sumZ (firstn k sizes)) idx) |}.
Definition mapT {A B} (f : A -> B) (x : tensor A) : tensor B := {| tShape := tShape x; tAt := fun idx => f (tAt x idx) |}.
(** What a user computes before and after. *)
Definition userBefore {Attr A B} (f : Attr -> A -> B) (axis : nat) (sizes : list Z) (x : tensor A) (u : user Attr) : tensor B :=
  mapT (f (uAttrs u)) (splitT axis sizes (uResult u) x).
Definition userAfter {Attr A B} (f : Attr -> A -> B) (axis : nat) (sizes : list Z) (x : tensor A) (a : Attr) (u : user Attr) : tensor B :=
  splitT axis sizes (uResult u) (mapT (f a) x).
