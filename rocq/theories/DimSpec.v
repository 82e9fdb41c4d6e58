(* ONNX programs with unknown dimensions, and what a run of such a program is.

   A program is a list of operations in SSA form over numbered values.  A value is
   either the result of an operation or a block argument.  Its type gives the rank,
   the dimensions known at compile time ([Some d]) and the unknown ones ([None]).

   A run assigns to every value its run-time shape and, for integer tensors, its
   elements.  [Runs] says that the run is possible: it agrees with the types, with the
   ONNX meaning of every operation and with the dim_params of the function.  Only the
   part of the ONNX meaning that concerns shapes and shape vectors is written down; an
   operation of kind [KOther] is unconstrained. *)
From Coq Require Import List Arith Bool ZArith.
Import ListNotations.
From Verif Require Import Util.
Open Scope Z_scope.

Record ty := { tdims : list (option Z); tI64 : bool }.

Inductive kind :=
| KConstant (vals : list Z) (scalar : option Z)
    (* integer elements; first element converted to int64, [None] for element types
       for which the compiler has no conversion (int8, bool, ...) *)
| KDim (axis : nat)                (* onnx.Dim : one i64, a dimension of the operand *)
| KCast
| KConcat (axis : Z)
| KGemm (transA transB : bool)
| KRecurrent (layout : Z)          (* GRU, LSTM, RNN; operands X, seqLen, initialH, initialC, then the weights *)
| KMatMul
| KMatMulInteger
| KAdd
| KBroadcast                       (* the other elementwise operations with broadcasting *)
| KExpand
| KReshape (allowzero : Z)
| KTile
| KConstantOfShape
| KCenterCropPad (axes : option (list Z))
| KMaxUnpool                       (* operands X, I, output_shape *)
| KSqueeze
| KOther.

Record op := {
  okind : kind;
  ins : list (option nat);                        (* [None]: absent optional operand *)
  outs : list nat;
  helper : nat -> nat -> nat -> nat -> bool       (* shape inference: result, axis, operand, axis *)
}.

Record prog := {
  types : nat -> ty;
  ops : list op;
  targets : nat -> bool;                          (* operations the analysis may look at *)
  args : list nat;
  rets : list nat;
  argParam : nat -> nat -> option nat;            (* dim_param of an argument's dimension *)
  retParam : nat -> nat -> option nat             (* dim_param of a result's dimension *)
}.

Definition dim := (nat * nat)%type.               (* value, axis *)

Record run := { shp : nat -> list Z; dat : nat -> list Z }.

Definition given {A} (l : list (option A)) : list A :=
  flat_map (fun o => match o with Some a => [a] | None => [] end) l.

Definition operand (o : op) (i : nat) : option nat := nth i (ins o) None.

Definition at_ (s : list Z) (a : nat) : Z := nth a s 0.

(* The dimension at distance [k] from the innermost one; missing ones count as 1. *)
Definition fromEnd (s : list Z) (k : nat) : Z := nth k (rev s) 1.

(* [d] is the result of broadcasting the dimensions [l]. *)
Definition bcast1 (l : list Z) (d : Z) : Prop :=
  In d l /\ (forall x, In x l -> x = 1 \/ x = d).

(* [s] is the result of broadcasting the shapes [l]. *)
Definition bcast (l : list (list Z)) (s : list Z) : Prop :=
  length s = fold_right Nat.max O (map (@length Z) l) /\
  (forall k, (k < length s)%nat -> bcast1 (map (fun x => fromEnd x k) l) (fromEnd s k)).

(* Axis counted from the end when negative. *)
Definition normAxis (axis : Z) (rank : nat) : Z := if axis <? 0 then axis + Z.of_nat rank else axis.

(* The size of a dimension; none when there is no such dimension. *)
Definition sizeAt (s : list Z) (axis : Z) : option Z :=
  let a := normAxis axis (length s) in
  if (0 <=? a) && (a <? Z.of_nat (length s)) then Some (at_ s (Z.to_nat a)) else None.

Definition isConstant (p : prog) (v : nat) : Prop :=
  exists o vals s, In o (ops p) /\ In v (outs o) /\ okind o = KConstant vals s.

(* What ONNX says about one operation. *)
Definition opRuns (r : run) (o : op) : Prop :=
  match okind o, ins o, outs o with
  | KConstant vals s, _, [y] =>
      dat r y = vals /\ (forall x rest, vals = x :: rest -> s <> None -> s = Some x)
  | KDim a, [Some x], [y] => (a < length (shp r x))%nat /\ dat r y = [at_ (shp r x) a]
  | KCast, [Some x], [y] => shp r y = shp r x /\ dat r y = dat r x
  | KConcat axis, l, [y] =>
      let a := normAxis axis (length (shp r y)) in
      0 <= a < Z.of_nat (length (shp r y)) /\
      (forall x, In (Some x) l -> length (shp r x) = length (shp r y) /\
         forall i, (i < length (shp r y))%nat -> Z.of_nat i <> a ->
           at_ (shp r x) i = at_ (shp r y) i) /\
      at_ (shp r y) (Z.to_nat a) = sumZ (map (fun x => at_ (shp r x) (Z.to_nat a)) (given l)) /\
      (length (shp r y) = 1%nat -> dat r y = concat (map (dat r) (given l)))
  | KGemm tA tB, Some a :: Some b :: _, [y] =>
      length (shp r a) = 2%nat /\ length (shp r b) = 2%nat /\
      at_ (shp r a) (if tA then 0 else 1) = at_ (shp r b) (if tB then 1 else 0)
  | KRecurrent layout, Some x :: sl :: h :: c :: _, _ =>
      let b := if layout =? 0 then 1%nat else 0%nat in
      length (shp r x) = 3%nat /\
      (forall v, sl = Some v -> length (shp r v) = 1%nat /\ at_ (shp r v) 0 = at_ (shp r x) b) /\
      (forall v, h = Some v -> length (shp r v) = 3%nat /\ at_ (shp r v) b = at_ (shp r x) b) /\
      (forall v, c = Some v -> length (shp r v) = 3%nat /\ at_ (shp r v) b = at_ (shp r x) b)
  | KMatMul, [Some a; Some b], [y] =>
      let n := length (shp r a) in let m := length (shp r b) in
      (0 < n)%nat /\ (0 < m)%nat /\
      if (2 <=? n)%nat && (2 <=? m)%nat then
        length (shp r y) = Nat.max n m /\
        fromEnd (shp r a) 0 = fromEnd (shp r b) 1 /\
        fromEnd (shp r y) 0 = fromEnd (shp r b) 0 /\
        fromEnd (shp r y) 1 = fromEnd (shp r a) 1 /\
        (forall k, (2 <= k < length (shp r y))%nat ->
           bcast1 [fromEnd (shp r a) k; fromEnd (shp r b) k] (fromEnd (shp r y) k))
      else (S (length (shp r y)) <= Nat.max n m)%nat
  | KMatMulInteger, Some a :: Some b :: _, [y] =>
      (2 <= length (shp r a))%nat -> (2 <= length (shp r b))%nat ->
      fromEnd (shp r a) 0 = fromEnd (shp r b) 1
  | KAdd, [Some a; Some b], [y] =>
      bcast [shp r a; shp r b] (shp r y) /\
      (forall x z, dat r a = [x] -> dat r b = [z] -> dat r y = [x + z])
  | KBroadcast, l, [y] => bcast (map (shp r) (given l)) (shp r y)
  | KExpand, [Some x; Some s], [y] =>
      length (shp r s) = 1%nat /\ bcast [shp r x; dat r s] (shp r y)
  | KReshape az, [Some x; Some s], [y] =>
      length (shp r y) = length (dat r s) /\
      prodZ (shp r y) = prodZ (shp r x) /\ dat r y = dat r x /\
      (forall i, (i < length (dat r s))%nat -> 0 < at_ (dat r s) i ->
         at_ (shp r y) i = at_ (dat r s) i) /\
      (forall i, (i < length (dat r s))%nat -> at_ (dat r s) i = 0 ->
         at_ (shp r y) i = if az =? 0 then at_ (shp r x) i else 0)
  | KTile, [Some x; Some s], [y] =>
      length (shp r y) = length (shp r x) /\ length (dat r s) = length (shp r x) /\
      (forall i, (i < length (shp r x))%nat -> at_ (shp r y) i = at_ (shp r x) i * at_ (dat r s) i)
  | KConstantOfShape, [Some s], [y] => shp r y = dat r s
  | KCenterCropPad axes, [Some x; Some s], [y] =>
      length (shp r y) = length (shp r x) /\
      match axes with
      | None => shp r y = dat r s
      | Some l => length (dat r s) = length l /\
          forall i a, nth_error l i = Some a ->
            0 <= normAxis a (length (shp r y)) < Z.of_nat (length (shp r y)) ->
            at_ (shp r y) (Z.to_nat (normAxis a (length (shp r y)))) = at_ (dat r s) i
      end
  | KMaxUnpool, [Some x; Some i; s], [y] => forall v, s = Some v -> shp r y = dat r v
  | KSqueeze, Some x :: _, [y] => dat r y = dat r x
  | KOther, _, _ => True
  | _, _, _ => False
  end.

Definition isDyn (p : prog) (v a : nat) : Prop := nth_error (tdims (types p v)) a = Some None.

(* A possible run. *)
Definition Runs (p : prog) (r : run) : Prop :=
  (* run-time shapes agree with the types *)
  (forall v, Forall2 (fun t d => t = None \/ t = Some d) (tdims (types p v)) (shp r v)) /\
  (* a vector of i64 has as many elements as its dimension says *)
  (forall v, length (shp r v) = 1%nat -> tI64 (types p v) = true ->
     Z.of_nat (length (dat r v)) = at_ (shp r v) 0) /\
  (* every operation does what ONNX says *)
  (forall o, In o (ops p) -> opRuns r o) /\
  (* equal dim_params mean equal dimensions *)
  (exists f : nat -> Z,
     (forall i v a q, nth_error (args p) i = Some v -> argParam p i a = Some q ->
        isDyn p v a -> at_ (shp r v) a = f q) /\
     (forall i v a q, nth_error (rets p) i = Some v -> retParam p i a = Some q ->
        isDyn p v a -> at_ (shp r v) a = f q)).

(* What shape inference says of unknown dimensions is true of the run. *)
Definition HelperTrue (p : prog) (r : run) : Prop :=
  forall o j a i b v w, In o (ops p) -> nth_error (outs o) j = Some v -> nth_error (ins o) i = Some (Some w) ->
    helper o j a i b = true -> isDyn p v a -> isDyn p w b -> at_ (shp r v) a = at_ (shp r w) b.

(* Operations come after the operations that compute their operands. *)
Definition SSA (p : prog) : Prop :=
  forall i o v, nth_error (ops p) i = Some o -> In v (given (ins o)) ->
    forall j o', nth_error (ops p) j = Some o' -> In v (outs o') -> (j < i)%nat.

(* A tensor of one element, as used for an entry of a shape vector. *)
Definition oneElem (p : prog) (v : nat) : Prop := tdims (types p v) = [Some 1].

(* Types as the earlier passes leave them: every value has one definition, onnx.Dim is
   left only for unknown dimensions, a Cast has the same shape on both sides, constants
   have known shapes, Concat keeps the element type, and a broadcast of known dimensions
   is known.  The lengths in [sequence_lens] of GRU, LSTM and RNN are not a vector of one
   known element. *)
Definition WellTyped (p : prog) : Prop :=
  (forall i j oi oj v, nth_error (ops p) i = Some oi -> nth_error (ops p) j = Some oj ->
     In v (outs oi) -> In v (outs oj) -> i = j) /\
  (forall o, In o (ops p) -> NoDup (outs o)) /\
  (forall o, In o (ops p) ->
     match okind o, ins o, outs o with
     | KDim a, [Some x], [y] => oneElem p y /\ isDyn p x a
     | KCast, [Some x], [y] => tdims (types p y) = tdims (types p x)
     | KRecurrent _, _ :: Some s :: _, _ => ~ oneElem p s
     | KConstant _ _, _, [y] => forall a, ~ isDyn p y a
     | KConcat _, l, [y] => forall x, In (Some x) l -> tI64 (types p x) = tI64 (types p y)
     | KExpand, [_; Some s], _ => tI64 (types p s) = true
     | KAdd, l, [y] | KBroadcast, l, [y] =>
         forall i j a b, nth_error (given l) i = Some a -> nth_error (given l) j = Some b ->
           i <> j -> oneElem p a ->
           nth_error (rev (tdims (types p b))) 0 <> Some None ->
           nth_error (rev (tdims (types p y))) 0 <> Some None
     | _, _, _ => True
     end).

(* Runs without the surprises that the refutations beside the theorems exhibit. *)
Definition Ordinary (p : prog) (r : run) : Prop :=
  (* no empty tensor *)
  (forall v d, In d (shp r v) -> 0 < d) /\
  (* the entries of a shape vector that are not constants are positive *)
  (forall o w d, In o (ops p) -> (exists a, okind o = KConcat a) -> In (Some w) (ins o) ->
     oneElem p w -> ~ isConstant p w -> In d (dat r w) -> 0 < d) /\
  (* three operands or more are not broadcast; Expand yields the requested shape *)
  (forall o, In o (ops p) ->
     match okind o, ins o, outs o with
     | KBroadcast, l, [y] =>
         (length l <= 2)%nat \/ (forall v, In (Some v) l -> shp r v = shp r y)
     | KExpand, [Some x; Some s], [y] => shp r y = dat r s
     | _, _, _ => True
     end).

(* [v] is a constant whose first element, as an int64, is [s]. *)
Definition constScalar (p : prog) (v : nat) (s : option Z) : Prop :=
  exists o vals, In o (ops p) /\ In v (outs o) /\ okind o = KConstant vals s.

(* [v] is the result of an operation other than a Cast. *)
Definition computed (p : prog) (v : nat) : Prop :=
  exists o, In o (ops p) /\ In v (outs o) /\ okind o <> KCast.

(* Extra conditions for the rules about offsets. *)
Definition OffsetSafe (p : prog) (r : run) : Prop :=
  forall o, In o (ops p) ->
    match okind o, ins o, outs o with
    | KAdd, [Some a; Some b], [y] =>
        (* a constant added to a tensor with unknown dimensions has a first element that
           truncates to 0 and does not enlarge the tensor *)
        ((exists i, isDyn p y i) ->
           (forall s, constScalar p b s -> s = Some 0 /\ shp r a = shp r y) /\
           (forall s, constScalar p a s -> s = Some 0 /\ shp r b = shp r y)) /\
        (* a constant added to a single number is a single number *)
        (forall x, isConstant p b -> dat r a = [x] -> exists c, dat r b = [c]) /\
        (forall x, isConstant p a -> dat r b = [x] -> exists c, dat r a = [c])
    (* the first dimension of an input with a known dimension 1 is not read by onnx.Dim *)
    | KDim O, [Some x], [y] =>
        computed p x \/ (forall i, nth_error (tdims (types p x)) i <> Some (Some 1))
    | _, _, _ => True
    end.
