(** Pow with an integer exponent and the recurrent operations with both layouts, for their rewriting. *)
From Coq Require Import List ZArith SpecFloat.
From Verif Require Import Util TensorSpec ShapeOpsModel BroadcastSpec RnnSpec.
Import ListNotations.
Open Scope Z_scope.

(** x * (x * ... * 1), [n] factors. *)
Definition power {A} (one : A) (mul : A -> A -> A) (x : A) (n : nat) : A := Nat.iter n (mul x) one.
(** [z] is x to the power [n], the exponent being a tensor of shape [eShape]. *)
Definition isPow {A} (one : A) (mul : A -> A -> A) (x : tensor A) (eShape : list Z) (n : nat) (z : tensor A) : Prop :=
  broadcast [tShape x; eShape] (tShape z) /\
  forall idx, valid (tShape z) idx -> tAt z idx = power one mul (tAt x (bindex (tShape x) idx)) n.

(** The float [v] is the integer [n]. *)
Definition floatIs (v : spec_float) (n : Z) : Prop :=
  match v with
  | S754_zero _ => n = 0
  | S754_finite s m e => (if s then -1 else 1) * Z.pos m * 2 ^ Z.max 0 e = n * 2 ^ Z.max 0 (- e)
  | _ => False
  end.

(** The inputs and outputs of a recurrent operation that depend on the attribute layout. *)
Record rnnTensors (A : Type) := { tX : tensor A; tH0 : option (tensor A); tC0 : option (tensor A); tY : tensor A; tYh : tensor A; tYc : tensor A }.
Arguments tX {A}. Arguments tH0 {A}. Arguments tC0 {A}. Arguments tY {A}. Arguments tYh {A}. Arguments tYc {A}.
(** layout = 0: X is (time, batch, input), states are (direction, batch, hidden) and Y is (time,
    direction, batch, hidden). layout = 1: (batch, time, input), (batch, direction, hidden) and
    (batch, time, direction, hidden). *)
Definition at3 {A} (layout : bool) (x : tensor A) (i j k : Z) : A := tAt x (if layout then [j; i; k] else [i; j; k]).
Definition at4 {A} (layout : bool) (y : tensor A) (t d b h : Z) : A := tAt y (if layout then [b; t; d; h] else [t; d; b; h]).
Definition shape3 (layout : bool) (i j k : Z) : list Z := if layout then [j; i; k] else [i; j; k].
Definition shape4 (layout : bool) (t d b h : Z) : list Z := if layout then [b; t; d; h] else [t; d; b; h].
Definition withInputs {A} (p : rnnIn A) (x : Z -> Z -> Z -> A) (h : option (Z -> Z -> Z -> A)) : rnnIn A :=
  {| seqLen := seqLen p; batch := batch p; inSize := inSize p; hidSize := hidSize p; dir := dir p; X := x; W := W p; R := R p; B := B p;
     h0 := h; lens := lens p; acts := acts p; clip := clip p |}.
Definition rightShapes {A} (layout : bool) (p : rnnIn A) (t : rnnTensors A) : Prop :=
  let D := numDirections (dir p) in
  tShape (tX t) = shape3 layout (seqLen p) (batch p) (inSize p) /\
  (forall h, tH0 t = Some h -> tShape h = shape3 layout D (batch p) (hidSize p)) /\
  (forall c, tC0 t = Some c -> tShape c = shape3 layout D (batch p) (hidSize p)) /\
  tShape (tY t) = shape4 layout (seqLen p) D (batch p) (hidSize p) /\
  tShape (tYh t) = shape3 layout D (batch p) (hidSize p) /\ tShape (tYc t) = shape3 layout D (batch p) (hidSize p).
Section Ops.
Context {A : Type}.
Variables (zero one : A) (add sub mul : A -> A -> A).
(** RNN, GRU and LSTM on tensors: [p] has the other inputs and attributes. *)
Definition isRnn (tanh : A -> A) (layout : bool) (p : rnnIn A) (t : rnnTensors A) : Prop :=
  let p := withInputs p (at3 layout (tX t)) (option_map (at3 layout) (tH0 t)) in
  rightShapes layout p t /\ goodOutputs zero p (fun v => v) (rnnCell zero add mul p tanh) (initOf zero (h0 p)) (at4 layout (tY t)) (at3 layout (tYh t)).
Definition isGru (linearBeforeReset : bool) (sigmoid tanh : A -> A) (layout : bool) (p : rnnIn A) (t : rnnTensors A) : Prop :=
  let p := withInputs p (at3 layout (tX t)) (option_map (at3 layout) (tH0 t)) in
  rightShapes layout p t /\ goodOutputs zero p (fun v => v) (gruCell zero one add sub mul p linearBeforeReset sigmoid tanh) (initOf zero (h0 p)) (at4 layout (tY t)) (at3 layout (tYh t)).
Definition isLstm (P : option (Z -> Z -> A)) (inputForget : bool) (sigmoid tanh tanh' : A -> A) (layout : bool) (p : rnnIn A) (t : rnnTensors A) : Prop :=
  let p := withInputs p (at3 layout (tX t)) (option_map (at3 layout) (tH0 t)) in
  let c0 := option_map (at3 layout) (tC0 t) in
  rightShapes layout p t /\
  goodOutputs zero p fst (lstmCell zero one add sub mul {| base := p; P := P; c0 := c0; inputForget := inputForget |} sigmoid tanh tanh')
    (fun d b j => (initOf zero (h0 p) d b j, initOf zero c0 d b j)) (at4 layout (tY t)) (fun d b j => (at3 layout (tYh t) d b j, at3 layout (tYc t) d b j)).
End Ops.
(** [p] without sequence_lens. *)
Definition withoutLens {A} (p : rnnIn A) : rnnIn A :=
  {| seqLen := seqLen p; batch := batch p; inSize := inSize p; hidSize := hidSize p; dir := dir p; X := X p; W := W p; R := R p; B := B p;
     h0 := h0 p; lens := None; acts := acts p; clip := clip p |}.
