(** RNN, GRU and LSTM, from the ONNX operator definitions, over any type of numbers. *)
From Coq Require Import List ZArith Bool.
From Verif Require Import Util.
Import ListNotations.
Open Scope Z_scope.

Inductive direction := Forward | Reverse | Bidirectional.
Definition numDirections (d : direction) : Z := match d with Bidirectional => 2 | _ => 1 end.
(** Does direction number [d] of the operator go backwards? *)
Definition backwards (dir : direction) (d : Z) : bool := match dir with Forward => false | Reverse => true | Bidirectional => d =? 1 end.

Section Rnn.
Context {A : Type}.
Variables (zero one : A) (add sub mul : A -> A -> A).

Definition sum (n : Z) (f : Z -> A) : A := fold_left (fun acc k => add acc (f k)) (zrange n) zero.
(** Row [j] of [x * M^T]. *)
Definition mulRow (n : Z) (x : Z -> A) (M : Z -> Z -> A) (j : Z) : A := sum n (fun k => mul (x k) (M j k)).

(** The inputs common to the three operators. [X]: time, batch, input; [W], [R]: direction, row,
    column; [B]: direction, position; [h0]: direction, batch, hidden. [acts]: the activation
    functions of the attribute, [None] when it is not given. [clip]: the clipping function. *)
Record rnnIn := {
  seqLen : Z; batch : Z; inSize : Z; hidSize : Z; dir : direction;
  X : Z -> Z -> Z -> A; W : Z -> Z -> Z -> A; R : Z -> Z -> Z -> A; B : option (Z -> Z -> A);
  h0 : option (Z -> Z -> Z -> A); lens : option (Z -> Z);
  acts : option (list (A -> A)); clip : option (A -> A) }.
Definition lenOf (p : rnnIn) (b : Z) : Z := match lens p with Some l => l b | None => seqLen p end.
Definition initOf (o : option (Z -> Z -> Z -> A)) (d b j : Z) : A := match o with Some f => f d b j | None => zero end.
Definition clipped (p : rnnIn) (x : A) : A := match clip p with Some f => f x | None => x end.
(** Activation number [q] of the [n] of direction [d]; [dflt] when not given. *)
Definition actOf (p : rnnIn) (n : nat) (d : Z) (q : nat) (dflt : A -> A) : A -> A :=
  match acts p with Some l => nth (Z.to_nat d * n + q) l dflt | None => dflt end.

(** The states of one sequence of a batch, [V] being the type of an element of the state:
    [cell t] is the step with the input of time [t]. After [n] steps: *)
Fixpoint states {V} (back : bool) (L : Z) (cell : Z -> (Z -> V) -> (Z -> V)) (s0 : Z -> V) (n : nat) : Z -> V :=
  match n with O => s0 | S m => cell (if back then L - 1 - Z.of_nat m else Z.of_nat m) (states back L cell s0 m) end.
(** The outputs: Y holds the state of each time step of the sequence, and [pad] after its end;
    the last state is also an output. *)
Definition outputsPadded {V} (pad : Z -> Z -> Z -> A) (p : rnnIn) (hid : V -> A) (cell : Z -> Z -> Z -> (Z -> V) -> (Z -> V)) (s0 : Z -> Z -> Z -> V)
    (Y : Z -> Z -> Z -> Z -> A) (last : Z -> Z -> Z -> V) : Prop :=
  forall d b j, 0 <= d < numDirections (dir p) -> 0 <= b < batch p -> 0 <= j < hidSize p ->
    let L := lenOf p b in let back := backwards (dir p) d in
    let st n := states back L (cell d b) (s0 d b) (Z.to_nat n) in
    last d b j = st L j /\
    forall t, 0 <= t < seqLen p -> Y t d b j = if t <? L then hid (st (if back then L - t else t + 1) j) else pad d b j.
(** ONNX pads with zero. *)
Definition goodOutputs {V} := @outputsPadded V (fun _ _ _ => zero).

(** The input of gate [g] of [n] in direction [d]: X_t * W_g^T + H_{t-1} * R_g^T and the biases. *)
Definition gate (p : rnnIn) (n g d b t : Z) (h : Z -> A) (j : Z) (extra : A -> A) : A :=
  let v := extra (add (mulRow (inSize p) (X p t b) (W p d) (g * hidSize p + j)) (mulRow (hidSize p) h (R p d) (g * hidSize p + j))) in
  match B p with
  | None => v
  | Some B => add (add v (B d (g * hidSize p + j))) (B d ((n + g) * hidSize p + j))
  end.
Definition plain (x : A) : A := x.

(** ** RNN: Ht = f(Xt*(Wi^T) + Ht-1*(Ri^T) + Wbi + Rbi) *)
Definition rnnCell (p : rnnIn) (tanh : A -> A) (d b t : Z) (h : Z -> A) : Z -> A :=
  fun j => actOf p 1 d 0 tanh (clipped p (gate p 1 0 d b t h j plain)).

(** ** GRU, gates z r h *)
Definition gruCell (p : rnnIn) (linearBeforeReset : bool) (sigmoid tanh : A -> A) (d b t : Z) (h : Z -> A) : Z -> A :=
  let f x := actOf p 2 d 0 sigmoid (clipped p x) in let g x := actOf p 2 d 1 tanh (clipped p x) in
  let H := hidSize p in
  let z j := f (gate p 3 0 d b t h j plain) in
  let r j := f (gate p 3 1 d b t h j plain) in
  let XtWh j := mulRow (inSize p) (X p t b) (W p d) (2 * H + j) in
  let Wbh v j := match B p with Some B => add v (B d (2 * H + j)) | None => v end in
  let Rbh v j := match B p with Some B => add v (B d (5 * H + j)) | None => v end in
  let ht j :=
    if linearBeforeReset then g (Wbh (add (XtWh j) (mul (r j) (Rbh (mulRow H h (R p d) (2 * H + j)) j))) j)
    else g (Wbh (Rbh (add (XtWh j) (mulRow H (fun k => mul (r k) (h k)) (R p d) (2 * H + j))) j) j) in
  fun j => add (mul (sub one (z j)) (ht j)) (mul (z j) (h j)).

(** ** LSTM, gates i o f c and peepholes i o f *)
Record lstmIn := { base : rnnIn; P : option (Z -> Z -> A); c0 : option (Z -> Z -> Z -> A); inputForget : bool }.
Definition lstmCell (q : lstmIn) (sigmoid tanh tanh' : A -> A) (d b t : Z) (s : Z -> A * A) : Z -> A * A :=
  let p := base q in
  let f x := actOf p 3 d 0 sigmoid (clipped p x) in let g x := actOf p 3 d 1 tanh (clipped p x) in let hh x := actOf p 3 d 2 tanh' (clipped p x) in
  let H := hidSize p in
  let h k := fst (s k) in let c k := snd (s k) in
  let peep (pos j : Z) (cell : A) (v : A) := match P q with Some P => add v (mul (P d (pos * H + j)) cell) | None => v end in
  let i j := f (gate p 4 0 d b t h j (peep 0 j (c j))) in
  let fo j := if inputForget q then sub one (i j) else f (gate p 4 2 d b t h j (peep 2 j (c j))) in
  let ct j := g (gate p 4 3 d b t h j plain) in
  let C j := add (mul (fo j) (c j)) (mul (i j) (ct j)) in
  let o j := f (gate p 4 1 d b t h j (peep 1 j (C j))) in
  fun j => (mul (o j) (hh (C j)), C j).
End Rnn.
Arguments rnnIn : clear implicits.
Arguments lstmIn : clear implicits.
