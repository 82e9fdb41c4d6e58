(** A Loop operator in the intermediate representation, and its meaning. Values are integers
    (a boolean is 0 or 1): the tensors concerned have one element. *)
From Coq Require Import List ZArith Bool.
From Verif Require Import Util ControlSpec FloatDivModel FloatDiv32Model.
Import ListNotations.
Open Scope Z_scope.

(** A value of the body: one of its arguments (0: the iteration number, 1: the condition, then
    the loop-carried values), the result of one of its operations, or a value from outside. *)
Inductive bval := Arg (k : nat) | Op (n : nat) | Outer (v : nat).
(** Operations of the body: a constant, Add on signed integers of [w] bits, Less, anything else. *)
Inductive bop := BConst (z : Z) | BAdd (w : Z) (a b : bval) | BLess (a b : bval) | BOther (f : list Z -> Z) (l : list bval).
(** A bound of a counting loop: a constant of the body copied to the outside, or a value of the
    outside. *)
Inductive num := Cloned (z : Z) | Fed (v : nat).
(** Values defined outside: an integer constant, a value only known at run time, or the minimum of
    [m] and ceil ((ub - lb) / step), computed by the operators Sub, Cast, Cast, Div, Ceil, Cast, Min. *)
Inductive odef := OConst (z : Z) | OInput | OTrip (m : nat) (ub : num) (lb : nat) (step : num).
(** [operands]: the trip count, the condition, the initial values. [yields]: the condition, the
    loop-carried values, the scan outputs. *)
Record loop := { defs : list odef; operands : list nat; body : list bop; yields : list bval }.

Definition wrapTo (w z : Z) : Z := (z + 2 ^ (w - 1)) mod 2 ^ w - 2 ^ (w - 1).

Section Meaning.
(** [env]: the values only known at run time. [outs]: the values from outside, [None] when
    undefined. *)
Variable env : nat -> Z.
Definition numVal (outs : list (option Z)) (x : num) : option Z := match x with Cloned z => Some z | Fed v => nth v outs None end.
Definition tripVal (outs : list (option Z)) (m : nat) (ub : num) (lb : nat) (step : num) : option Z :=
  m <- nth m outs None ;; u <- numVal outs ub ;; l <- nth lb outs None ;; s <- numVal outs step ;;
  d <- ceilDiv32 (wrapTo 64 (u - l)) s ;; Some (Z.min m d).
Fixpoint outers (acc : list (option Z)) (ds : list odef) : list (option Z) :=
  match ds with
  | [] => acc
  | d :: r => outers (acc ++ [match d with OConst z => Some z | OInput => Some (env (length acc)) | OTrip m ub lb step => tripVal acc m ub lb step end]) r
  end.

Definition bodyVal (outs : list (option Z)) (args rs : list Z) (v : bval) : Z :=
  match v with Arg k => nth k args 0 | Op n => nth n rs 0 | Outer v => match nth v outs None with Some z => z | None => 0 end end.
Definition opVal (outs : list (option Z)) (args rs : list Z) (o : bop) : Z :=
  match o with
  | BConst z => z
  | BAdd w a b => wrapTo w (bodyVal outs args rs a + bodyVal outs args rs b)
  | BLess a b => if bodyVal outs args rs a <? bodyVal outs args rs b then 1 else 0
  | BOther f l => f (map (bodyVal outs args rs) l)
  end.
Definition bodyRun (outs : list (option Z)) (args : list Z) (ops : list bop) : list Z :=
  fold_left (fun rs o => rs ++ [opVal outs args rs o]) ops [].
Definition argsOf (ic : Z * bool) (vs : list Z) : list Z := fst ic :: (if snd ic then 1 else 0) :: vs.
Definition yieldVal (outs : list (option Z)) (ops : list bop) (ic : Z * bool) (vs : list Z) (y : bval) : Z :=
  bodyVal outs (argsOf ic vs) (bodyRun outs (argsOf ic vs) ops) y.
Definition bodyOf (outs : list (option Z)) (p : loop) (n : nat) : loopBody Z :=
  {| bCond := Some (fun ic vs => negb (yieldVal outs (body p) ic vs (nth 0 (yields p) (Arg 1)) =? 0));
     bCarried := map (fun y => Fresh (fun ic vs => yieldVal outs (body p) ic vs y)) (firstn n (tl (yields p)));
     bScan := map (fun y => Fresh (fun ic vs => yieldVal outs (body p) ic vs y)) (skipn n (tl (yields p))) |}.
(** The loop ends with these values and these rows of scan outputs. *)
Definition runs (p : loop) (final : list Z) (rows : list (list Z)) : Prop :=
  let outs := outers [] (defs p) in
  exists m c vs, map (fun v => nth v outs None) (operands p) = map Some (m :: c :: vs) /\
    onnx_loop (Some m) (bodyOf outs p (length vs)) 0 (negb (c =? 0)) vs final rows.
End Meaning.

(** Well-formed: operations use earlier ones, every value used exists, and the body returns the
    condition and every loop-carried value. *)
Definition okVal (nd no : nat) (v : bval) : Prop := match v with Arg _ => True | Op n => (n < no)%nat | Outer v => (v < nd)%nat end.
Definition okOp (nd no : nat) (o : bop) : Prop :=
  match o with BConst _ => True | BAdd _ a b | BLess a b => okVal nd no a /\ okVal nd no b | BOther _ l => Forall (okVal nd no) l end.
Definition okLoop (p : loop) : Prop :=
  let nd := length (defs p) in
  Forall (fun v => (v < nd)%nat) (operands p) /\ (forall n o, nth_error (body p) n = Some o -> okOp nd n o) /\
  Forall (okVal nd (length (body p))) (yields p) /\ (length (operands p) <= length (yields p) + 1)%nat.
