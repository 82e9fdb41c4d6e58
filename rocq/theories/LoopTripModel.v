(** LoopOpRewriteMaxTripCountPattern:
    /repo/src/Dialect/ONNX/ONNXOps/Canonicalize.cpp 760-1010. [None]: an operand is read out of
    bounds, or the arithmetic of the compiler is undefined. Not modelled: the checks that element
    types are integers, unsigned types, body arguments of an enclosing loop. *)
From Coq Require Import List ZArith Bool Arith.
From Verif Require Import Util FloatDivModel FloatDiv32Model LoopTripSpec.
Import ListNotations.
Open Scope Z_scope.

Definition bval_eqb (a b : bval) : bool :=
  match a, b with Arg k, Arg j | Op k, Op j | Outer k, Outer j => Nat.eqb k j | _, _ => false end.

Section Match.
Variable p : loop.
(** 804-812 isDefinedByIntegerConstantOp, outside and in the body; with the constant, see 856-859. *)
Definition outerConst (v : nat) : option Z := match nth_error (defs p) v with Some (OConst z) => Some z | _ => None end.
Definition bodyConst (v : bval) : option Z :=
  match v with
  | Arg _ => None
  | Op n => match nth_error (body p) n with Some (BConst z) => Some z | _ => None end
  | Outer v => outerConst v
  end.
(** 823, 844: operand [k - 1] of the YieldOp. *)
Definition yieldOfArg (k : nat) : option bval := match k with O => None | S j => nth_error (yields p) j end.
(** 819-825 and 839-846. *)
Definition isInvariantBlockArg (v : bval) : option bool :=
  match v with Arg k => y <- yieldOfArg k ;; Some (bval_eqb v y) | _ => Some false end.
Definition isUpdatedArgByValue (v newV : bval) : option bool :=
  match v with Arg k => y <- yieldOfArg k ;; Some (bval_eqb newV y) | _ => Some false end.
(** 829-832 isIntConstantOrInvariantBlockArg and, when it holds, the value outside the loop
    (849-851 getFedValue, 943-956). [Some None]: it does not hold. *)
Definition bound (v : bval) : option (option num) :=
  match v with
  | Arg k => i <- isInvariantBlockArg v ;; if (i : bool) then x <- nth_error (operands p) k ;; Some (Some (Fed x)) else Some None
  | _ => Some (option_map Cloned (bodyConst v))
  end.

(** 874-941: the lower bound, the upper bound, the step and the width of the counter. *)
Definition matchFor : option (option (nat * num * num * Z)) :=
  m <- nth_error (operands p) 0 ;;
  match outerConst m with
  | None => Some None
  | Some _ =>
    breakCond <- nth_error (yields p) 0 ;;
    match breakCond with
    | Op c =>
      match nth_error (body p) c with
      | Some (BLess (Op a) ubValue) =>
        match nth_error (body p) a with
        | Some (BAdd w counter stepValue) =>
          upd <- isUpdatedArgByValue counter (Op a) ;;
          if (upd : bool) then
            step <- bound stepValue ;;
            match step with
            | None => Some None
            | Some step =>
              lb <- (match counter with Arg k => nth_error (operands p) k | _ => None end) ;;
              ub <- bound ubValue ;;
              match ub with None => Some None | Some ub => Some (Some (lb, ub, step, w)) end
            end
          else Some None
        | _ => Some None
        end
      | _ => Some None
      end
    | _ => Some None
    end
  end.

Definition numConst (x : num) : option Z := match x with Cloned z => Some z | Fed v => outerConst v end.
(** 958-1009: the definition of the new trip count. *)
Definition newTrip (lb : nat) (ub step : num) : option (option odef) :=
  m <- nth_error (operands p) 0 ;;
  match outerConst lb, numConst ub, numConst step with
  | Some l, Some u, Some s =>
    if (s <=? 0) || (u <=? l) then Some None else
    range <- int64_range (u - l) ;;
    derived <- lit_ceilDiv range s ;;
    maxTrip <- outerConst m ;;
    if maxTrip <=? derived then Some None else Some (Some (OConst derived))
  | _, _, _ => Some (Some (OTrip m ub lb step))
  end.

(** 763-798: every operand equal to the trip count is replaced, and the body returns the
    condition it is given. *)
Definition rewriteLoop : option (option loop) :=
  f <- matchFor ;;
  match f with
  | None => Some None
  | Some (lb, ub, step, _) =>
    d <- newTrip lb ub step ;;
    match d with
    | None => Some None
    | Some d =>
      m <- nth_error (operands p) 0 ;;
      Some (Some {| defs := defs p ++ [d];
        operands := map (fun v => if Nat.eqb v m then length (defs p) else v) (operands p);
        body := body p; yields := Arg 1 :: tl (yields p) |})
    end
  end.
End Match.
