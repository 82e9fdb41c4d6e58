(** What Loop and Scan mean, from the ONNX operator definitions. *)
From Coq Require Import List ZArith Bool.
Import ListNotations.
Open Scope Z_scope.

Section Spec.
Context {V : Type}.

(** An output of a body graph: one of the body's loop-carried arguments passed on (possibly
    under another shape), or computed by a function of the iteration number, the condition
    and the loop-carried arguments (for Scan: the iteration number stands for the slices). *)
Inductive out (I : Type) :=
| Fresh (f : I -> list V -> V)
| View (k : nat).
Arguments Fresh {I}. Arguments View {I}.
Definition value {I} (i : I) (vs : list V) (o : out I) : option V :=
  match o with Fresh f => Some (f i vs) | View k => nth_error vs k end.
Fixpoint values {I} (i : I) (vs : list V) (os : list (out I)) : option (list V) :=
  match os with
  | [] => Some []
  | o :: r => match value i vs o, values i vs r with Some v, Some l => Some (v :: l) | _, _ => None end
  end.

(** The body of a Loop; [bCond] is [None] when the body returns the condition it is given. *)
Record loopBody := { bCond : option (Z * bool -> list V -> bool); bCarried : list (out (Z * bool)); bScan : list (out (Z * bool)) }.

(** ONNX Loop: at iteration [i] with condition [c] and carried values [vs], the loop ends with
    these final values, having produced these rows of scan outputs. [m]: the trip count. *)
Inductive onnx_loop (m : option Z) (b : loopBody) : Z -> bool -> list V -> list V -> list (list V) -> Prop :=
| loop_stop i c vs : (c = false \/ exists n, m = Some n /\ n <= i) -> onnx_loop m b i c vs vs []
| loop_step i vs vs' row final rows :
    (forall n, m = Some n -> i < n) ->
    values (i, true) vs (bCarried b) = Some vs' -> values (i, true) vs (bScan b) = Some row ->
    onnx_loop m b (i + 1) (match bCond b with Some f => f (i, true) vs | None => true end) vs' final rows ->
    onnx_loop m b i true vs final (row :: rows).

(** ONNX Scan: one iteration per list of slices of the scan inputs. *)
Inductive onnx_scan (carried scan : list (out (list V))) : list (list V) -> list V -> list V -> list (list V) -> Prop :=
| scan_stop vs : onnx_scan carried scan [] vs vs []
| scan_step xs slices vs vs' row final rows :
    values xs vs carried = Some vs' -> values xs vs scan = Some row ->
    onnx_scan carried scan slices vs' final rows ->
    onnx_scan carried scan (xs :: slices) vs final (row :: rows).
End Spec.
Arguments out : clear implicits.
Arguments Fresh {V I}. Arguments View {V I}.
Arguments loopBody : clear implicits.

(** A body whose outputs only refer to existing arguments. *)
Definition refersBelow {V I} (n : nat) (os : list (out V I)) : Prop := forall k, In (View k) os -> (k < n)%nat.
Definition wf {V} (b : loopBody V) (n : nat) : Prop := length (bCarried b) = n /\ refersBelow n (bCarried b) /\ refersBelow n (bScan b).
(** No output passes on the argument of an earlier position. *)
Definition inOrder {V I} (os : list (out V I)) : Prop := forall j k, nth_error os j = Some (View k) -> (j <= k)%nat.
