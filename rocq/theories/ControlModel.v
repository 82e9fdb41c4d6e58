(** The code emitted for Loop and Scan:
    /repo/src/Conversion/ONNXToKrnl/ControlFlow/Loop.cpp and Scan.cpp.

    A loop-carried value lives in one buffer for the whole loop, and the body's argument is
    that buffer. A body output is a new buffer, or the buffer of an argument when the body
    returns that argument (Identity and Reshape do not copy). The content of a buffer is one
    value of [V]: emitCopy (Loop.cpp 441-467, Scan.cpp 300-327) copies it as a whole, and
    copying a buffer to itself does not change it. Not modelled: sequences, scan outputs of
    a shape only known in the body, body outputs that are the buffer of the iteration number
    or of the condition. *)
From Coq Require Import List ZArith Bool.
From Verif Require Import Util ControlSpec.
Import ListNotations.
Open Scope Z_scope.

(** A body output after the body has run: the content of a new buffer, or an argument's
    buffer. *)
Inductive src (V : Type) := Val (v : V) | Buf (k : nat).
Arguments Val {V}. Arguments Buf {V}.

Section Control.
Context {V : Type}.
Definition runOut {I} (i : I) (args : list V) (o : out V I) : src V :=
  match o with Fresh f => Val (f i args) | View k => Buf k end.
(** The content found when the copy reads the buffer. *)
Definition readSrc (bufs : list V) (s : src V) : option V := match s with Val v => Some v | Buf k => nth_error bufs k end.
Fixpoint readAll (bufs : list V) (l : list (src V)) : option (list V) :=
  match l with [] => Some [] | s :: r => v <- readSrc bufs s ;; vs <- readAll bufs r ;; Some (v :: vs) end.
(** Loop.cpp 247-253 and Scan.cpp 158-163: the loop-carried values are copied to their buffers
    one after the other. *)
Fixpoint copyCarried (j : nat) (l : list (src V)) (bufs : list V) : option (list V) :=
  match l with
  | [] => Some bufs
  | s :: r => v <- readSrc bufs s ;; bufs <- zset bufs (Z.of_nat j) v ;; copyCarried (S j) r bufs
  end.

(** Loop.cpp 107-271, an iteration of the loop with a trip count; the state is the buffers of
    the loop-carried values, the rows of the scan outputs ([None]: not written) and the
    condition. The body is given the initial condition, and returns it (see isWhileLoop). The
    scan outputs are copied before the loop-carried values. *)
Definition countedStep (b : loopBody V) (cond0 : bool) (i : Z) (st : list V * list (option (list V)) * bool) : option (list V * list (option (list V)) * bool) :=
  let '(bufs, rows, cond) := st in
  if (cond : bool) then
    let carried := map (runOut (i, cond0) bufs) (bCarried b) in
    let scan := map (runOut (i, cond0) bufs) (bScan b) in
    row <- readAll bufs scan ;;
    rows <- zset rows i (Some row) ;;
    bufs <- copyCarried 0 carried bufs ;;
    Some (bufs, rows, cond0)
  else Some st.
(** Loop.cpp 60-323: the scan outputs are allocated for the whole trip count (a negative size
    is undefined). A missing trip count cannot be loaded, and a missing condition fails the
    assertion at 82. *)
Definition countedLoop (m : option Z) (cond : option bool) (b : loopBody V) (vs : list V) : option (list V * list (option (list V))) :=
  m <- m ;; cond0 <- cond ;;
  if (m <? 0) && negb (length (bScan b) =? 0)%nat then None else
  st <- foldM (countedStep b cond0) (zrange m) (vs, repeat None (Z.to_nat m), cond0) ;;
  Some (fst (fst st), snd (fst st)).

(** Loop.cpp 629-654: the parameters given to the body, matched in order with its arguments:
    the iteration number, the condition and the loop-carried values. A parameter of another
    kind does not type-check, a missing one is left unbound. *)
Inductive param := PIv | PCond | PCarried (k : nat).
Definition whileParams (hasM hasCond : bool) (n : nat) : list param :=
  (if hasM then [PIv] else []) ++ (if hasCond then [PCond] else []) ++ map PCarried (seq 0 n).
Definition wellBound (n : nat) (ps : list param) : bool :=
  if list_eq_dec (fun p q : param => ltac:(decide equality; apply Nat.eq_dec) : {p = q} + {p <> q}) ps (PIv :: PCond :: map PCarried (seq 0 n)) then true else false.

Inductive outcome (A : Type) := Done (a : A) | Failed | OutOfFuel.
Arguments Done {A}. Arguments Failed {A}. Arguments OutOfFuel {A}.
(** The buffers allocated for the results are not initialised. *)
Fixpoint allSome {A} (l : list (option A)) : option (list A) :=
  match l with [] => Some [] | o :: r => v <- o ;; vs <- allSome r ;; Some (v :: vs) end.
Fixpoint copyOutputs (j : nat) (first : option (list V)) (l : list (src V)) (outs : list (option V)) : option (list (option V)) :=
  match l with
  | [] => Some outs
  | s :: r =>
      v <- match s with Val v => Some v | Buf k => match first with Some vs => nth_error vs k | None => o <- nth_error outs k ;; o end end ;;
      outs <- zset outs (Z.of_nat j) (Some v) ;; copyOutputs (S j) first r outs
  end.
(** The scf.while, Loop.cpp 576-770. [first] is [Some] in the first iteration, when the body
    is given the initial values rather than the buffers of the results. *)
Fixpoint whileIter (fuel : nat) (m : option Z) (b : loopBody V) (i : Z) (cond : bool) (first : option (list V)) (outs : list (option V)) : outcome (list (option V)) :=
  if match m with Some n => i <? n | None => true end && cond then
    match fuel with
    | O => OutOfFuel
    | S fuel =>
        match (args <- match first with Some vs => Some vs | None => allSome outs end ;;
               outs' <- copyOutputs 0 first (map (runOut (i, cond) args) (bCarried b)) outs ;;
               Some (outs', match bCond b with Some f => f (i, cond) args | None => cond end)) with
        | Some (outs', cond') => whileIter fuel m b (i + 1) cond' None outs'
        | None => Failed
        end
    end
  else Done outs.
(** rewriteWithSCFWhile, Loop.cpp 514-775. Scan outputs are not supported (390-392). The
    results are the buffers, not the values of the scf.while (772). *)
Definition whileLoop (fuel : nat) (m : option Z) (cond : option bool) (b : loopBody V) (vs : list V) : outcome (list (option V)) :=
  match bScan b with
  | _ :: _ => Failed
  | [] =>
      if wellBound (length vs) (whileParams (if m then true else false) (if cond then true else false) (length vs)) then
        whileIter fuel m b 0 (match cond with Some c => c | None => true end) (Some vs) (repeat None (length vs))
      else Failed
  end.
(** isWhileLoop, Loop.cpp 480-512, and matchAndRewrite, 32-38. *)
Definition isWhileLoop (cond : option bool) (b : loopBody V) : bool :=
  match cond with None => false | Some _ => match bCond b with None => false | Some _ => true end end.
Definition loopLowering (fuel : nat) (m : option Z) (cond : option bool) (b : loopBody V) (vs : list V) : outcome (list (option V) * list (option (list V))) :=
  if isWhileLoop cond b then
    match whileLoop fuel m cond b vs with Done outs => Done (outs, []) | Failed => Failed | OutOfFuel => OutOfFuel end
  else match countedLoop m cond b vs with Some (bufs, rows) => Done (map Some bufs, rows) | None => Failed end.

(** Scan.cpp 84-180, an iteration; [inputs] are the scan inputs, lists of slices. The
    loop-carried values are copied before the scan outputs. *)
Fixpoint slicesAt (i : Z) (inputs : list (list V)) : option (list V) :=
  match inputs with [] => Some [] | x :: r => s <- zget x i ;; l <- slicesAt i r ;; Some (s :: l) end.
Definition scanStep (carried scan : list (out V (list V))) (inputs : list (list V)) (i : Z) (st : list V * list (option (list V))) : option (list V * list (option (list V))) :=
  let '(bufs, rows) := st in
  xs <- slicesAt i inputs ;;
  let carried := map (runOut xs bufs) carried in
  let scan := map (runOut xs bufs) scan in
  bufs <- copyCarried 0 carried bufs ;;
  row <- readAll bufs scan ;;
  rows <- zset rows i (Some row) ;;
  Some (bufs, rows).
(** Scan.cpp 28-193: as many iterations as the first scan input has slices. The attributes
    scan_input_directions and scan_output_directions are not looked at; the axes are asserted
    to be the default, /repo/src/Dialect/ONNX/ONNXOps/ControlFlow/Scan.cpp 67-68. *)
Definition scanLowering (inDirections outDirections : list bool) (carried scan : list (out V (list V))) (vs : list V) (inputs : list (list V)) : option (list V * list (option (list V))) :=
  match inputs with
  | [] => None
  | x :: _ => foldM (scanStep carried scan inputs) (zrange (Z.of_nat (length x))) (vs, repeat None (length x))
  end.
End Control.
Arguments Done {A}. Arguments Failed {A}. Arguments OutOfFuel {A}.
