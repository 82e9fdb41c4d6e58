(** What an ONNX graph means, what a region of operations means, and when a graph is
    well-scoped (ONNX IR: names are defined once, before use, and the names of a nested
    graph differ from those visible around it). *)
From Coq Require Import String List Bool Arith.
From Verif Require Import Util ImportModel.
Import ListNotations.
Open Scope string_scope.
Open Scope list_scope.

Section Meaning.
Context {O D : Type}.
(** A value; [None]: an optional value left out. *)
Definition value := option D.
(** What an operator computes from its inputs and its subgraphs, which it may run any
    number of times. *)
Context (sem : O -> list value -> list (list value -> option (list value)) -> option (list value)).

Fixpoint allSome {A B} (f : A -> option B) (l : list A) : option (list B) :=
  match l with [] => Some [] | x :: r => y <- f x ;; ys <- allSome f r ;; Some (y :: ys) end.

(** Environments: the innermost definition of a name hides the others. *)
Definition names := string -> option value.
Definition set (e : names) (n : string) (v : value) : names := fun m => if String.eqb m n then Some v else e m.
(** Missing results are values left out; an empty name binds nothing. *)
Fixpoint setAll (e : names) (ns : list string) (vs : list value) : names :=
  match ns with
  | [] => e
  | n :: ns => setAll (if String.eqb n "" then e else set e n (hd None vs)) ns (tl vs)
  end.
Definition input (e : names) (n : string) : option value := if String.eqb n "" then Some None else e n.
Definition outputOf (e : names) (n : string) : value := match e n with Some v => v | None => None end.

Fixpoint evalNode (n : node O D) (e : names) {struct n} : option names :=
  match n with
  | NOp o ins outs subs =>
      vs <- allSome (input e) ins ;;
      rs <- sem o vs (map (fun g vals => evalGraph g e vals) subs) ;;
      Some (setAll e outs rs)
  | NCall _ ins outs fins fouts body =>
      vs <- allSome (input e) ins ;;
      e' <- (fix evalNodes (l : list (node O D)) (e : names) := match l with [] => Some e | n :: r => e' <- evalNode n e ;; evalNodes r e' end)
              body (setAll (fun _ => None) fins vs) ;;
      Some (setAll e outs (map (outputOf e') fouts))
  end
with evalGraph (g : graph O D) (e : names) (vals : list value) {struct g} : option (list value) :=
  match g with
  | Graph _ inits inputs nodes outputs =>
      let free := filter (fun n => negb (existsb (fun i => String.eqb (fst i) n) inits)) inputs in
      if (length vals =? length free)%nat then
        let e1 := setAll e (map fst inits) (map (fun i => Some (snd i)) inits) in
        e' <- (fix evalNodes (l : list (node O D)) (e : names) := match l with [] => Some e | n :: r => e' <- evalNode n e ;; evalNodes r e' end)
                nodes (setAll e1 free vals) ;;
        allSome e' outputs
      else None
  end.

(** SSA: a value used before its definition is stuck. *)
Definition values := nat -> option value.
Definition setv (e : values) (k : nat) (v : value) : values := fun m => if Nat.eqb m k then Some v else e m.
Fixpoint setvAll (e : values) (ks : list nat) (vs : list value) : values :=
  match ks with [] => e | k :: ks => setvAll (setv e k (hd None vs)) ks (tl vs) end.
Fixpoint runOp (o : operation O D) (e : values) {struct o} : option values :=
  match o with
  | OpConst r d => Some (setv e r (Some d))
  | OpNone r => Some (setv e r None)
  | OpGen o args res regions =>
      vs <- allSome e args ;;
      rs <- sem o vs (map (fun g vals => runRegion g e vals) regions) ;;
      Some (setvAll e res rs)
  end
with runRegion (g : region O D) (e : values) (vals : list value) {struct g} : option (list value) :=
  match g with
  | Region args ops yields =>
      if (length vals =? length args)%nat then
        e' <- (fix runOps (l : list (operation O D)) (e : values) := match l with [] => Some e | o :: r => e' <- runOp o e ;; runOps r e' end)
                ops (setvAll e args vals) ;;
        allSome e' yields
      else None
  end.

(** The operator looks at its subgraphs only through what they compute, and a trailing
    input left out of an operator that is not variadic is the same as an empty one. *)
Definition respectful : Prop := forall o vs fs gs,
  Forall2 (fun f g => forall vals, f vals = g vals) fs gs -> sem o vs fs = sem o vs gs.
Definition trailing_optional (nIn : O -> option nat) : Prop := forall o vs fs, nIn o <> None -> sem o (vs ++ [None]) fs = sem o vs fs.

(** The meanings of a model: a main graph, given values for its inputs. *)
Definition meaning (g : graph O D) (vals : list value) : option (list value) := evalGraph g (fun _ => None) vals.
Definition behaviour (r : region O D) (vals : list value) : option (list value) := runRegion r (fun _ => None) vals.
End Meaning.

(** ** Well-scoped graphs. *)
Section Scoped.
Context {O D : Type}.
Definition named (l : list string) : list string := filter (fun n => negb (String.eqb n "")) l.
Definition usable (vis : list string) (n : string) : Prop := n = "" \/ In n vis.
Definition new (vis l : list string) : Prop := NoDup l /\ forall n, In n l -> n <> "" /\ ~ In n vis.
Definition outsOf (n : node O D) : list string := match n with NOp _ _ outs _ => outs | NCall _ _ outs _ _ _ => outs end.
(** A call names as many outputs as the function has, and the function defines them all. *)
Fixpoint scopedNode (vis : list string) (n : node O D) {struct n} : Prop :=
  match n with
  | NOp _ ins outs subs =>
      Forall (usable vis) ins /\ new vis (named outs) /\
      (fix all (l : list (graph O D)) := match l with [] => True | g :: r => scopedGraph vis g /\ all r end) subs
  | NCall _ ins outs fins fouts body =>
      Forall (usable vis) ins /\ new vis outs /\ (length ins <= length fins)%nat /\ length outs = length fouts /\
      new [] fins /\
      (fix all (vis : list string) (l : list (node O D)) := match l with [] => Forall (fun n => In n vis) fouts | n :: r => scopedNode vis n /\ all (vis ++ named (outsOf n)) r end) fins body
  end
with scopedGraph (vis : list string) (g : graph O D) {struct g} : Prop :=
  match g with
  | Graph _ inits inputs nodes outputs =>
      let free := filter (fun n => negb (existsb (fun i => String.eqb (fst i) n) inits)) inputs in
      new vis (map fst inits ++ free) /\
      (fix all (vis : list string) (l : list (node O D)) := match l with [] => Forall (fun n => In n vis) outputs | n :: r => scopedNode vis n /\ all (vis ++ named (outsOf n)) r end) (vis ++ map fst inits ++ free) nodes
  end.
End Scoped.

(** ** Lexical scoping, for histories of a symbol table. *)
Section Lexical.
Context {T : Type}.
Inductive event := Push (id : string) | Add (n : string) (v : T) | Pop (id : string).
(** The open scopes, innermost first. *)
Definition step (s : list (string * list (string * T))) (e : event) : list (string * list (string * T)) :=
  match e with
  | Push id => (id, []) :: s
  | Add n v => match s with (id, m) :: r => (id, (n, v) :: m) :: r | [] => [] end
  | Pop _ => tl s
  end.
Definition scopes (h : list event) : list (string * list (string * T)) := fold_left step h [].
Fixpoint lookup (m : list (string * T)) (n : string) : option T := match m with [] => None | (k, v) :: r => if String.eqb k n then Some v else lookup r n end.
Fixpoint firstOf (l : list (option T)) : option T := match l with [] => None | Some v :: _ => Some v | None :: r => firstOf r end.
Definition innermost (h : list event) (n : string) : option T := firstOf (map (fun s => lookup (snd s) n) (scopes h)).
Definition outermost (h : list event) (n : string) : option T := firstOf (rev (map (fun s => lookup (snd s) n) (scopes h))).
(** Names are added in an open scope that does not have them yet, and scopes closed in
    the reverse order of their opening. *)
Definition legal (h : list event) : Prop := forall h1 e h2, h = h1 ++ e :: h2 ->
  match e, scopes h1 with
  | Push _, _ => True
  | Add n _, (_, m) :: _ => lookup m n = None
  | Pop id, (id', _) :: _ => id = id'
  | _, [] => False
  end.
Definition no_shadowing (h : list event) : Prop := forall h1 n v h2, h = h1 ++ Add n v :: h2 -> innermost h1 n = None.
End Lexical.
Arguments event : clear implicits.
