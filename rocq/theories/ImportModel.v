(** Importing an ONNX graph: the symbol table (src/Builder/SymbolTable.hpp), the order of
    nodes (src/Builder/ImportONNXUtils.cpp) and the translation to operations
    (src/Builder/FrontendDialectTransformer.cpp).

    Types, attributes, locations and dim_params are not modelled: an operator is an
    abstract [O] (with its attributes) and an initializer an abstract [D].  A failed
    assertion, a null or out-of-range access is [None]. *)
From Coq Require Import String List Bool Arith.
From Verif Require Import Util NodeOrderModel.
Import ListNotations.
Open Scope string_scope.
Open Scope list_scope.

(** ** SymbolTable.hpp *)
Section Table.
Context {T : Type}.
(** VariableScope, lines 19-62; nameToObject as the list of its bindings. *)
Record scope := { sId : string; sMap : list (string * T) }.
(** VariableScope::get, lines 156-160, and contains, lines 162-165. *)
Definition scopeGet (s : scope) (n : string) : option T := option_map snd (find (fun e => String.eqb (fst e) n) (sMap s)).
Definition scopeContains (s : scope) (n : string) : bool := existsb (fun e => String.eqb (fst e) n) (sMap s).
(** VariableScope::set, lines 150-154. *)
Definition scopeSet (s : scope) (n : string) (v : T) : option scope :=
  if scopeContains s n then None else Some {| sId := sId s; sMap := (n, v) :: sMap s |}.
(** SymbolMapping, lines 68-110: scopes from outermost to innermost. *)
Definition table := list scope.
(** GetByOnnxName, lines 117-123. *)
Fixpoint getByOnnxName (t : table) (n : string) : option T :=
  match t with
  | [] => None
  | s :: r => match scopeGet s n with Some v => Some v | None => getByOnnxName r n end
  end.
(** AddMapping, lines 125-130. *)
Fixpoint addMapping (t : table) (n : string) (v : T) : option table :=
  match t with
  | [] => None
  | [s] => if scopeContains s n then None else s' <- scopeSet s n v ;; Some [s']
  | s :: r => r' <- addMapping r n v ;; Some (s :: r')
  end.
(** ContainsKey, lines 132-136. *)
Definition containsKey (t : table) (n : string) : bool := existsb (fun s => scopeContains s n) t.
(** pushScope, lines 138-141. *)
Definition pushScope (t : table) (id : string) : table := t ++ [{| sId := id; sMap := [] |}].
(** popScope, lines 143-147. *)
Fixpoint popScope (t : table) (id : string) : option table :=
  match t with
  | [] => None
  | [s] => if String.eqb (sId s) id then Some [] else None
  | s :: r => r' <- popScope r id ;; Some (s :: r')
  end.
End Table.
Arguments scope : clear implicits.
Arguments table : clear implicits.

(** ** ONNX graphs (NodeProto, GraphProto, FunctionProto).
    A call carries the body of the function it resolves to, with its attributes
    substituted (FrontendDialectTransformer.cpp:1240-1312). *)
Section Graphs.
Context {O D : Type}.
Inductive node :=
| NOp (o : O) (ins outs : list string) (subs : list graph)
| NCall (id : string) (ins outs : list string) (fins fouts : list string) (body : list node)
with graph :=
| Graph (id : string) (inits : list (string * D)) (inputs : list string) (nodes : list node) (outputs : list string).

(** ** Operations in SSA form; values are numbers. *)
Inductive operation :=
| OpConst (r : nat) (d : D)
| OpNone (r : nat)
| OpGen (o : O) (args res : list nat) (regions : list region)
with region := Region (args : list nat) (ops : list operation) (yields : list nat).

(** The importer's state: frontend_symbols_ (line 195) and the next new value. *)
Record state := { tab : table nat; next : nat }.
Definition bindName (st : state) (n : string) (v : nat) : option state :=
  t <- addMapping (tab st) n v ;; Some {| tab := t; next := next st |}.
Definition fresh (st : state) (k : nat) : list nat * state := (seq (next st) k, {| tab := tab st; next := next st + k |}).
(** getNodeInputs, lines 863-873: a name that is not found is left out. *)
Fixpoint getNodeInputs (st : state) (ins : list string) : list nat * list operation * state :=
  match ins with
  | [] => ([], [], st)
  | n :: r =>
      if String.eqb n "" then
        let v := next st in
        let '(vs, ops, st') := getNodeInputs {| tab := tab st; next := S v |} r in (v :: vs, OpNone v :: ops, st')
      else
        let '(vs, ops, st') := getNodeInputs st r in
        (match getByOnnxName (tab st) n with Some v => v :: vs | None => vs end, ops, st')
  end.
(** ImportFunctionCallNode, lines 1222-1236: here a name not found is a null access. *)
Fixpoint getCallInputs (st : state) (ins : list string) : option (list nat * list operation * state) :=
  match ins with
  | [] => Some ([], [], st)
  | n :: r =>
      if String.eqb n "" then
        let v := next st in
        p <- getCallInputs {| tab := tab st; next := S v |} r ;; let '(vs, ops, st') := p in Some (v :: vs, OpNone v :: ops, st')
      else
        v <- getByOnnxName (tab st) n ;;
        p <- getCallInputs st r ;; let '(vs, ops, st') := p in Some (v :: vs, ops, st')
  end.
(** Lines 768-772 and 815-817: missing trailing operands are none values, missing trailing
    results are added; [None] when variadic. *)
Definition padInputs (expected : option nat) (n : nat) : nat := match expected with Some e => e - n | None => 0 end.
Definition noneOps (vs : list nat) : list operation := map OpNone vs.
(** Lines 854-860: results are bound by position, empty names skipped. *)
Fixpoint bindOutputs (st : state) (outs : list string) (rs : list nat) : option state :=
  match outs, rs with
  | [], _ => Some st
  | _ :: _, [] => None
  | n :: outs, r :: rs => if String.eqb n "" then bindOutputs st outs rs else st' <- bindName st n r ;; bindOutputs st' outs rs
  end.
(** Lines 1380-1384: names bound to the outputs that were found. *)
Fixpoint bindCallOutputs (st : state) (outs : list string) (rs : list nat) : option state :=
  match rs, outs with
  | [], _ => Some st
  | _ :: _, [] => None
  | r :: rs, n :: outs => st' <- bindName st n r ;; bindCallOutputs st' outs rs
  end.
Fixpoint bindAll (st : state) (l : list (string * nat)) : option state :=
  match l with [] => Some st | (n, v) :: r => st' <- bindName st n v ;; bindAll st' r end.
(** Lines 501-505. *)
Fixpoint importInits (st : state) (inits : list (string * D)) : option (list operation * state) :=
  match inits with
  | [] => Some ([], st)
  | (n, d) :: r =>
      let v := next st in
      st' <- bindName {| tab := tab st; next := S v |} n v ;;
      p <- importInits st' r ;; Some (OpConst v d :: fst p, snd p)
  end.
Definition uninitialized (inits : list (string * D)) (inputs : list string) : list string :=
  filter (fun n => negb (existsb (fun e => String.eqb (fst e) n) inits)) inputs.
Fixpoint findAll (t : table nat) (names : list string) : option (list nat) :=
  match names with [] => Some [] | n :: r => v <- getByOnnxName t n ;; vs <- findAll t r ;; Some (v :: vs) end.
Fixpoint findSome (t : table nat) (names : list string) : list nat :=
  match names with [] => [] | n :: r => match getByOnnxName t n with Some v => v :: findSome t r | None => findSome t r end end.

(** The number of operands and results of an operator; [None]: variadic. *)
Context (nIn nOut : O -> option nat).
(** ImportNode, lines 1405-1436, through buildOperation (875-884) and
    buildOutputAndOperation (752-861), and ImportFunctionCallNode (1213-1385). *)
Fixpoint importNode (n : node) (st : state) {struct n} : option (list operation * state) :=
  match n with
  | NOp o ins outs subs =>
      let '(vs, ops1, st1) := getNodeInputs st ins in
      let '(pads, st2) := fresh st1 (padInputs (nIn o) (length vs)) in
      let '(res, st3) := fresh st2 (length outs + padInputs (nOut o) (length outs)) in
      p <- (fix importSubs (subs : list graph) (st : state) : option (list region * state) :=
              match subs with
              | [] => Some ([], st)
              | g :: r => p <- importGraph g st ;; q <- importSubs r (snd p) ;; Some (fst p :: fst q, snd q)
              end) subs st3 ;;
      st5 <- bindOutputs (snd p) outs res ;;
      Some (ops1 ++ noneOps pads ++ [OpGen o (vs ++ pads) res (fst p)], st5)
  | NCall id ins outs fins fouts body =>
      p <- getCallInputs st ins ;;
      let '(vs, ops1, st1) := p in
      if (length ins <=? length fins)%nat && (length outs <=? length fouts)%nat then
        let '(pads, st2) := fresh st1 (length fins - length ins) in
        st3 <- bindAll {| tab := pushScope [] id; next := next st2 |} (combine fins (vs ++ pads)) ;;
        q <- (fix importNodes (l : list node) (st : state) : option (list operation * state) :=
                match l with
                | [] => Some ([], st)
                | n :: r => p <- importNode n st ;; q <- importNodes r (snd p) ;; Some (fst p ++ fst q, snd q)
                end) body st3 ;;
        let outputs := findSome (tab (snd q)) fouts in
        _ <- popScope (tab (snd q)) id ;;
        st5 <- bindCallOutputs {| tab := tab st1; next := next (snd q) |} outs outputs ;;
        Some (ops1 ++ noneOps pads ++ fst q, st5)
      else None
  end
(** importGraph, lines 492-620. *)
with importGraph (g : graph) (st : state) {struct g} : option (region * state) :=
  match g with
  | Graph id inits inputs nodes outputs =>
      p <- importInits {| tab := pushScope (tab st) id; next := next st |} inits ;;
      let free := uninitialized inits inputs in
      let '(args, st2) := fresh (snd p) (length free) in
      st3 <- bindAll st2 (combine free args) ;;
      q <- (fix importNodes (l : list node) (st : state) : option (list operation * state) :=
              match l with
              | [] => Some ([], st)
              | n :: r => p <- importNode n st ;; q <- importNodes r (snd p) ;; Some (fst p ++ fst q, snd q)
              end) nodes st3 ;;
      yields <- findAll (tab (snd q)) outputs ;;
      t <- popScope (tab (snd q)) id ;;
      Some (Region args (fst p ++ fst q) yields, {| tab := t; next := next (snd q) |})
  end.
(** importGraph of the main graph, lines 1532-1546. *)
Definition importMain (g : graph) : option region := option_map fst (importGraph g {| tab := []; next := 0 |}).
(** NodeProto::input and output. *)
Definition nodeIns (n : node) : list string := match n with NOp _ ins _ _ => ins | NCall _ ins _ _ _ _ => ins end.
Definition nodeOuts (n : node) : list string := match n with NOp _ _ outs _ => outs | NCall _ _ outs _ _ _ => outs end.
(** ImportFrontendModelInternal, lines 1566-1608, without the conversion of versions: the
    boolean returned, and the module. *)
Inductive importResult := Imported (r : region) | Rejected | Crashed.
Definition importModel (allowSorting : bool) (g : graph) : importResult :=
  let import g := match importMain g with Some r => Imported r | None => Crashed end in
  match g with
  | Graph id inits inputs nodes outputs =>
      if allowSorting && negb (isTopologicallySorted nodeIns nodeOuts (map fst inits ++ inputs) nodes) then
        match sortGraph nodeIns nodeOuts (map fst inits) inputs nodes with
        | Sorted l => import (Graph id inits inputs l outputs)
        | NotSortable => Rejected
        | Stuck => Crashed
        end
      else import g
  end.
(** ImportFrontendModelArray, lines 1611-1624, of a model that parses: the error code and
    the module; [None]: crashed. *)
Definition importArray (allowSorting : bool) (g : graph) : option (nat * option region) :=
  match importModel allowSorting g with Imported r => Some (0%nat, Some r) | Rejected => Some (0%nat, None) | Crashed => None end.
End Graphs.
Arguments node : clear implicits.
Arguments graph : clear implicits.
Arguments operation : clear implicits.
Arguments region : clear implicits.
Arguments importResult : clear implicits.

(** ** Two handlers with their own treatment of inputs; operands as the names they come
    from, constants and none values. *)
Inductive operand := FromName (n : string) | DefaultRatio | DefaultTraining | NoValue.
(** ImportNodeDropout, lines 978-1020 (three operands); [known]: names in the table. *)
Definition dropoutOperands (known : string -> bool) (ins : list string) : list operand :=
  if (length ins =? 3)%nat then map (fun n => if String.eqb n "" then NoValue else FromName n) (filter (fun n => String.eqb n "" || known n) ins)
  else
    let found := map FromName (filter known ins) in
    let l := found ++ (if (length ins <? 2)%nat then [DefaultRatio] else []) ++ (if (length ins <? 3)%nat then [DefaultTraining] else []) in
    l ++ repeat NoValue (3 - length l).
(** ImportNodeSlice, lines 1068-1081 (inputs given as inputs). *)
Definition sliceOperands (known : string -> bool) (ins : list string) : option (list operand) :=
  if forallb known ins then Some (map FromName ins ++ repeat NoValue (5 - length ins)) else None.

(** ** GetImportVersionOfNode, lines 1132-1205: both lists are newest first; the answer is
    the version suffix, [None] for none.  The empty lists of a custom operator give [None]. *)
Definition newestValid (opsets : list nat) (current : nat) : nat :=
  match find (fun v => v <=? current)%nat opsets with Some v => v | None => last opsets 0 end.
Definition importVersion (supported opsets : list nat) (current : nat) : option nat :=
  match supported with
  | [] => None
  | front :: _ =>
      let v := newestValid opsets current in
      if (front <=? v)%nat then None
      else find (fun s => (v <=? s)%nat && negb (s =? front)%nat) (rev supported)
  end.
