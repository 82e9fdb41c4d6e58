(* What a user of the compiler can see of the constants in a module.

   A compiler pass sees a tree of operations.  Each operation carries named
   attributes.  An attribute may be a dense constant, which holds its own
   values, or a disposable constant, which is a handle: reading it yields values
   only as long as its data has not been released.

   [observe] is the module as a reader sees it: every constant is replaced by the
   values that reading it yields, or [None] when its data is gone.  It does not
   tell dense and disposable constants apart. *)
From Coq Require Import String List Arith Bool.
Import ListNotations.
From Coq Require Import ZArith.
Local Open Scope nat_scope.

(* Attributes.  [AArray] stands for any attribute with attributes inside it
   (arrays, dictionaries); [AOther] for any attribute without constant data. *)
Inductive attr :=
| ADisp (id : nat)
| ADense (vals : list Z)
| AArray (l : list attr)
| AOther (n : nat).

(* An operation: its name, its attributes, and the operations of its regions. *)
Inductive op := Op (name : string) (attrs : list (string * attr)) (body : list op).

(* Every handle that occurs in an attribute, an operation, or below it. *)
Fixpoint attrIds (a : attr) : list nat :=
  match a with
  | ADisp id => [id]
  | AArray l => flat_map attrIds l
  | _ => []
  end.

Fixpoint opIds (o : op) : list nat :=
  match o with
  | Op _ attrs body => flat_map (fun p => attrIds (snd p)) attrs ++ flat_map opIds body
  end.

(* The module as a reader sees it. *)
Inductive seenAttr :=
| SValue (v : option (list Z))
| SArray (l : list seenAttr)
| SOther (n : nat).

Inductive seenOp := Seen (name : string) (attrs : list (string * seenAttr)) (body : list seenOp).

Fixpoint observeAttr (read : nat -> option (list Z)) (a : attr) : seenAttr :=
  match a with
  | ADisp id => SValue (read id)
  | ADense v => SValue (Some v)
  | AArray l => SArray (map (observeAttr read) l)
  | AOther n => SOther n
  end.

Fixpoint observe (read : nat -> option (list Z)) (o : op) : seenOp :=
  match o with
  | Op n attrs body =>
      Seen n (map (fun p => (fst p, observeAttr read (snd p))) attrs) (map (observe read) body)
  end.

(* Attribute names are unique within an operation. *)
Fixpoint uniqueNames (o : op) : Prop :=
  match o with
  | Op _ attrs body =>
      NoDup (map fst attrs) /\ (fix all l := match l with [] => True | x :: r => uniqueNames x /\ all r end) body
  end.

(* The caller names the places where handles may occur: for each operation name at
   most one attribute name.  [listed places o] says that handles occur nowhere
   else in [o] or below it. *)
Definition place (places : list (string * string)) (opName : string) : option string :=
  match find (fun p => String.eqb (fst p) opName) places with
  | Some p => Some (snd p)
  | None => None
  end.

Fixpoint listed (places : list (string * string)) (o : op) : Prop :=
  match o with
  | Op n attrs body =>
      (forall k a, In (k, a) attrs ->
         attrIds a = [] \/ (place places n = Some k /\ exists id, a = ADisp id)) /\
      (fix all l := match l with [] => True | x :: r => listed places x /\ all r end) body
  end.

(* The places that the compiler itself uses
   (src/Compiler/DisposableGarbageCollector.cpp 34-36,
   src/Dialect/ONNX/Transforms/ScrubDisposablePass.cpp 33-38). *)
Definition onnxPlaces : list (string * string) :=
  [("onnx.Constant"%string, "value"%string); ("onnx.ConstantOfShape"%string, "value"%string)].
