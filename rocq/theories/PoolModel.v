(* The pool of disposable constants:
   src/Dialect/ONNX/ElementsAttr/DisposablePool.cpp and the parts of
   DisposableElementsAttr.cpp it calls.

   Simplifications.
   - Element data is a list of integers; what strides, element types and the
     transformer make of the buffer is one function [sView] from the bytes to the
     element values (the content of that function is modelled in Elements*.v).
   - A buffer is an identity and its bytes; reference counting is the set of
     attributes that still hold it.
   - Handles are natural numbers; the 64-bit counter does not wrap.
   - Memory-model effects inside one conversion are reduced to: a conversion starts,
     reads its data, and ends; releasing the data between start and end is a crash. *)
From Coq Require Import String List Arith Bool.
Import ListNotations.
From Coq Require Import ZArith.
From Verif Require Import PoolSpec.
Local Open Scope nat_scope.

(* DisposableElementsAttributeStorage: DisposableElementsAttr.cpp 59-73 fills in the
   buffer and the transformer. *)
Record storage := {
  sBuf : option (nat * list Z);
  sView : list Z -> list Z;
  sCount : nat
}.

(* DisposableElementsAttr::dispose, DisposableElementsAttr.cpp 75-78. *)
Definition dispose (s : storage) : storage :=
  {| sBuf := None; sView := fun b => b; sCount := sCount s |}.

(* toDenseElementsAttr: reads through getBuffer, which asserts that the attribute is
   not disposed (DisposableElementsAttr.cpp 96-99).  [None] is that assertion. *)
Definition toDense (s : storage) : option (list Z) :=
  match sBuf s with Some (_, bytes) => Some (sView s bytes) | None => None end.

(* The heap of attribute storages.  They belong to the MLIR context and are never
   deallocated; only their buffers are released. *)
Definition heap := nat -> option storage.
Definition upd (h : heap) (id : nat) (s : storage) : heap :=
  fun j => if Nat.eqb j id then Some s else h j.
Definition disposeAt (h : heap) (id : nat) : heap :=
  match h id with Some s => upd h id (dispose s) | None => h end.
Definition readAt (h : heap) (id : nat) : option (list Z) :=
  match h id with Some s => toDense s | None => None end.

Inductive crash :=
| UseAfterDispose       (* assert(!isDisposed()) *)
| NotInPool             (* "reachable / scrubbed disposables must be in the pool" *)
| PoolNotEmpty          (* "pool must be scrubbed before close" *)
| DuplicateId           (* "cannot insert existing DisposableElementsAttr" *)
| NoTranslation         (* translations.at throws, or setAttr with a null attribute *)
| NoSuchThread.         (* not a behaviour of the code: a schedule or event naming
                           a thread that does not exist *)

Inductive result (A : Type) := Ok (a : A) | Crash (c : crash).
Arguments Ok {A} _.
Arguments Crash {A} _.

Definition bind {A B} (r : result A) (f : A -> result B) : result B :=
  match r with Ok a => f a | Crash c => Crash c end.

(* walkOpsAttrs, DisposablePool.cpp 43-58, where the action applies: the operation's
   name is looked up in the dictionary (a map filled from the list, so the first
   entry for a name wins), and the attribute must be a disposable. *)
Definition hit (places : list (string * string)) (n : string) (attrs : list (string * attr))
  : option (string * nat) :=
  match place places n with
  | None => None
  | Some k =>
      match find (fun p => String.eqb (fst p) k) attrs with
      | Some (_, ADisp id) => Some (k, id)
      | _ => None
      end
  end.

(* walkOpsAttrs as used by lines 63-67 and 82-87: the handles met, nested operations
   first (Operation::walk is post-order). *)
Fixpoint walkIds (places : list (string * string)) (o : op) : list nat :=
  match o with
  | Op n attrs body =>
      flat_map (walkIds places) body ++
      match hit places n attrs with Some (_, id) => [id] | None => [] end
  end.

(* op->setAttr. *)
Fixpoint setAttr (k : string) (a : attr) (attrs : list (string * attr)) : list (string * attr) :=
  match attrs with
  | [] => [(k, a)]
  | (k', a') :: r => if String.eqb k' k then (k, a) :: r else (k', a') :: setAttr k a r
  end.

Definition mapResult {A B} (f : A -> result B) : list A -> result (list B) :=
  fix go l :=
    match l with
    | [] => Ok []
    | x :: r => bind (f x) (fun y => bind (go r) (fun ys => Ok (y :: ys)))
    end.

(* The second walk of scrub, lines 133-138.  [table] is what the workers left. *)
Fixpoint replaceOps (places : list (string * string)) (table : nat -> option (list Z)) (o : op)
  : result op :=
  match o with
  | Op n attrs body =>
      bind (mapResult (replaceOps places table) body) (fun body' =>
        match hit places n attrs with
        | None => Ok (Op n attrs body')
        | Some (k, id) =>
            match table id with
            | None => Crash NoTranslation
            | Some v => Ok (Op n (setAttr k (ADense v) attrs) body')
            end
        end)
  end.

Record state := {
  counter : nat;          (* static std::atomic<size_t> counter, line 30 *)
  store : heap;
  pool : list nat;        (* keys of the unordered_map, in iteration order *)
  active : bool;
  pending : list nat;     (* threads inside createElementsAttr between lines 31 and 34 *)
  held : list nat;        (* handles in local variables of running passes *)
  modul : op
}.

Definition initial (m : op) : state :=
  {| counter := 0; store := fun _ => None; pool := []; active := true; pending := [];
     held := []; modul := m |}.

Definition memb (x : nat) (l : list nat) : bool := existsb (Nat.eqb x) l.

(* createElementsAttr, lines 30-33: take a fresh id and create the storage.  Other
   threads can run between this and [finishCreate]. *)
Definition beginCreate (st : state) (s : storage) : state :=
  let id := S (counter st) in
  {| counter := id; store := upd (store st) id s; pool := pool st; active := active st;
     pending := id :: pending st; held := held st; modul := modul st |}.

Inductive created := Handle (id : nat) | Dense (vals : list Z).

Definition removeId (id : nat) (l : list nat) : list nat :=
  filter (fun x => negb (Nat.eqb x id)) l.

(* createElementsAttr, lines 34-40, with insert, lines 166-176: under the mutex, add
   to the pool if it is active; otherwise convert to dense and dispose. *)
Definition finishCreate (st : state) (id : nat) : result (state * created) :=
  if negb (memb id (pending st)) then Crash NoSuchThread
  else
    if active st then
      if memb id (pool st) then Crash DuplicateId
      else Ok ({| counter := counter st; store := store st; pool := id :: pool st;
                  active := active st; pending := removeId id (pending st);
                  held := id :: held st; modul := modul st |}, Handle id)
    else
      match readAt (store st) id with
      | None => Crash UseAfterDispose
      | Some v =>
          Ok ({| counter := counter st; store := disposeAt (store st) id; pool := pool st;
                 active := active st; pending := removeId id (pending st);
                 held := held st; modul := modul st |}, Dense v)
      end.

(* eraseUnreachable, lines 178-191: the pool is walked in iteration order. *)
Fixpoint eraseUnreachable (reachable : list nat) (h : heap) (p : list nat) : heap * list nat :=
  match p with
  | [] => (h, [])
  | id :: r =>
      if memb id reachable then
        let (h', r') := eraseUnreachable reachable h r in (h', id :: r')
      else eraseUnreachable reachable (disposeAt h id) r
  end.

(* garbageCollectUnreachable, lines 60-77.  The collector assumes that nothing but the
   module refers to a constant (DisposablePool.hpp 20-24), so no pass holds one. *)
Definition collect (places : list (string * string)) (st : state) : result state :=
  let reachable := walkIds places (modul st) in
  if forallb (fun id => memb id (pool st)) reachable then
    let (h, p) := eraseUnreachable reachable (store st) (pool st) in
    Ok {| counter := counter st; store := h; pool := p; active := active st;
          pending := pending st; held := held st; modul := modul st |}
  else Crash NotInPool.

(* DisposableGarbageCollector::runAfterPass, DisposableGarbageCollector.cpp 28-38, on a
   module. *)
Definition runAfterPass (st : state) : result state :=
  if active st then collect onnxPlaces st else Ok st.

(* ---- scrub, lines 79-151 ---- *)

(* The workers share the list of translations, the iterator [next], and the heap. *)
Inductive worker :=
| WFetch                                        (* about to call fetchBatch *)
| WConvert (i hi : nat)                         (* about to convert entry i; batch ends at hi *)
| WReading (i hi : nat)                         (* inside toDenseElementsAttr *)
| WDispose (i hi : nat)                         (* dense is stored; about to dispose *)
| WDone.

Record scrubbing := {
  entries : list (nat * option (list Z));       (* translations *)
  nextIdx : nat;
  workers : list worker;
  sheap : heap;
  conversions : list nat                        (* ghost: handles in order of conversion *)
}.

Definition sizeAt (h : heap) (es : list (nat * option (list Z))) (i : nat) : nat :=
  match nth_error es i with
  | Some (id, _) => match h id with Some s => sCount s | None => 0 end
  | None => 0
  end.

(* The loop of fetchBatch, lines 105-111.  The size that is added is that of the entry
   at [next], not at [batchEnd], as in the code. *)
Fixpoint growBatch (fuel : nat) (sz : nat) (n : nat) (batchEnd count aggregate : nat) : nat :=
  match fuel with
  | 0 => batchEnd
  | S f =>
      if (count <? 10) && (aggregate <? 1000) && negb (Nat.eqb batchEnd n) then
        growBatch f sz n (S batchEnd) (S count) (aggregate + sz)
      else batchEnd
  end.

(* The loop body runs at most 10 times because of [count]. *)
Definition batchEnd (c : scrubbing) : nat :=
  growBatch 10 (sizeAt (sheap c) (entries c) (nextIdx c)) (length (entries c)) (nextIdx c) 0 0.

Fixpoint setNth {A} (l : list A) (i : nat) (x : A) : list A :=
  match l, i with
  | [], _ => []
  | _ :: r, 0 => x :: r
  | y :: r, S j => y :: setNth r j x
  end.

Definition afterEntry (i hi : nat) : worker :=
  if S i <? hi then WConvert (S i) hi else WFetch.

(* Is some worker inside the conversion of this handle? *)
Definition reading (c : scrubbing) (id : nat) : bool :=
  existsb (fun w =>
    match w with
    | WReading i _ =>
        match nth_error (entries c) i with Some (id', _) => Nat.eqb id' id | None => false end
    | _ => false
    end) (workers c).

(* One step of worker [k]: the body of [work], lines 116-129.  fetchBatch and dispose
   run under translationMutex and are single steps; a conversion takes two. *)
Definition workerStep (c : scrubbing) (k : nat) : result scrubbing :=
  match nth_error (workers c) k with
  | None => Crash NoSuchThread
  | Some WDone => Ok c
  | Some WFetch =>
      let e := batchEnd c in
      if Nat.eqb (nextIdx c) e then
        Ok {| entries := entries c; nextIdx := e; workers := setNth (workers c) k WDone;
              sheap := sheap c; conversions := conversions c |}
      else
        Ok {| entries := entries c; nextIdx := e;
              workers := setNth (workers c) k (WConvert (nextIdx c) e);
              sheap := sheap c; conversions := conversions c |}
  | Some (WConvert i hi) =>
      match nth_error (entries c) i with
      | None => Crash NoSuchThread
      | Some (id, _) =>
          match readAt (sheap c) id with
          | None => Crash UseAfterDispose
          | Some _ =>
              Ok {| entries := entries c; nextIdx := nextIdx c;
                    workers := setNth (workers c) k (WReading i hi);
                    sheap := sheap c; conversions := id :: conversions c |}
          end
      end
  | Some (WReading i hi) =>
      match nth_error (entries c) i with
      | None => Crash NoSuchThread
      | Some (id, _) =>
          match readAt (sheap c) id with
          | None => Crash UseAfterDispose
          | Some v =>
              Ok {| entries := setNth (entries c) i (id, Some v); nextIdx := nextIdx c;
                    workers := setNth (workers c) k (WDispose i hi);
                    sheap := sheap c; conversions := conversions c |}
          end
      end
  | Some (WDispose i hi) =>
      match nth_error (entries c) i with
      | None => Crash NoSuchThread
      | Some (id, _) =>
          if reading c id then Crash UseAfterDispose
          else
            Ok {| entries := entries c; nextIdx := nextIdx c;
                  workers := setNth (workers c) k (afterEntry i hi);
                  sheap := disposeAt (sheap c) id; conversions := conversions c |}
      end
  end.

Fixpoint runSchedule (c : scrubbing) (sched : list nat) : result scrubbing :=
  match sched with
  | [] => Ok c
  | k :: r => bind (workerStep c k) (fun c' => runSchedule c' r)
  end.

Definition doneW (w : worker) : bool := match w with WDone => true | _ => false end.
Definition allDone (c : scrubbing) : bool := forallb doneW (workers c).

(* Lines 82-95 and 131: the table in the iteration order of the unordered_map, which is
   not specified; [order] is that order, and it lists each handle met once. *)
Definition startScrub (st : state) (order : list nat) (threads : nat) : scrubbing :=
  {| entries := map (fun id => (id, None)) order; nextIdx := 0;
     workers := repeat WFetch threads; sheap := store st; conversions := [] |}.

Definition tableOf (c : scrubbing) (id : nat) : option (list Z) :=
  match find (fun e => Nat.eqb (fst e) id) (entries c) with
  | Some (_, v) => v
  | None => None
  end.

(* Lines 133-150, after parallelFor has joined the workers. *)
Definition finishScrub (places : list (string * string)) (st : state) (c : scrubbing) : result state :=
  bind (replaceOps places (tableOf c) (modul st)) (fun m =>
    if forallb (fun e => memb (fst e) (pool st)) (entries c) then
      let (h, p) := eraseUnreachable [] (sheap c) (pool st) in
      Ok {| counter := counter st; store := h; pool := p; active := active st;
            pending := pending st; held := held st; modul := m |}
    else Crash NotInPool).

(* close, lines 153-158. *)
Definition close (st : state) : result state :=
  match pool st with
  | [] => Ok {| counter := counter st; store := store st; pool := []; active := false;
                pending := pending st; held := held st; modul := modul st |}
  | _ => Crash PoolNotEmpty
  end.

(* ---- histories of a compilation ---- *)
Inductive event :=
| EBeginCreate (s : storage)        (* a thread enters createElementsAttr *)
| EFinishCreate (id : nat)          (* the same thread finishes it *)
| EOtherPool                        (* a pool of another context takes an id *)
| ERead (id : nat)                  (* a pass takes a handle out of the module *)
| EEdit (m : op)                    (* a pass changes the module *)
| EPassEnd                          (* the pass ends: its local variables are gone *)
| ECollect (places : list (string * string))
| EScrub (places : list (string * string)) (order : list nat) (threads : nat) (sched : list nat)
| EClose.

Definition bump (st : state) : state :=
  {| counter := S (counter st); store := store st; pool := pool st; active := active st;
     pending := pending st; held := held st; modul := modul st |}.
Definition hold (st : state) (l : list nat) : state :=
  {| counter := counter st; store := store st; pool := pool st; active := active st;
     pending := pending st; held := l; modul := modul st |}.
Definition edit (st : state) (m : op) : state :=
  {| counter := counter st; store := store st; pool := pool st; active := active st;
     pending := pending st; held := held st; modul := m |}.

Definition run1 (st : state) (e : event) : result state :=
  match e with
  | EBeginCreate s => Ok (beginCreate st s)
  | EFinishCreate id => bind (finishCreate st id) (fun p => Ok (fst p))
  | EOtherPool => Ok (bump st)
  | ERead id => Ok (hold st (id :: held st))
  | EEdit m => Ok (edit st m)
  | EPassEnd => Ok (hold st [])
  | ECollect places => collect places st
  | EScrub places order threads sched =>
      bind (runSchedule (startScrub st order threads) sched) (fun c => finishScrub places st c)
  | EClose => close st
  end.

Fixpoint run (st : state) (es : list event) : result state :=
  match es with
  | [] => Ok st
  | e :: r => bind (run1 st e) (fun st' => run st' r)
  end.
