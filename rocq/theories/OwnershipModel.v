(** Memory management of OMTensor and OMTensorList
    (src/Runtime/OMTensor.inc, src/Runtime/OMTensorList.inc).
    Blocks of memory are numbered in order of allocation and never reused, so that a
    dangling pointer never becomes valid again.  Every malloc may fail: the schedule
    [ok] decides (a NULL returned by malloc(0) is such a failure).  [None] is undefined
    behaviour: a double free, a free of something that is not a live block, or an access
    to a freed structure. *)
From Coq Require Import List Bool Arith ZArith.
Import ListNotations.

Definition ptr := option nat.
(** OMTensor.inc:126-141, the fields that matter for memory. *)
Record tensor := { tShape : nat; tStrides : nat; tAlloc : ptr; tOwning : bool }.
(** OMTensorList.inc:65-73. *)
Record tlist := { lOmts : ptr; lTensors : list ptr }.
Definition upd {A} (f : nat -> A) (k : nat) (v : A) : nat -> A := fun x => if x =? k then v else f x.
Record state := { next : nat; clock : nat; live : nat -> bool; tens : nat -> option tensor; lists : nat -> option tlist }.
Definition init : state := {| next := 0; clock := 0; live := fun _ => false; tens := fun _ => None; lists := fun _ => None |}.

Section Schedule.
Variable ok : nat -> bool.

Definition malloc (s : state) : state * ptr :=
  if ok (clock s) then
    ({| next := S (next s); clock := S (clock s); live := upd (live s) (next s) true; tens := tens s; lists := lists s |}, Some (next s))
  else ({| next := next s; clock := S (clock s); live := live s; tens := tens s; lists := lists s |}, None).
Definition free (p : ptr) (s : state) : option state :=
  match p with
  | None => Some s
  | Some b => if live s b then Some {| next := next s; clock := clock s; live := upd (live s) b false; tens := tens s; lists := lists s |} else None
  end.
(** Reading and writing a structure. *)
Definition getT (s : state) (t : nat) : option tensor := if live s t then tens s t else None.
Definition setT (s : state) (t : nat) (v : tensor) : state :=
  {| next := next s; clock := clock s; live := live s; tens := upd (tens s) t (Some v); lists := lists s |}.
Definition getL (s : state) (l : nat) : option tlist := if live s l then lists s l else None.
Definition setL (s : state) (l : nat) (v : tlist) : state :=
  {| next := next s; clock := clock s; live := live s; tens := tens s; lists := upd (lists s) l (Some v) |}.
Notation "x <- e ;; f" := (match e with Some x => f | None => None end) (at level 61, e at next level, right associativity).

(** OMTensor.inc:166-205 (omTensorCreate, omTensorCreateWithOwnership), 221-240
    (omTensorCreateUntyped is the case of a NULL data pointer); shape and strides
    contents are in OMTensorLayoutModel. *)
Definition omTensorCreate (data : ptr) (owning : bool) (s : state) : option (state * ptr) :=
  let (s, t) := malloc s in
  match t with
  | None => Some (s, None)
  | Some t =>
      let (s, sh) := malloc s in
      match sh with
      | None => s <- free None s ;; s <- free (Some t) s ;; Some (s, None)
      | Some sh =>
          let (s, sd) := malloc s in
          match sd with
          | None => s <- free (Some sh) s ;; s <- free (Some t) s ;; Some (s, None)
          | Some sd => Some (setT s t {| tShape := sh; tStrides := sd; tAlloc := data; tOwning := owning |}, Some t)
          end
      end
  end.
(** OMTensor.inc:242-256; [typed]: the element type has a size. *)
Definition omTensorCreateEmpty (typed : bool) (s : state) : option (state * ptr) :=
  if negb typed then Some (s, None)
  else
    let (s, d) := malloc s in
    match d with
    | None => s <- free None s ;; Some (s, None)
    | Some d =>
        r <- omTensorCreate (Some d) true s ;;
        let (s, t) := r : state * ptr in
        match t with
        | None => s <- free (Some d) s ;; Some (s, None)
        | Some t => Some (s, Some t)
        end
    end.
(** OMTensor.inc:259-272. *)
Definition omTensorDestroy (t : ptr) (s : state) : option state :=
  match t with
  | None => Some s
  | Some t =>
      v <- getT s t ;;
      s <- (if tOwning v then free (tAlloc v) s else Some s) ;;
      s <- free (Some (tShape v)) s ;;
      s <- free (Some (tStrides v)) s ;;
      free (Some t) s
  end.
(** OMTensor.inc:294-308 (the aligned pointer is not freed and not modelled). *)
Definition omTensorSetDataPtr (t : ptr) (owning : bool) (data : ptr) (s : state) : option state :=
  match t with
  | None => Some s
  | Some t =>
      v <- getT s t ;;
      s <- (if tOwning v then free (tAlloc v) s else Some s) ;;
      Some (setT s t {| tShape := tShape v; tStrides := tStrides v; tAlloc := data; tOwning := owning |})
  end.
(** OMTensor.inc:414-419. *)
Definition omTensorSetOwning (t : ptr) (owning : bool) (s : state) : option state :=
  match t with
  | None => Some s
  | Some t =>
      v <- getT s t ;;
      Some (setT s t {| tShape := tShape v; tStrides := tStrides v; tAlloc := tAlloc v; tOwning := owning |})
  end.
(** OMTensorList.inc:74-96. *)
Definition omTensorListCreate (ts : list ptr) (s : state) : option (state * ptr) :=
  let (s, l) := malloc s in
  match l with
  | None => Some (s, None)
  | Some l =>
      match ts with
      | [] => Some (setL s l {| lOmts := None; lTensors := [] |}, Some l)
      | _ =>
          let (s, omts) := malloc s in
          match omts with
          | None => s <- free (Some l) s ;; Some (s, None)
          | Some a => Some (setL s l {| lOmts := Some a; lTensors := ts |}, Some l)
          end
      end
  end.
(** OMTensorList.inc:112-119. *)
Definition omTensorListDestroyShallow (l : ptr) (s : state) : option state :=
  match l with
  | None => Some s
  | Some l =>
      v <- getL s l ;;
      s <- (match lOmts v with None => Some s | a => free a s end) ;;
      free (Some l) s
  end.
(** OMTensorList.inc:99-108; reading list->_omts[i] needs the array to be live. *)
Fixpoint destroyAll (omts : ptr) (ts : list ptr) (s : state) : option state :=
  match ts with
  | [] => Some s
  | t :: ts =>
      match omts with
      | Some a => if live s a then s <- omTensorDestroy t s ;; destroyAll omts ts s else None
      | None => None
      end
  end.
Definition omTensorListDestroy (l : ptr) (s : state) : option state :=
  match l with
  | None => Some s
  | Some l =>
      v <- getL s l ;;
      s <- destroyAll (lOmts v) (lTensors v) s ;;
      omTensorListDestroyShallow (Some l) s
  end.
(** OMTensorList.inc:136-140. *)
Definition omTensorListGetOmtByIndex (l : ptr) (i : Z) (s : state) : option (state * ptr) :=
  match l with
  | None => Some (s, None)
  | Some l =>
      v <- getL s l ;;
      if ((i <? 0) || (Z.of_nat (length (lTensors v)) <=? i))%Z then Some (s, None)
      else
        match lOmts v with
        | Some a => if live s a then Some (s, nth (Z.to_nat i) (lTensors v) None) else None
        | None => None
        end
  end.

(** OMTensor.inc:275-279; the aligned pointer is taken to be the allocated one. *)
Definition omTensorGetDataPtr (t : ptr) (s : state) : ptr :=
  match t with
  | None => None
  | Some t => match getT s t with Some v => tAlloc v | None => None end
  end.

(** The calls a client makes; [UserAlloc] and [UserFree] are its own malloc and free. *)
Inductive call :=
  | UserAlloc
  | UserFree (b : nat)
  | Create (data : ptr) (owning : bool)
  | CreateEmpty (typed : bool)
  | SetDataPtr (t : ptr) (owning : bool) (data : ptr)
  | SetOwning (t : ptr) (owning : bool)
  | Destroy (t : ptr)
  | ListCreate (ts : list ptr)
  | ListDestroy (l : ptr)
  | ListDestroyShallow (l : ptr)
  | ListGet (l : ptr) (i : Z).
Definition noret (r : option state) : option (state * ptr) := s <- r ;; Some (s, None).
Definition step (c : call) (s : state) : option (state * ptr) :=
  match c with
  | UserAlloc => Some (malloc s)
  | UserFree b => noret (free (Some b) s)
  | Create d o => omTensorCreate d o s
  | CreateEmpty ty => omTensorCreateEmpty ty s
  | SetDataPtr t o d => noret (omTensorSetDataPtr t o d s)
  | SetOwning t o => noret (omTensorSetOwning t o s)
  | Destroy t => noret (omTensorDestroy t s)
  | ListCreate ts => omTensorListCreate ts s
  | ListDestroy l => noret (omTensorListDestroy l s)
  | ListDestroyShallow l => noret (omTensorListDestroyShallow l s)
  | ListGet l i => omTensorListGetOmtByIndex l i s
  end.
Fixpoint runCalls (cs : list call) (s : state) : option state :=
  match cs with
  | [] => Some s
  | c :: cs => r <- step c s ;; runCalls cs (fst r)
  end.
End Schedule.
