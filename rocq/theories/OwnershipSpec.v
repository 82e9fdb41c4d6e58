(** Who owns what: the client's view of tensors, lists and data buffers. *)
From Coq Require Import List Bool Arith ZArith.
From Verif Require Import OwnershipModel.
Import ListNotations.

(** [owner b]: b is a live data buffer, owned by the client (None) or a tensor.
    [tensorBuf t]: t is a live tensor with this data pointer.  [listOf l]: l is a live
    list of these tensors. *)
Record world := { owner : nat -> option (option nat); tensorBuf : nat -> option ptr; listOf : nat -> option (list ptr) }.
Definition nothing : world := {| owner := fun _ => None; tensorBuf := fun _ => None; listOf := fun _ => None |}.
Definition fresh (w : world) (b : nat) : Prop := owner w b = None /\ tensorBuf w b = None /\ listOf w b = None.

(** What a client may do: only live objects are passed, and ownership of a buffer is
    given to a tensor only by its owner. *)
Definition givable (w : world) (d : ptr) : Prop := forall b, d = Some b -> owner w b = Some None.
Definition allowed (w : world) (c : call) : Prop :=
  match c with
  | UserAlloc | CreateEmpty _ | ListCreate _ => True
  | UserFree b => owner w b = Some None
  | Create d o => o = true -> givable w d
  | SetDataPtr None _ _ | SetOwning None _ | Destroy None | ListDestroy None | ListDestroyShallow None | ListGet None _ => True
  | SetDataPtr (Some t) o d => tensorBuf w t <> None /\ (o = true -> givable w d)
  | SetOwning (Some t) o => exists d, tensorBuf w t = Some d /\
      (o = true -> forall b, d = Some b -> owner w b = Some None \/ owner w b = Some (Some t))
  | Destroy (Some t) => tensorBuf w t <> None
  | ListDestroy (Some l) => exists ts, listOf w l = Some ts /\
      NoDup (filter (fun p => match p with Some _ => true | None => false end) ts) /\
      (forall t, In (Some t) ts -> tensorBuf w t <> None)
  | ListDestroyShallow (Some l) | ListGet (Some l) _ => listOf w l <> None
  end.

(** Ownership of the buffer d goes to t. *)
Definition give (t : nat) (o : bool) (d : ptr) (f : nat -> option (option nat)) : nat -> option (option nat) :=
  match d with Some b => if o then upd f b (Some (Some t)) else f | None => f end.
(** The buffers owned by t are freed, or go back to the client. *)
Definition lose (t : nat) (to : option (option nat)) (f : nat -> option (option nat)) : nat -> option (option nat) :=
  fun b => match f b with Some (Some t') => if t' =? t then to else f b | o => o end.
Definition destroyW (p : ptr) (w : world) : world :=
  match p with
  | None => w
  | Some t => {| owner := lose t None (owner w); tensorBuf := upd (tensorBuf w) t None; listOf := listOf w |}
  end.
Definition dropList (l : nat) (w : world) : world :=
  {| owner := owner w; tensorBuf := tensorBuf w; listOf := upd (listOf w) l None |}.

(** [effect w c r d w']: call c returns r (NULL when it returns nothing or fails),
    omTensorGetDataPtr(r) is then d, and the world becomes w'. *)
Inductive effect (w : world) : call -> ptr -> ptr -> world -> Prop :=
  | E_fail c d : (match c with UserAlloc | Create _ _ | CreateEmpty _ | ListCreate _ => True | _ => False end) -> effect w c None d w
  | E_alloc b d : fresh w b ->
      effect w UserAlloc (Some b) d {| owner := upd (owner w) b (Some None); tensorBuf := tensorBuf w; listOf := listOf w |}
  | E_free b d : effect w (UserFree b) None d {| owner := upd (owner w) b None; tensorBuf := tensorBuf w; listOf := listOf w |}
  | E_create data o t : fresh w t ->
      effect w (Create data o) (Some t) data
        {| owner := give t o data (owner w); tensorBuf := upd (tensorBuf w) t (Some data); listOf := listOf w |}
  | E_empty ty t b : fresh w t -> fresh w b -> b <> t ->
      effect w (CreateEmpty ty) (Some t) (Some b)
        {| owner := upd (owner w) b (Some (Some t)); tensorBuf := upd (tensorBuf w) t (Some (Some b)); listOf := listOf w |}
  | E_null c d : (match c with SetDataPtr None _ _ | SetOwning None _ | Destroy None | ListDestroy None | ListDestroyShallow None | ListGet None _ => True | _ => False end) ->
      effect w c None d w
  | E_setptr t o data d :
      effect w (SetDataPtr (Some t) o data) None d
        {| owner := give t o data (lose t None (owner w)); tensorBuf := upd (tensorBuf w) t (Some data); listOf := listOf w |}
  | E_setown t o data d : tensorBuf w t = Some data ->
      effect w (SetOwning (Some t) o) None d
        {| owner := if o then give t true data (owner w) else lose t (Some None) (owner w); tensorBuf := tensorBuf w; listOf := listOf w |}
  | E_destroy t d : effect w (Destroy (Some t)) None d (destroyW (Some t) w)
  | E_list ts l d : fresh w l ->
      effect w (ListCreate ts) (Some l) d {| owner := owner w; tensorBuf := tensorBuf w; listOf := upd (listOf w) l (Some ts) |}
  | E_ldestroy l ts d : listOf w l = Some ts ->
      effect w (ListDestroy (Some l)) None d (dropList l (fold_left (fun w p => destroyW p w) ts w))
  | E_lshallow l d : effect w (ListDestroyShallow (Some l)) None d (dropList l w)
  | E_get l i ts r d : listOf w l = Some ts ->
      r = (if ((i <? 0) || (Z.of_nat (length ts) <=? i))%Z then None else nth (Z.to_nat i) ts None) ->
      effect w (ListGet (Some l) i) r d w.

(** A history of allowed calls, under the malloc schedule [ok]. *)
Inductive history (ok : nat -> bool) : state -> world -> Prop :=
  | H_init : history ok init nothing
  | H_step s w c s' r w' : history ok s w -> allowed w c -> step ok c s = Some (s', r) ->
      effect w c r (omTensorGetDataPtr r s') w' -> history ok s' w'.
