(** What a program using external constants may rely on, without reference to how they are
    loaded. *)
From Coq Require Import String List ZArith Bool Lia Permutation.
From Verif Require Import Util ExtConstModel.
Import ListNotations.
Open Scope Z_scope.
Open Scope list_scope.

(** The bytes [bs] can be read at [p]. *)
Definition holds (s : state) (p : ptr) (bs : list Z) : Prop :=
  exists b off k, p = PBlk b off /\ 0 <= off /\ nth_error (heap s) b = Some k /\ bLive k = true
    /\ off + Z.of_nat (length bs) <= Z.of_nat (length (bData k))
    /\ forall i, (i < length bs)%nat -> nth_error (bData k) (Z.to_nat off + i) = Some (nth_error bs i).
(** [p] points into memory that has been given back. *)
Definition dangling (s : state) (p : ptr) : Prop :=
  exists b off k, p = PBlk b off /\ nth_error (heap s) b = Some k /\ bLive k = false.
(** The address of a pointer into a block. *)
Definition address (s : state) (p : ptr) (a : Z) : Prop :=
  exists b off k, p = PBlk b off /\ nth_error (heap s) b = Some k /\ a = bAddr k + off.
(** The first [n] bytes of a file. *)
Definition prefix (n : Z) (file : list Z) : list Z := firstn (Z.to_nat n) file.
(** Everything that could be read before can be read after. *)
Definition keeps (s s' : state) : Prop := forall p bs, holds s p bs -> holds s' p bs.
(** The path looked up: the folder named by OM_CONSTANT_PATH if set. *)
Definition pathOf (e : os) (fname : string) : string :=
  match constantPath e with Some d => String.append d (String.append "/" fname) | None => fname end.
