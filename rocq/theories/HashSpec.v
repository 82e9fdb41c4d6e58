(** What a dictionary lookup and CategoryMapper must do. *)
From Coq Require Import List ZArith Bool Permutation Sorted.
From Verif Require Import Util HashModel.
Import ListNotations.
Open Scope Z_scope.

(** Any sort by decreasing length will do. *)
Definition sorts_by_size {K} (sortB : list (list K) -> list (list K)) : Prop :=
  forall bs, Permutation (sortB bs) bs /\ StronglySorted (fun a b => (length b <= length a)%nat) (sortB bs).

(** A dictionary of distinct keys whose values are table indices. *)
Definition dictionary {K} (dict : list (K * Z)) : Prop :=
  dict <> [] /\ NoDup (map fst dict) /\ forall k v, In (k, v) dict -> 0 <= v < Z.of_nat (length dict).

(** Strings usable as C strings. *)
Definition c_string (s : bytes) : Prop := forall c, In c s -> 1 <= c < 256.
Definition ascii (s : bytes) : Prop := forall c, In c s -> 1 <= c < 128.

Definition beq (a b : bytes) : bool := if list_eq_dec Z.eq_dec a b then true else false.

(** CategoryMapper: the i-th category goes to the i-th output, anything else to the
    default. *)
Definition maps_to {A B} (cats : list A) (outs : list B) (dflt : B) (x : A) (y : B) : Prop :=
  (exists i, nth_error cats i = Some x /\ nth_error outs i = Some y) \/ (~ In x cats /\ y = dflt).
Definition prefix (c x : bytes) : Prop := exists r, x = c ++ r.
