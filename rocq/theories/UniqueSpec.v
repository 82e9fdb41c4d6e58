(** Independent specification of the outputs of Unique. *)
From Coq Require Import List ZArith Sorted.
From Verif Require Import Util TensorSpec.
Import ListNotations.
Open Scope Z_scope.

(** [i] is the first position of [x] in [l]. *)
Definition first_occ {A} (l : list A) (x : A) (i : Z) : Prop :=
  zget l i = Some x /\ forall j, j < i -> zget l j <> Some x.

(** [c] is the number of positions of [l] that hold [x]. *)
Inductive occurs {A} (x : A) : list A -> Z -> Prop :=
| occ_nil : occurs x [] 0
| occ_same l c : occurs x l c -> occurs x (x :: l) (c + 1)
| occ_other y l c : y <> x -> occurs x l c -> occurs x (y :: l) c.

(** The outputs of Unique on the sequence [l]: [u] the distinct items, ascending
    for [less] or in order of first occurrence. *)
Record unique_items {A} (less : A -> A -> Prop) (sorted : bool) (l u : list A) : Prop := {
  ui_nodup : NoDup u;
  ui_same : forall x, In x u <-> In x l;
  ui_order : if sorted then StronglySorted less u
             else StronglySorted (fun x y => exists i j, first_occ l x i /\ first_occ l y j /\ i < j) u
}.
(** [ind]: first positions; [inv]: position in [u] of every item; [cnt]: numbers of occurrences. *)
Definition unique_indices {A} (l u : list A) (ind : list Z) : Prop :=
  length ind = length u /\ forall k x, zget u k = Some x -> exists i, zget ind k = Some i /\ first_occ l x i.
Definition unique_inverse {A} (l u : list A) (inv : list Z) : Prop :=
  length inv = length l /\ forall i x, zget l i = Some x -> exists k, zget inv i = Some k /\ zget u k = Some x.
Definition unique_counts {A} (l u : list A) (cnt : list Z) : Prop :=
  length cnt = length u /\ forall k x, zget u k = Some x -> exists c, zget cnt k = Some c /\ occurs x l c.

(** An output that is not requested (NULL) carries no obligation. *)
Definition opt_out {A} (P : A -> Prop) (o : option A) : Prop := match o with Some a => P a | None => True end.

(** Lexicographic order of slices. *)
Inductive lex_less {A} (lt : A -> A -> Prop) : list A -> list A -> Prop :=
| lex_here x y a b : lt x y -> length a = length b -> lex_less lt (x :: a) (y :: b)
| lex_next x a b : lex_less lt a b -> lex_less lt (x :: a) (x :: b).

(** Unique along an axis, stated on axis positions 0..n-1: [same i j] says the
    subtensors at [i] and [j] are equal; [reps] are the reported indices. *)
Record unique_slices (same bef : Z -> Z -> Prop) (n : Z) (sorted : bool) (reps : list Z) : Prop := {
  us_first : forall k r, zget reps k = Some r -> 0 <= r < n /\ forall j, 0 <= j < r -> ~ same j r;
  us_distinct : forall k k' r r', k <> k' -> zget reps k = Some r -> zget reps k' = Some r' -> ~ same r r';
  us_all : forall i, 0 <= i < n -> exists k r, zget reps k = Some r /\ same i r;
  us_order : if sorted then StronglySorted bef reps else StronglySorted Z.lt reps
}.
Definition slices_inverse (same : Z -> Z -> Prop) (n : Z) (reps inv : list Z) : Prop :=
  Z.of_nat (length inv) = n /\
  forall i, 0 <= i < n -> exists k r, zget inv i = Some k /\ zget reps k = Some r /\ same i r.
Definition slices_counts (same : Z -> Z -> Prop) (n : Z) (reps cnt : list Z) : Prop :=
  length cnt = length reps /\
  forall k r, zget reps k = Some r -> exists l, NoDup l /\ (forall i, In i l <-> 0 <= i < n /\ same i r) /\
    zget cnt k = Some (Z.of_nat (length l)).

(** The subtensors at positions [i] and [j] of axis [a] are equal. *)
Definition same_slice {V} (s : shape) (a : nat) (data : list V) (i j : Z) : Prop :=
  forall idx, valid s idx -> elem s data (upd a i idx) = elem s data (upd a j idx).

(** The elements of the subtensor at position [i] of axis [a], the first axis
    varying fastest (column-major). *)
Definition col_slice {V} (s : shape) (a : nat) (data : list V) (i : Z) (l : list V) : Prop :=
  map Some l = map (fun d => elem s data (upd a i (rev d))) (indices (rev (upd a 1 s))).
(** ... and the last axis varying fastest (row-major), the order NumPy and ONNX compare in. *)
Definition row_slice {V} (s : shape) (a : nat) (data : list V) (i : Z) (l : list V) : Prop :=
  map Some l = map (fun d => elem s data (upd a i d)) (indices (upd a 1 s)).
