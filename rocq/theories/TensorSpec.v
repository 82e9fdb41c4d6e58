(** Independent specification of dense row-major tensors, written from the
    ONNX / C definition of row-major layout and not from the code. *)
From Coq Require Import List ZArith.
From Verif Require Import Util.
Import ListNotations.
Open Scope Z_scope.

(** A shape is a list of dimension sizes, outermost first. *)
Notation shape := (list Z).
Notation index := (list Z).

(** A static shape: no negative dimension. *)
Definition okshape (s : shape) : Prop := Forall (fun d => 0 <= d) s.

(** Number of elements. *)
Definition size (s : shape) : Z := prodZ s.
Arguments size : simpl never.

(** [idx] addresses an element of a tensor of shape [s]. *)
Definition valid (s : shape) (idx : index) : Prop :=
  Forall2 (fun d i => 0 <= i < d) s idx.

(** All indices of a shape in row-major (lexicographic) order. *)
Fixpoint indices (s : shape) : list index :=
  match s with
  | [] => [[]]
  | d :: r => flat_map (fun i => map (cons i) (indices r)) (zrange d)
  end.

(** Row-major position of an index: Horner evaluation in mixed radix. *)
Fixpoint rm_acc (acc : Z) (s : shape) (idx : index) : Z :=
  match s, idx with
  | d :: s', i :: idx' => rm_acc (acc * d + i) s' idx'
  | _, _ => acc
  end.
Definition rowmajor (s : shape) (idx : index) : Z := rm_acc 0 s idx.

(** The element a flat row-major buffer holds at an index. *)
Definition elem {A} (s : shape) (data : list A) (idx : index) : option A :=
  zget data (rowmajor s idx).

(** [data] is a complete row-major buffer for shape [s]. *)
Definition is_data {A} (s : shape) (data : list A) : Prop :=
  Z.of_nat (length data) = size s.
