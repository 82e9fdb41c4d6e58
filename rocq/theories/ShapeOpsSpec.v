(** What Reshape, Split, Concat, Flatten, Squeeze and Unsqueeze mean, from the ONNX
    operator definitions; only the type of tensors is taken from the model. *)
From Coq Require Import List ZArith Bool Sorted.
From Verif Require Import Util TensorSpec ShapeOpsModel.
Import ListNotations.
Open Scope Z_scope.

(** Reshape with allowzero = 0: [out] is a shape the target [sh] asks for. *)
Definition reshapes_to (data sh out : list Z) : Prop :=
  length out = length sh /\
  (forall i v, nth_error sh i = Some v ->
     (v = 0 -> nth_error out i = nth_error data i) /\ (0 < v -> nth_error out i = Some v)) /\
  prodZ out = prodZ data.
(** A legal target: -1 at most once, nothing smaller, and 0 only where the data has a dim. *)
Definition legal_target (data sh : list Z) : Prop :=
  (forall i v, nth_error sh i = Some v -> -1 <= v /\ (v = 0 -> (i < length data)%nat)) /\
  (forall i j, nth_error sh i = Some (-1) -> nth_error sh j = Some (-1) -> i = j).
(** The equalities found between target dims and data dims do hold. *)
Definition dims_equal (dimOf : list (option nat)) (data sh : list Z) : Prop :=
  forall i k, nth_error dimOf i = Some (Some k) -> (i < length sh)%nat /\ (k < length data)%nat /\ nth_error sh i = nth_error data k.
(** A shape known in part. *)
Definition agrees (known : list (option Z)) (s : list Z) : Prop := Forall2 (fun o d => forall v, o = Some v -> v = d) known s.

(** Split without sizes (ONNX 18): equal chunks of ceil(dim / n), the last one smaller. *)
Definition onnx_split_sizes (n : nat) (dim : Z) : list Z :=
  let c := - (- dim / Z.of_nat n) in
  repeat c (n - 1) ++ [dim - c * Z.of_nat (n - 1)].
(** Where chunk i starts. *)
Definition chunk_start (sizes : list Z) (i : nat) : Z := sumZ (firstn i sizes).
(** [idx] moved by [off] along an axis. *)
Definition shift (axis : nat) (off : Z) (idx : list Z) : list Z := upd axis (nth axis idx 0 + off) idx.

(** The stores of a loop fill a tensor of shape [s] with the values [f]: each element
    exactly once. *)
Definition fills {T} (stores : list (list Z * T)) (s : list Z) (f : list Z -> T) : Prop :=
  NoDup (map fst stores) /\ (forall idx, In idx (map fst stores) <-> valid s idx) /\
  forall idx v, In (idx, v) stores -> v = f idx.

(** Concat: the element at [idx] is that of the input whose range contains the coordinate. *)
Fixpoint concat_at {T} (d : T) (axis : nat) (inputs : list (tensor T)) (idx : list Z) : T :=
  match inputs with
  | [] => d
  | x :: r => if nth axis idx 0 <? nth axis (tShape x) 0 then tAt x idx
              else concat_at d axis r (shift axis (- nth axis (tShape x) 0) idx)
  end.
(** Inputs that can be concatenated: same dims except along the axis. *)
Definition concatenable {T} (axis : nat) (base : list Z) (inputs : list (tensor T)) : Prop :=
  okshape base /\ (axis < length base)%nat /\
  Forall (fun x => exists d, 0 <= d /\ tShape x = upd axis d base) inputs.

(** Positions not in a list of axes. *)
Definition others {A} (l : list A) (P : Z -> Prop) (r : list A) : Prop :=
  exists pos : list Z, (forall a, In a pos <-> 0 <= a < Z.of_nat (length l) /\ ~ P a) /\
    StronglySorted Z.lt pos /\ map Some r = map (zget l) pos.
(** Axis [a] of [axes], negative counted from the end. *)
Definition axis_in (rank : Z) (axes : list Z) (a : Z) : Prop := exists b, In b axes /\ a = (if b <? 0 then b + rank else b).
Definition axes_in_range (rank : Z) (axes : list Z) : Prop := Forall (fun b => - rank <= b < rank) axes.
Definition axes_distinct (rank : Z) (axes : list Z) : Prop := NoDup (map (fun b => if b <? 0 then b + rank else b) axes).
