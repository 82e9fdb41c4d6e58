(** What convolution and pooling mean, from the ONNX operator definitions.  From the model
    only the records describing an axis and a convolution are used. *)
From Coq Require Import List ZArith Bool.
From Verif Require Import Util TensorSpec ConvModel.
Import ListNotations.
Open Scope Z_scope.

(** Position in the input, along one axis, of tap k of the window of output o. *)
Definition tap (a : axis) (p o k : Z) : Z := o * aS a + k * aD a - p.
Fixpoint taps (axes : list axis) (ps os ks : list Z) : list Z :=
  match axes, ps, os, ks with
  | a :: axes, p :: ps, o :: os, k :: ks => tap a p o k :: taps axes ps os ks
  | _, _, _, _ => []
  end.
(** The tap falls in the input rather than in the padding. *)
Definition insideAll (axes : list axis) (pos : list Z) : bool :=
  forallb (fun e => (0 <=? snd e) && (snd e <? aI (fst e))) (combine axes pos).

(** The input pixels of the window of output os, in row-major order of the kernel. *)
Definition window (axes : list axis) (ps os : list Z) : list (list Z) :=
  filter (insideAll axes) (map (taps axes ps os) (indices (map aK axes))).

(** Convolution: the products over the kernel, in row-major order, of the input pixels
    that exist; then the bias.  Output channel co belongs to group co / (CO / G). *)
Section Conv.
Context {T : Type} (zero : T) (add mul : T -> T -> T).
Definition conv_value (c : @conv T) (n co : Z) (os : list Z) : T :=
  let g := co / (CO c / G c) in
  let term red := match red with
    | ci :: ks => mul (X c (n :: g * CIg c + ci :: taps (axes c) (ps c) os ks)) (W c (co :: ci :: ks))
    | [] => zero end in
  let s := fold_left (fun acc red => add acc (term red))
             (filter (fun red => insideAll (axes c) (taps (axes c) (ps c) os (tl red))) (indices (CIg c :: map aK (axes c)))) zero in
  match B c with Some b => add s (b [co]) | None => s end.
End Conv.

(** Over the integers: the sum over the whole kernel of the zero-padded input. *)
Definition zpad (axes : list axis) (x : list Z -> Z) (n ci : Z) (pos : list Z) : Z :=
  if insideAll axes pos then x (n :: ci :: pos) else 0.
Definition conv_sum (c : @conv Z) (n co : Z) (os : list Z) : Z :=
  let g := co / (CO c / G c) in
  sumZ (map (fun red => match red with
      | ci :: ks => zpad (axes c) (X c) n (g * CIg c + ci) (taps (axes c) (ps c) os ks) * W c (co :: ci :: ks)
      | [] => 0 end) (indices (CIg c :: map aK (axes c))))
  + match B c with Some b => b [co] | None => 0 end.

(** A well-formed convolution (ONNX and the verifier). *)
Definition wf_conv {T} (c : @conv T) : Prop :=
  length (ps c) = length (axes c) /\ length (outS c) = length (axes c) /\
  Forall (fun a => 1 <= aD a) (axes c) /\ 1 <= G c /\ (G c | CO c) /\ CI c = G c * CIg c.

(** Auto-padding: the size of a window. *)
Definition extent (a : axis) : Z := (aK a - 1) * aD a + 1.
(** Exactly O windows of the axis fit in the padded input. *)
Definition windows_fit (a : axis) (pb pe O : Z) : Prop :=
  (O - 1) * aS a + extent a <= aI a + pb + pe < O * aS a + extent a.
