(** NonMaxSuppression, from the ONNX definition, over the rationals. *)
From Coq Require Import List ZArith Bool QArith Qminmax Permutation.
From Verif Require Import Util.
Import ListNotations.
Open Scope Z_scope.

(** [boxes]: batch, box, coordinate; [scores]: batch, class, box. *)
Record nmsIn := {
  nb : Z; nc : Z; ns : Z; boxes : Z -> Z -> Z -> Q; scores : Z -> Z -> Z -> Q;
  maxOut : option Z; iouTH : option Q; scoreTH : option Q; center : bool }.

(** A box as a pair of intervals, y then x: the corners come in any order. *)
Definition extent (center : bool) (b : Z -> Q) : (Q * Q) * (Q * Q) :=
  let '(b0, b1, b2, b3) := (b 0, b 1, b 2, b 3) in
  if center then (((b1 - b3 / 2)%Q, (b1 + b3 / 2)%Q), ((b0 - b2 / 2)%Q, (b0 + b2 / 2)%Q))
  else ((Qmin b0 b2, Qmax b0 b2), (Qmin b1 b3, Qmax b1 b3)).
Definition common (i j : Q * Q) : Q := Qmax 0 (Qmin (snd i) (snd j) - Qmax (fst i) (fst j)).
Definition area (e : (Q * Q) * (Q * Q)) : Q := ((snd (fst e) - fst (fst e)) * (snd (snd e) - fst (snd e)))%Q.
Definition inter (e f : (Q * Q) * (Q * Q)) : Q := (common (fst e) (fst f) * common (snd e) (snd f))%Q.
Definition union (e f : (Q * Q) * (Q * Q)) : Q := (area e + area f - inter e f)%Q.
(** Intersection over union; 0 for boxes without area. *)
Definition iou (e f : (Q * Q) * (Q * Q)) : Q := (inter e f / union e f)%Q.

Definition Qltb (x y : Q) : bool := negb (Qle_bool y x).

(** Take the boxes in the given order; keep a box when it is eligible, there is room, and it does
    not overlap too much with one that was kept. *)
Fixpoint greedy (eligible : Z -> bool) (overlap : Z -> Z -> bool) (max : Z) (kept order : list Z) : list Z :=
  match order with
  | [] => kept
  | s :: rest =>
    if eligible s && (Z.of_nat (length kept) <? max) && negb (existsb (fun k => overlap k s) kept)
    then greedy eligible overlap max (kept ++ [s]) rest
    else greedy eligible overlap max kept rest
  end.
(** Thresholds: a box is eligible when its score is above the score threshold, if there is one;
    two boxes overlap too much when their IOU is above the IOU threshold, 0 by default; no box is
    kept when the maximum is not given. *)
Definition eligible (p : nmsIn) (b c s : Z) : bool := match scoreTH p with Some th => Qltb th (scores p b c s) | None => true end.
Definition overlap (p : nmsIn) (b k s : Z) : bool :=
  Qltb (match iouTH p with Some th => th | None => 0%Q end) (iou (extent (center p) (boxes p b k)) (extent (center p) (boxes p b s))).
Definition nms (p : nmsIn) (order : Z -> Z -> list Z) : list (Z * Z * Z) :=
  flat_map (fun b => flat_map (fun c => map (fun s => (b, c, s)) (greedy (eligible p b c) (overlap p b) (match maxOut p with Some m => m | None => 0 end) [] (order b c)))
    (zrange (nc p))) (zrange (nb p)).
(** The order is by descending scores, ties in any order. *)
Definition descending (p : nmsIn) (order : Z -> Z -> list Z) : Prop :=
  forall b c, 0 <= b < nb p -> 0 <= c < nc p ->
    Permutation (order b c) (zrange (ns p)) /\
    forall i j s s', (i < j)%nat -> nth_error (order b c) i = Some s -> nth_error (order b c) j = Some s' -> (scores p b c s' <= scores p b c s)%Q.

(** For boxes with integer corners: the unit squares a box covers, in a window. *)
Definition covers (b : Z -> Z) (cell : Z * Z) : bool :=
  (Z.min (b 0) (b 2) <=? fst cell) && (fst cell <? Z.max (b 0) (b 2)) && (Z.min (b 1) (b 3) <=? snd cell) && (snd cell <? Z.max (b 1) (b 3)).
Definition cells (lo : Z) (n : nat) : list (Z * Z) := list_prod (zseq lo n) (zseq lo n).
Definition countCells (lo : Z) (n : nat) (f : Z * Z -> bool) : Z := Z.of_nat (length (filter f (cells lo n))).
