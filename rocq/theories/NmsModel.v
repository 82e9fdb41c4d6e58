(** The code emitted for NonMaxSuppression:
    /repo/src/Conversion/ONNXToKrnl/ObjectDetection/NonMaxSuppression.cpp. Numbers are rationals:
    rounding is not modelled. [order] is the result of emitArgSort on the scores (the sort at
    run time is C18). A store outside its buffer is [None]. *)
From Coq Require Import List ZArith Bool QArith Qminmax.
From Verif Require Import Util NmsSpec.
Import ListNotations.
Open Scope Z_scope.

(** NonMaxSuppression.cpp 24-92 emitIOU *)
Definition emitIOU (centerPointBox : bool) (box1 box2 : Z -> Q) : Q :=
  let '(area1, area2, (y1_min, x1_min, y1_max, x1_max), (y2_min, x2_min, y2_max, x2_max)) :=
    if centerPointBox then
      let '(x1_center, y1_center, w1, h1) := (box1 0, box1 1, box1 2, box1 3) in
      let '(x2_center, y2_center, w2, h2) := (box2 0, box2 1, box2 2, box2 3) in
      ((h1 * w1)%Q, (h2 * w2)%Q,
       ((y1_center - h1 / 2)%Q, (x1_center - w1 / 2)%Q, (y1_center + h1 / 2)%Q, (x1_center + w1 / 2)%Q),
       ((y2_center - h2 / 2)%Q, (x2_center - w2 / 2)%Q, (y2_center + h2 / 2)%Q, (x2_center + w2 / 2)%Q))
    else
      let '(y1_min, x1_min, y1_max, x1_max) := (box1 0, box1 1, box1 2, box1 3) in
      let '(y2_min, x2_min, y2_max, x2_max) := (box2 0, box2 1, box2 2, box2 3) in
      (((y1_max - y1_min) * (x1_max - x1_min))%Q, ((y2_max - y2_min) * (x2_max - x2_min))%Q,
       (y1_min, x1_min, y1_max, x1_max), (y2_min, x2_min, y2_max, x2_max)) in
  let intersection_x_min := Qmax x1_min x2_min in
  let intersection_y_min := Qmax y1_min y2_min in
  let intersection_x_max := Qmin x1_max x2_max in
  let intersection_y_max := Qmin y1_max y2_max in
  let intersection_w := (intersection_x_max - intersection_x_min)%Q in
  let intersection_h := (intersection_y_max - intersection_y_min)%Q in
  let intersection_area := (Qmax intersection_w 0 * Qmax intersection_h 0)%Q in
  let union_area := (area1 + area2 - intersection_area)%Q in
  (intersection_area / (union_area + (1 # 100000000)))%Q.

(** 161-205 tryToUnflip *)
Definition tryToUnflip (box : Z -> Q) : Z -> Q :=
  let gtX := Qltb (box 3) (box 1) in
  let gtY := Qltb (box 2) (box 0) in
  fun i => if i =? 0 then (if gtY then box 2 else box 0) else if i =? 1 then (if gtX then box 3 else box 1)
           else if i =? 2 then (if gtY then box 0 else box 2) else (if gtX then box 1 else box 3).

(** 94-159 suppressByScores *)
Definition countAbove (p : nmsIn) (th : Q) (b c : Z) : Z :=
  fold_left (fun topk s => if Qltb th (scores p b c s) then topk + 1 else topk) (zrange (ns p)) 0.
Definition effectiveMax (p : nmsIn) (th : Q) : Z :=
  fold_left (fun m b => fold_left (fun m c => Z.max (countAbove p th b c) m) (zrange (nc p)) m) (zrange (nb p)) 0.

(** The loops, 276-460. State of a class: boxes kept so far, the flags of the removed boxes; and
    the rows of the output with their number. *)
Record nmsState := { rows : Z -> Z * Z * Z; used : Z; kept : Z; removed : Z -> bool }.
Definition removeOverlapping (p : nmsIn) (bx : Z -> Z -> Q) (th : Q) (selected : Z) (r : Z -> bool) : Z -> bool :=
  fold_left (fun (r : Z -> bool) o => if r o then r else if Qle_bool th (emitIOU (center p) (bx selected) (bx o)) then (fun i => if i =? o then true else r i) else r) (zrange (ns p)) r.
Definition visit (p : nmsIn) (bx : Z -> Z -> Z -> Q) (sTH iTH : Q) (MOPC size b c selectedBI : Z) (st : nmsState) : option nmsState :=
  if negb ((0 <=? selectedBI) && (selectedBI <? ns p)) then None else
  let checkScore := Qltb sTH (scores p b c selectedBI) in
  let checkMOPC := kept st <? MOPC in
  if checkScore && checkMOPC && negb (removed st selectedBI) then
    if (0 <=? used st) && (used st <? size) then
      Some {| rows := fun i => if i =? used st then (b, c, selectedBI) else rows st i; used := used st + 1; kept := kept st + 1;
              removed := removeOverlapping p (bx b) iTH selectedBI (removed st) |}
    else None
  else Some st.
(** Missing thresholds are 0, and so is a missing maximum (245-253). *)
Definition orZero {A} (z : A) (o : option A) : A := match o with Some x => x | None => z end.
Definition nmsLowering (p : nmsIn) (order : Z -> Z -> list Z) : option (list (Z * Z * Z)) :=
  let sTH := orZero 0%Q (scoreTH p) in
  let iTH := orZero 0%Q (iouTH p) in
  let MOPC := Z.min (Z.min (orZero 0 (maxOut p)) (ns p)) (effectiveMax p sTH) in
  let bx := if center p then boxes p else fun b s => tryToUnflip (boxes p b s) in
  let size := nb p * nc p * MOPC in
  if size <? 0 then None else
  st <- foldM (fun b st => foldM (fun c st =>
      foldM (fun s st => visit p bx sTH iTH MOPC size b c s st)
        (order b c) {| rows := rows st; used := used st; kept := 0; removed := fun _ => false |})
      (zrange (nc p)) st) (zrange (nb p))
    {| rows := fun _ => (-1, -1, -1); used := 0; kept := 0; removed := fun _ => false |} ;;
  Some (map (rows st) (zrange (used st))).
