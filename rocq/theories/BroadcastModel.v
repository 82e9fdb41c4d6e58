(** Broadcasting elementwise operators: shape inference and loop collapsing
    (src/Dialect/ONNX/ONNXOps/ShapeHelper.cpp), flattened code generation
    (src/Conversion/ONNXToKrnl/Math/Elementwise.cpp) and the SIMD loop
    (src/Dialect/Mlir/DialectBuilder.hpp.inc). *)
From Coq Require Import List ZArith Bool Arith.
From Verif Require Import Util TensorSpec.
Import ListNotations.
Open Scope Z_scope.

(** A dimension as IndexExpr sees it: a literal, or a run-time value ([Dyn], or the
    result of IndexExpr::max).  IndexExpr itself is modelled in IndexExprModel. *)
Inductive dim := Lit (n : Z) | Dyn (x : nat) | DMax (a b : dim).
Fixpoint ev (rho : nat -> Z) (d : dim) : Z :=
  match d with Lit n => n | Dyn x => rho x | DMax a b => Z.max (ev rho a) (ev rho b) end.
(** IndexExpr::isLiteralAndIdenticalTo(1), isLiteralAndDifferentThan(1), isLiteral. *)
Definition litOne (d : dim) : bool := match d with Lit n => n =? 1 | _ => false end.
Definition litNotOne (d : dim) : bool := match d with Lit n => negb (n =? 1) | _ => false end.
Definition isLit (d : dim) : bool := match d with Lit _ => true | _ => false end.

(** ShapeHelper.cpp:376-388: prepend ones up to the output rank. *)
Definition pad (rank : nat) (s : list dim) : list dim := repeat (Lit 1) (rank - length s) ++ s.
(** ShapeHelper.cpp:370-374. *)
Definition outRank (shapes : list (list dim)) : nat := fold_right Nat.max 0%nat (map (@length dim) shapes).

(** ShapeHelper.cpp:412-456, the body of the two loops; [None]: emitOpError. *)
Definition bdim (uni : bool) (cur next : dim) : option dim :=
  if litOne cur then Some (if uni then cur else next)
  else if litNotOne cur then
    match cur, next with
    | Lit a, Lit b => if litNotOne next && negb (a =? b) then None else Some cur
    | _, _ => Some cur
    end
  else if litOne next then Some cur
  else if litNotOne next then Some next
  else Some (if uni then cur else DMax cur next).
Fixpoint bdims (uni : bool) (cur next : list dim) : option (list dim) :=
  match cur, next with
  | c :: cur', n :: next' => d <- bdim uni c n ;; r <- bdims uni cur' next' ;; Some (d :: r)
  | _, _ => Some []
  end.
(** ShapeHelper.cpp:358-460 (customComputeShape); an additional operand is one more
    shape at the end.  Without operands inputsDims[0] is out of bounds: [None] too. *)
Definition inputsDims (shapes : list (list dim)) : list (list dim) := map (pad (outRank shapes)) shapes.
Definition computeShape (uni : bool) (shapes : list (list dim)) : option (list dim) :=
  match inputsDims shapes with
  | [] => None
  | first :: rest => foldM (fun s out => bdims uni out s) rest first
  end.

(** ShapeHelper.cpp:473-520; [sameShape i]: DimAnalysis shows that operands 0 and i
    have the same shape ([false] when there is no analysis).  One column of the loop: *)
Definition col (inputs : list (list dim)) (rr : nat) : list dim := map (fun s => nth rr s (Lit 1)) inputs.
Fixpoint takeLit (c : list dim) : list dim :=                (* up to the first dynamic one *)
  match c with d :: c' => if isLit d then d :: takeLit c' else [] | [] => [] end.
Definition noBroadcastCol (c : list dim) : option bool :=   (* None: broadcast found *)
  if existsb litOne (takeLit c) && existsb litNotOne (takeLit c) then None
  else Some (forallb isLit c).
Fixpoint noBroadcastScan (cols : list (list dim)) : option bool :=
  match cols with
  | [] => Some true
  | c :: rest => match noBroadcastCol c with
                 | Some true => noBroadcastScan rest
                 | r => r
                 end
  end.
Definition hasNoBroadcast (sameShape : nat -> bool) (shapes : list (list dim)) : bool :=
  match noBroadcastScan (map (col (inputsDims shapes)) (seq 0 (outRank shapes))) with
  | None => false
  | Some true => true
  | Some false => forallb sameShape (seq 1 (length shapes - 1))
  end.

(** ShapeHelper.cpp:536-713.  [cols]: the columns from the innermost on; [r] is -1,
    -2, ...; [same d d' r]: DimAnalysis shows that dimension r of operands d and d' is
    the same.  Result: collapsed loops, literal size, factors of the dynamic size. *)
Fixpoint lastNonOne (c : list dim) (i : nat) (acc : nat) : nat :=
  match c with [] => acc | d :: c' => lastNonOne c' (S i) (if litOne d then acc else i) end.
Definition compatible (same : nat -> nat -> Z -> bool) (r : Z) (id : nat) (dId : dim) (d : nat) (dD : dim) : bool :=
  match dId, dD with
  | Lit a, Lit b => a =? b
  | _, _ => same id d r
  end.
Fixpoint collapse (same : nat -> nat -> Z -> bool) (cols : list (list dim)) (r : Z) (k : nat)
    (isScalar hasB : list bool) (litSize : Z) (dynSize : list dim) : nat * Z * list dim :=
  match cols with
  | [] => (k, litSize, dynSize)
  | c :: rest =>
      let isOne := map litOne c in
      let isScalar := map2 andb isOne isScalar in
      if existsb (fun b => b) (map2 (fun s h => negb s && h) isScalar hasB) then (k, litSize, dynSize)
      else if forallb (fun b => b) isOne then collapse same rest (r - 1) (Z.to_nat (- r)) isScalar hasB litSize dynSize
      else
        let id := lastNonOne c 0 0 in
        let dId := nth id c (Lit 1) in
        if negb (forallb (fun dD => litOne (snd dD) || (fst dD =? id)%nat || compatible same r id dId (fst dD) (snd dD))
                   (combine (seq 0 (length c)) c)) then (k, litSize, dynSize)
        else if existsb (fun b => b) (map2 (fun s o => negb s && o) isScalar isOne) then (k, litSize, dynSize)
        else
          let hasB := map2 orb isScalar hasB in
          match dId with
          | Lit n => collapse same rest (r - 1) (Z.to_nat (- r)) isScalar hasB (litSize * n) dynSize
          | _ => collapse same rest (r - 1) (Z.to_nat (- r)) isScalar hasB litSize (dynSize ++ [dId])
          end
  end.
Definition hasManageableBroadcast (same : nat -> nat -> Z -> bool) (shapes : list (list dim)) : nat * Z * list dim :=
  let n := length shapes in
  collapse same (map (col (inputsDims shapes)) (rev (seq 0 (outRank shapes)))) (-1) 0
    (repeat true n) (repeat false n) 1 [].

(** ShapeHelper.cpp:716-815 (getAccessExprs): one access per dimension of the operand. *)
Inductive access := AZero | ALoop (i : nat) | ASel (d : dim) (i : nat).
Definition evAcc (rho : nat -> Z) (loops : list Z) (a : access) : Z :=
  match a with
  | AZero => 0
  | ALoop i => nth i loops 0
  | ASel d i => if 1 <? ev rho d then nth i loops 0 else 0
  end.
Definition getAccess (uni noB flattened : bool) (inputs : list (list dim)) (op : nat) (opRank loopDepth : nat) : list access :=
  map (fun r =>
    let dimIndex := (loopDepth - opRank + r)%nat in
    let c := col inputs dimIndex in
    let d := nth op c (Lit 1) in
    let noBroadcasting := noB || (uni && (op =? 0)%nat) in
    let useLoop := negb noBroadcasting &&
      forallb (fun iD => (fst iD =? op)%nat || litOne (snd iD)) (combine (seq 0 (length c)) c) in
    if litOne d then AZero
    else if noBroadcasting || useLoop then ALoop dimIndex
    else if flattened && (r =? opRank - 1)%nat then ALoop dimIndex
    else ASel d dimIndex) (seq 0 opRank).

(** ** Flattened access: Elementwise.cpp:1508-1525 (flat operands), 1571-1604 (access
    functions), DialectBuilder.cpp:1564-1593 (reshapeToFlatInnermost) and
    DialectBuilder.hpp.inc:243-255 (the load).  Result: the position in the operand's
    buffer read for the outer loop indices [outer] and position [j] of the SIMD loop.
    [shape] is the operand's static shape. *)
Definition staticOne (ds : list dim) : bool :=
  forallb isLit ds && (prodZ (map (ev (fun _ => 0)) ds) =? 1).
Definition flatRead (uni noB : bool) (rho : nat -> Z) (shapes : list (list dim)) (k : nat) (op : nat)
    (outer : list Z) (j : Z) : Z :=
  let shape := nth op shapes [] in
  if forallb litOne shape then 0                                  (* hasOneElement *)
  else
    let rank := length shape in
    let kk := Nat.min k rank in
    let A := firstn (rank - kk) shape in
    let B := skipn (rank - kk) shape in
    let flatRank := S (length A) in
    let loops := outer ++ [0] in
    let acc := map (evAcc rho loops) (getAccess uni noB true (inputsDims shapes) op flatRank (length loops)) in
    let acc := if staticOne B then acc else removelast acc ++ [last acc 0 + j] in
    rowmajor (map (ev rho) A ++ [prodZ (map (ev rho) B)]) acc.

(** ** DialectBuilder.hpp.inc:204-340 (simdIterateIE): the positions handled, in order,
    as (start, number of elements). *)
Definition forLoop (lb ub step : Z) : list Z :=
  map (fun i => lb + step * i) (zrange ((ub - lb + step - 1) / step)).
Definition simdIterate (lb ub VL : Z) (fullySimd : bool) : list (Z * Z) :=
  if 1 <? VL then
    let simdUb := if fullySimd then ub else ub - (VL - 1) in
    let vec := map (fun i => (i, VL)) (forLoop lb simdUb VL) in
    if fullySimd then vec
    else
      let tripCount := ub - lb in
      let missing := tripCount mod VL in
      vec ++ map (fun i => (i, 1)) (forLoop (lb + (tripCount - missing)) ub 1)
  else map (fun i => (i, 1)) (forLoop lb ub 1).
