(** Convolution and pooling: shapes and pads (src/Dialect/ONNX/ONNXOps/NN/NNHelper.cpp.inc),
    and the loops that compute them (src/Conversion/ONNXToKrnl/NN/{Conv,Pooling}.cpp).
    Index expressions are modelled by the integers they evaluate to (IndexExprModel covers
    index expressions themselves); tensors are modelled as functions of an index, and a
    load outside the shape is [None]. *)
From Coq Require Import List ZArith Bool.
From Verif Require Import Util.
Import ListNotations.
Open Scope Z_scope.

(** One spatial axis: input size, kernel size, stride, dilation, given pads. *)
Record axis := { aI : Z; aK : Z; aS : Z; aD : Z; aPb : Z; aPe : Z }.
Inductive autopad := NOTSET | VALID | SAME_UPPER | SAME_LOWER.

(** ceilDiv of index expressions by a positive number (IndexExpr.cpp:971-988). *)
Definition cdiv (a b : Z) : Z := - (- a / b).

(** NNHelper.cpp.inc:189-291 (verifyKernelShape, verifyStrides, verifyDilations,
    verifyPadding), for one axis. *)
Definition verifyAxis (ap : autopad) (a : axis) : bool :=
  (1 <=? aK a) && (1 <=? aS a) && (1 <=? aD a) &&
  match ap with
  | NOTSET => (0 <=? aPb a) && (0 <=? aPe a)
  | _ => (aPb a =? 0) && (aPe a =? 0)
  end.

(** NNHelper.cpp.inc:86-142, for one axis: output size, pad at the beginning, pad at the
    end. *)
Definition kdTerm (a : axis) : Z := (aK a - 1) * aD a + 1.
Definition axisShape (ap : autopad) (ceilMode : bool) (a : axis) : Z * Z * Z :=
  match ap with
  | NOTSET =>
      let t2 := aI a + (aPb a + aPe a) - kdTerm a in
      ((if ceilMode then cdiv t2 (aS a) else t2 / aS a) + 1, aPb a, aPe a)
  | VALID =>
      let t2 := aI a - kdTerm a in
      ((if ceilMode then cdiv t2 (aS a) else t2 / aS a) + 1, aPb a, aPe a)
  | SAME_UPPER | SAME_LOWER =>
      let O := cdiv (aI a) (aS a) in
      let padSum := Z.max ((O - 1) * aS a + kdTerm a - aI a) 0 in
      let p := padSum / 2 in
      let inc := if negb (padSum mod 2 =? 0) then 1 else 0 in
      match ap with
      | SAME_UPPER => (O, p, p + inc)
      | _ => (O, p + inc, p)
      end
  end.
Definition outDim ap cm a : Z := fst (fst (axisShape ap cm a)).
Definition padBegin ap cm a : Z := snd (fst (axisShape ap cm a)).
Definition padEnd ap cm a : Z := snd (axisShape ap cm a).

(** krnl.iterate over several loops, outermost first: the iteration vectors in order. *)
Fixpoint nest (bounds : list (Z * Z)) : list (list Z) :=
  match bounds with
  | [] => [[]]
  | (lb, ub) :: r => flat_map (fun i => map (cons i) (nest r)) (zseq lb (Z.to_nat (ub - lb)))
  end.
Fixpoint inb (s : list Z) (idx : list Z) : bool :=
  match s, idx with
  | [], [] => true
  | d :: s, i :: idx => (0 <=? i) && (i <? d) && inb s idx
  | _, _ => false
  end.
Definition load {T} (s : list Z) (f : list Z -> T) (idx : list Z) : option T := if inb s idx then Some (f idx) else None.
Fixpoint mapM {A B} (f : A -> option B) (l : list A) : option (list B) :=
  match l with
  | [] => Some []
  | x :: l => match f x, mapM f l with Some y, Some r => Some (y :: r) | _, _ => None end
  end.
Fixpoint map3 {A B C D} (f : A -> B -> C -> D) (l : list A) (m : list B) (n : list C) : list D :=
  match l, m, n with a :: l, b :: m, c :: n => f a b c :: map3 f l m n | _, _, _ => [] end.

Section Lowering.
Context {T : Type} (zero : T) (add mul : T -> T -> T).

(** Conv.cpp:33-218 (convUnoptimized); [axes] the spatial axes, [ps] their beginning
    pads.  The parallel version runs the same iterations. *)
Record conv := { N : Z; CI : Z; CO : Z; G : Z; CIg : Z; axes : list axis; ps : list Z;
                 X : list Z -> T; W : list Z -> T; B : option (list Z -> T); outS : list Z }.
Definition xShape (c : conv) : list Z := N c :: CI c :: map aI (axes c).
Definition wShape (c : conv) : list Z := CO c :: CIg c :: map aK (axes c).
Definition oShape (c : conv) : list Z := N c :: CO c :: outS c.
(** Conv.cpp:124-152: bounds of the reduction loop of one axis, for output o. *)
Definition redBounds (a : axis) (p o : Z) : Z * Z :=
  let pos := p - o * aS a in
  (Z.max (cdiv pos (aD a)) 0, Z.min (cdiv (aI a + pos) (aD a)) (aK a)).
Definition imageIdx (a : axis) (po : Z * Z) (k : Z) : Z := k * aD a - (fst po - snd po * aS a).
Definition redBody (c : conv) (n g co : Z) (os : list Z) (red : list Z) (acc : T) : option T :=
  match red with
  | ci :: ks =>
      match load (xShape c) (X c) (n :: g * CIg c + ci :: map3 imageIdx (axes c) (combine (ps c) os) ks) with
      | Some image =>
          match load (wShape c) (W c) (co :: ci :: ks) with
          | Some filter => Some (add acc (mul image filter))
          | None => None
          end
      | None => None
      end
  | [] => None
  end.
Definition convBody (c : conv) (it : list Z) : option (list Z * T) :=
  match it with
  | n :: g :: coPerGroup :: os =>
      let co := g * cdiv (CO c) (G c) + coPerGroup in
      match foldM (redBody c n g co os) (nest ((0, CIg c) :: map3 redBounds (axes c) (ps c) os)) zero with
      | Some result =>
          let withBias := match B c with Some b => match load [CO c] b [co] with Some v => Some (add result v) | None => None end | None => Some result end in
          match withBias with
          | Some v => if inb (oShape c) (n :: co :: os) then Some (n :: co :: os, v) else None
          | None => None
          end
      | None => None
      end
  | _ => None
  end.
Definition convUnoptimized (c : conv) : option (list (list Z * T)) :=
  mapM (convBody c) (nest ([(0, N c); (0, G c); (0, cdiv (CO c) (G c))] ++ map (fun d => (0, d)) (outS c))).

(** Pooling.  OpHelper.cpp:292-321 (getIndexExprsForConvWindow), one axis. *)
Definition start1 (a : axis) (p : Z) : Z := cdiv p (aD a) * aD a - p.
Definition start2 (a : axis) (p o : Z) : Z := o * aS a - p.
Definition end1 (a : axis) : Z := aI a.
Definition end2 (a : axis) (p o : Z) : Z := o * aS a + (aK a - 1) * aD a + 1 - p.
Definition windowStart (a : axis) (p o : Z) : Z := Z.max (start1 a p) (start2 a p o).
Definition windowEnd (a : axis) (p o : Z) : Z := Z.min (end1 a) (end2 a p o).
(** OpHelper.cpp:326-365 (getWindowAffineMap): the loop bound is the minimum of the four. *)
Definition windowDim (ceilMode isDilated : bool) (a : axis) (p o : Z) : Z :=
  let f de := if isDilated then (let de := de + 1 in if ceilMode then cdiv de (aD a) else de / aD a) else de in
  Z.min (Z.min (f (end1 a - start1 a p)) (f (end1 a - start2 a p o)))
        (Z.min (f (end2 a p o - start1 a p)) (f (end2 a p o - start2 a p o))).
(** Pooling.cpp:226-229. *)
Definition isDilated (axes : list axis) : bool := existsb (fun a => 1 <? aD a) axes.
(** Pooling.cpp:445-460. *)
Definition poolIdx (isDil : bool) (a : axis) (po : Z * Z) (hp : Z) : Z :=
  if isDil then hp * aD a + windowStart a (fst po) (snd po) else hp + windowStart a (fst po) (snd po).
Definition poolWindow (ceilMode : bool) (axes : list axis) (ps os : list Z) : list (list Z) :=
  map (map3 (poolIdx (isDilated axes)) axes (combine ps os))
      (nest (map3 (fun a p o => (0, windowDim ceilMode (isDilated axes) a p o)) axes ps os)).
(** Pooling.cpp:320-490, one output: the reduction over the window. *)
Definition poolReduce (f : T -> T -> T) (ident : T) (ceilMode : bool) (NN CC : Z) (axes : list axis) (ps : list Z)
    (x : list Z -> T) (n ch : Z) (os : list Z) : option T :=
  foldM (fun pos acc => match load (NN :: CC :: map aI axes) x (n :: ch :: pos) with Some v => Some (f acc v) | None => None end)
        (poolWindow ceilMode axes ps os) ident.
(** Pooling.cpp:388-412: the sizes whose product AveragePool divides by when padding is
    not counted; math.div is a truncating division. *)
Definition fullWindow (ceilMode isDil : bool) (a : axis) (p o : Z) : Z :=
  let dim := windowEnd a p o - windowStart a p o in
  if isDil then
    let numerator := dim + 1 in
    let q := Z.quot numerator (aD a) in
    if ceilMode then (if Z.rem numerator (aD a) =? 0 then q else q + 1) else q
  else dim.
(** Pooling.cpp:147-182. *)
Definition avgDenominator (ceilMode countIncludePad : bool) (axes : list axis) (ps os : list Z) : Z :=
  if countIncludePad then prodZ (map aK axes)
  else prodZ (map3 (fullWindow ceilMode (isDilated axes)) axes ps os).
End Lowering.
