(* The analysis of unknown dimensions: src/Dialect/ONNX/ONNXDimAnalysis.cpp and the
   functions areDims, getDims and getScalarValue of ONNXOps/OpHelper.cpp.

   Simplifications.
   - All tensors are ranked; with an unranked one the analysis does nothing
     (collectOperationsFromModule 521-544, collectOperationsUpward 553-605).
   - dimSetMap is the list of its sets in order of creation, a set is a list without
     duplicates; hash-table order is replaced by insertion order.
   - What the shape helper of an operation says is the table [helper] of the operation
     (the shape helpers themselves are modelled in IndexExpr*.v and ShapeOps*.v).
   - The dim_params of arguments and results arrive parsed; a parameter name is a number.
   - GRU, LSTM and RNN are one kind with the four operands that matter in front. *)
From Coq Require Import List Arith Bool ZArith.
Import ListNotations.
From Verif Require Import Util DimSpec.
Open Scope Z_scope.

(* How a call can end.  [Assert]: a failed assertion; [OutOfBounds]: an index past the end
   of a vector; [Unreachable]: llvm_unreachable; [OutOfFuel]: the loop still runs. *)
Inductive outcome (A : Type) :=
| Ok (a : A) | Assert | OutOfBounds | Unreachable | OutOfFuel.
Arguments Ok {A}. Arguments Assert {A}. Arguments OutOfBounds {A}.
Arguments Unreachable {A}. Arguments OutOfFuel {A}.

Definition bind {A B} (x : outcome A) (f : A -> outcome B) : outcome B :=
  match x with
  | Ok a => f a | Assert => Assert | OutOfBounds => OutOfBounds
  | Unreachable => Unreachable | OutOfFuel => OutOfFuel
  end.

Fixpoint collect {A B} (f : A -> outcome (list B)) (l : list A) : outcome (list B) :=
  match l with
  | [] => Ok []
  | a :: r => bind (f a) (fun x => bind (collect f r) (fun y => Ok (x ++ y)))
  end.

Definition dimEq (a b : dim) : bool := Nat.eqb (fst a) (fst b) && Nat.eqb (snd a) (snd b).
Definition contains (s : list dim) (d : dim) : bool := existsb (dimEq d) s.

(* DenseSet::insert *)
Definition insert (s : list dim) (d : dim) : list dim := if contains s d then s else s ++ [d].

(* ShapedType::getRank, isDynamicDim, getShape. *)
Definition rankOf (p : prog) (v : nat) : nat := length (tdims (types p v)).
Definition dynDim (p : prog) (v a : nat) : bool :=
  match nth_error (tdims (types p v)) a with Some None => true | _ => false end.

(* Value::getDefiningOp; [None] for a block argument. *)
Definition defOp (p : prog) (v : nat) : option op :=
  find (fun o => existsb (Nat.eqb v) (outs o)) (ops p).
Definition defKind (p : prog) (v : nat) : option kind := option_map okind (defOp p v).

(* Value::getUsers: the operations with this operand. *)
Definition users (p : prog) (v : nat) : list nat :=
  filter (fun i => match nth_error (ops p) i with
                   | Some o => existsb (Nat.eqb v) (given (ins o)) | None => false end)
         (seq 0 (length (ops p))).

(* insertDimWhenUseful, 86-118: the dimension to insert, if any. *)
Definition insertDim (p : prog) (v a : nat) : list dim :=
  match defKind p v with
  | None => [(v, a)]
  | Some (KConstant _ _) => []
  | Some (KDim axis) => [(v, axis)]
  | Some KCast => [(v, a)]
  | Some _ => if dynDim p v a then [(v, a)] else []
  end.

(* handleAndTestInBound, 120-125. *)
Definition inBound (axis : Z) (rank : nat) : option nat :=
  let a := normAxis axis rank in
  if (0 <=? a) && (a <? Z.of_nat rank) then Some (Z.to_nat a) else None.

(* findAndAddSameDim, 129-152, and exploreSameDimsUsingShapeHelper, 374-422.  The index
   of the result is found by comparing values, 402-410. *)
Fixpoint indexOf (v : nat) (l : list nat) : option nat :=
  match l with
  | [] => None
  | x :: r => if Nat.eqb x v then Some O else option_map S (indexOf v r)
  end.

Definition fromHelper (p : prog) (o : op) (d : dim) : list dim :=
  match indexOf (fst d) (outs o) with
  | None => []
  | Some j =>
      flat_map (fun i =>
        match nth_error (ins o) i with
        | Some (Some w) =>
            flat_map (fun b => if helper o j (snd d) i b && dynDim p w b then insertDim p w b else [])
                     (seq 0 (rankOf p w))
        | _ => []
        end) (seq 0 (length (ins o)))
  end.

(* One consumer in exploreSameDimsFromConsumingOperators, 172-366. *)
Definition fromConsumer (p : prog) (d : dim) (o : op) : list dim :=
  match okind o with
  | KConcat axis =>                                                    (* 172-203 *)
      let vs := given (ins o) in
      match vs with
      | [] => []
      | v0 :: _ =>
          let rank := rankOf p v0 in
          if existsb (Nat.eqb (fst d)) vs && (snd d <? rank)%nat then
            if Z.of_nat (snd d) =? normAxis axis rank then []
            else flat_map (fun v => if Nat.eqb v (fst d) then [] else insertDim p v (snd d)) vs
          else []
      end
  | KGemm tA tB =>                                                     (* 204-227 *)
      match ins o with
      | Some a :: Some b :: _ =>
          let inA := (a, if tA then 0 else 1)%nat in
          let inB := (b, if tB then 1 else 0)%nat in
          if dimEq inA d then insertDim p (fst inB) (snd inB)
          else if dimEq inB d then insertDim p (fst inA) (snd inA)
          else []
      | _ => []
      end
  | KRecurrent layout =>                                               (* 228-309, 332-365 *)
      match ins o with
      | Some x :: sl :: h :: c :: _ =>
          let b := if layout =? 0 then 1%nat else 0%nat in
          let opt (o : option nat) (a : nat) := match o with Some v => [(v, a)] | None => [] end in
          let batch := (x, b) :: opt sl 0%nat ++ opt h b ++ opt c b in
          if contains batch d then flat_map (fun e => insertDim p (fst e) (snd e)) batch else []
      | _ => []
      end
  | KMatMul | KMatMulInteger =>                                        (* 310-331 *)
      match ins o with
      | Some a :: Some b :: _ =>
          if (2 <=? rankOf p a)%nat && (2 <=? rankOf p b)%nat then
            let inA := (a, rankOf p a - 1)%nat in
            let inB := (b, rankOf p b - 2)%nat in
            if dimEq inA d then insertDim p (fst inB) (snd inB)
            else if dimEq inB d then insertDim p (fst inA) (snd inA)
            else []
          else []
      | _ => []
      end
  | _ => []
  end.

(* exploreSameDimsFromConsumingOperators, 158-368: stops at the first user outside the
   target operations (169-170). *)
Fixpoint fromConsumers (p : prog) (d : dim) (us : list nat) : list dim :=
  match us with
  | [] => []
  | u :: r =>
      if targets p u then
        match nth_error (ops p) u with
        | Some o => fromConsumer p d o ++ fromConsumers p d r
        | None => []
        end
      else []
  end.

(* areDims and getDims, OpHelper.cpp 480-520: the values of the entries of a shape vector,
   [None] when areDims is false.  The recursion follows operands; [fuel] bounds it and is
   enough in SSA form (dimsOf_enough in DimProofs.v). *)
Fixpoint dimsOf (fuel : nat) (p : prog) (v : nat) : option (list nat) :=
  match fuel with
  | O => None
  | S f =>
      if (rankOf p v =? 1)%nat then
        match defOp p v with
        | Some {| okind := KConcat _; ins := l |} =>
            (fix go (l : list nat) : option (list nat) :=
               match l with
               | [] => Some []
               | x :: r =>
                   match dimsOf f p x, go r with
                   | Some a, Some b => Some (a ++ b)
                   | _, _ => None
                   end
               end) (given l)
        | _ =>
            match tdims (types p v) with
            | [Some 1] => if tI64 (types p v) then Some [v] else None
            | _ => None
            end
        end
      else None
  end.

Definition areDimsFromConcat (p : prog) (v : nat) : option (list nat) :=
  match defKind p v with
  | Some (KConcat _) => dimsOf (S (length (ops p))) p v
  | _ => None
  end.

(* The operand that holds the output shape, and the index of the entry:
   exploreSameDimsUsingShapeInput, 446-497. *)
Fixpoint findAxis (l : list Z) (rank a i : nat) : option nat :=
  match l with
  | [] => None
  | x :: r =>
      match inBound x rank with
      | Some b => if Nat.eqb b a then Some i else findAxis r rank a (S i)
      | None => findAxis r rank a (S i)
      end
  end.

Definition shapeInput (p : prog) (o : op) (d : dim) : option (nat * nat) :=
  match okind o, ins o with
  | KCenterCropPad axes, [Some x; Some s] =>
      let rank := rankOf p (fst d) in
      let l := match axes with Some l => l | None => map Z.of_nat (seq 0 rank) end in
      option_map (fun i => (s, i)) (findAxis l rank (snd d) 0)
  | KConstantOfShape, [Some s] => Some (s, snd d)
  | KExpand, [Some x; Some s] => Some (s, snd d)
  | KMaxUnpool, [_; _; Some s] => Some (s, snd d)
  | KReshape az, [Some x; Some s] => if az =? 0 then Some (s, snd d) else None
  | KTile, [Some x; Some s] =>
      match nth_error (tdims (types p x)) (snd d) with
      | Some (Some 1) => Some (s, snd d)
      | _ => None
      end
  | _, _ => None
  end.

(* exploreSameDimsUsingShapeInput, 498-512; dims[inputDimIndex] is not checked. *)
Definition fromShapeInput (p : prog) (o : op) (d : dim) : outcome (list dim) :=
  match shapeInput p o d with
  | None => Ok []
  | Some (s, i) =>
      match areDimsFromConcat p s with
      | None => Ok []
      | Some l =>
          match nth_error l i with
          | Some v => Ok (insertDim p v i)
          | None => OutOfBounds
          end
      end
  end.

Definition sets := list (list dim).

(* sameDynDim, 846-866, on axes already in bounds. *)
Definition sameDynDim (ss : sets) (d1 d2 : dim) : bool :=
  dimEq d1 d2 || existsb (fun s => contains s d1 && contains s d2) ss.

(* sameDim, 820-844. *)
Definition sameDim (p : prog) (ss : sets) (t1 : nat) (x1 : Z) (t2 : nat) (x2 : Z) : bool :=
  match inBound x1 (rankOf p t1), inBound x2 (rankOf p t2) with
  | Some a1, Some a2 =>
      if dimEq (t1, a1) (t2, a2) then true
      else
        match nth_error (tdims (types p t1)) a1, nth_error (tdims (types p t2)) a2 with
        | Some (Some d1), Some (Some d2) => d1 =? d2
        | Some None, Some None => sameDynDim ss (t1, a1) (t2, a2)
        | _, _ => false
        end
  | _, _ => false
  end.

(* One pair of operands of the broadcasting rule, 1214-1235.  [int64_t negativeIndex =
   dimIndex - maxRank]; the axis passed on is [aRank + negativeIndex]. *)
Definition fromPair (p : prog) (ss : sets) (axis : nat) (a b : nat) : list dim :=
  let aRank := rankOf p a in
  let bRank := rankOf p b in
  if negb (aRank =? 0)%nat && negb (bRank =? 0)%nat then
    let neg := Z.of_nat axis - Z.of_nat (Nat.max aRank bRank) in
    if sameDim p ss a neg b neg then insertDim p a (Z.to_nat (Z.of_nat aRank + neg)) else []
  else [].

(* All pairs i < k, 1210-1237. *)
Fixpoint fromPairs (p : prog) (ss : sets) (axis : nat) (l : list nat) : list dim :=
  match l with
  | [] => []
  | a :: r => flat_map (fromPair p ss axis a) r ++ fromPairs p ss axis r
  end.

(* The unknown dimensions of a type and the product of the others, 1269-1285. *)
Definition dynAxes (l : list (option Z)) : list nat :=
  filter (fun i => match nth_error l i with Some None => true | _ => false end) (seq 0 (length l)).
Definition staticSize (l : list (option Z)) : Z :=
  prodZ (map (fun t => match t with Some d => d | None => 1 end) l).

(* The search for the partner of each unknown dimension of the data, 1296-1312: returns
   the first one without a partner and the output dimensions used as partners. *)
Fixpoint pairUp (p : prog) (ss : sets) (x y : nat) (di dj : list nat)
    (missing : option nat) (visited : list nat) : option nat * list nat :=
  match di with
  | [] => (missing, visited)
  | i :: r =>
      match find (fun j => negb (existsb (Nat.eqb j) visited) &&
                           sameDim p ss x (Z.of_nat i) y (Z.of_nat j)) dj with
      | Some j => pairUp p ss x y r dj missing (visited ++ [j])
      | None => pairUp p ss x y r dj (match missing with None => Some i | m => m end) visited
      end
  end.

(* The special case for Reshape, 1241-1328. *)
Definition fromReshape (p : prog) (ss : sets) (az : Z) (x y axis : nat) : list dim :=
  if negb (az =? 0) then []
  else
    let tx := tdims (types p x) in
    let ty := tdims (types p y) in
    let di := dynAxes tx in
    let dj := dynAxes ty in
    if (length di =? length dj)%nat && (staticSize tx =? staticSize ty) then
      match pairUp p ss x y di dj None [] with
      | (Some i, visited) =>
          if (length visited =? length dj - 1)%nat && negb (existsb (Nat.eqb axis) visited)
          then insertDim p x i else []
      | (None, _) => []
      end
    else [].

(* visitDim, 1128-1330. *)
Definition visitDim (p : prog) (ss : sets) (d : dim) : outcome (list dim) :=
  let c := fromConsumers p d (users p (fst d)) in
  match defOp p (fst d) with
  | None => Ok c
  | Some o =>
      match okind o with
      | KConstant _ _ => Ok c
      | KDim axis =>
          match ins o with
          | Some x :: _ => Ok (c ++ insertDim p x axis)
          | _ => Ok c
          end
      | KCast =>
          match ins o with
          | Some x :: _ => Ok (c ++ insertDim p x (snd d))
          | _ => Ok c
          end
      | k =>
          if negb (dynDim p (fst d) (snd d)) then Assert
          else
            let h := fromHelper p o d in
            bind (fromShapeInput p o d) (fun s =>
            let pairs :=
              match k with
              | KAdd | KBroadcast | KMatMul => fromPairs p ss (snd d) (given (ins o))
              | _ => []
              end in
            let rs :=
              match k, ins o with
              | KReshape az, Some x :: _ => fromReshape p ss az x (fst d) (snd d)
              | _, _ => []
              end in
            Ok (c ++ h ++ s ++ pairs ++ rs))
      end
  end.

(* updateDimSets, 1078-1097.  A set is extended in place, so later sets see the new
   dimensions through sameDim. *)
Fixpoint updateFrom (p : prog) (done todo : sets) : outcome (sets * bool) :=
  match todo with
  | [] => Ok (done, false)
  | s :: r =>
      bind (collect (visitDim p (done ++ s :: r)) s) (fun new =>
      let s' := fold_left insert new s in
      bind (updateFrom p (done ++ [s']) r) (fun res =>
      Ok (fst res, snd res || negb (length s' =? length s)%nat)))
  end.

Definition updateDimSets (p : prog) (ss : sets) : outcome (sets * bool) := updateFrom p [] ss.

(* areOverlapping, 44-61. *)
Definition overlap (a b : list dim) : bool := existsb (contains b) a.

(* The inner loop of mergeDimSets, 1113-1126: [lhs] takes in every later set it overlaps. *)
Fixpoint absorb (lhs : list dim) (rest : sets) : list dim * sets :=
  match rest with
  | [] => (lhs, [])
  | r :: t =>
      if overlap lhs r then absorb (fold_left insert r lhs) t
      else let (l', kept) := absorb lhs t in (l', r :: kept)
  end.

(* One round over all keys, 1100-1127. *)
Fixpoint mergeRound (n : nat) (ss : sets) : sets :=
  match n, ss with
  | S m, s :: r => let (s', kept) := absorb s r in s' :: mergeRound m kept
  | _, _ => ss
  end.

(* mergeDimSets, 1099-1133: until no set is erased.  Every other round erases a set, so
   as many rounds as sets suffice. *)
Fixpoint mergeLoop (n : nat) (ss : sets) : sets :=
  match n with
  | O => ss
  | S m =>
      let ss' := mergeRound (length ss) ss in
      if (length ss' <? length ss)%nat then mergeLoop m ss' else ss'
  end.
Definition mergeDimSets (ss : sets) : sets := mergeLoop (S (length ss)) ss.

(* The first loop of analyze, 1035-1051. *)
Fixpoint classify (fuel : nat) (p : prog) (ss : sets) : outcome sets :=
  match fuel with
  | O => OutOfFuel
  | S f =>
      bind (updateDimSets p ss) (fun res =>
      if snd res then classify f p (mergeDimSets (fst res)) else Ok (fst res))
  end.

(* A relation: dim1 + offset == dim2.  ONNXDimAnalysis.hpp DimRelation; the second offset
   is 0 wherever a relation is created. *)
Definition rel := (dim * Z * dim)%type.
Definition rkey (r : rel) : dim := fst (fst r).
Definition roff (r : rel) : Z := snd (fst r).
Definition rtgt (r : rel) : dim := snd r.

(* getScalarValue<int64_t>, OpHelper.cpp 570-590, of a value defined by a constant. *)
Definition constOf (p : prog) (v : nat) : option (option Z) :=
  match defKind p v with Some (KConstant _ s) => Some s | _ => None end.

Definition withScalar (s : option Z) (f : Z -> list rel) : outcome (list rel) :=
  match s with Some c => Ok (f c) | None => Unreachable end.

(* The Add case, 1441-1461. *)
Definition offAdd (p : prog) (a b : nat) (d : dim) : option (outcome (list rel)) :=
  match constOf p b with
  | Some s => Some (withScalar s (fun c => [((a, snd d), c, d)]))
  | None =>
      match constOf p a with
      | Some s => Some (withScalar s (fun c => [((b, snd d), c, d)]))
      | None => None
      end
  end.

(* The Concat case on the concatenation axis, 1464-1493: the only unknown input, if any,
   and the sum of the known sizes; [None] when two inputs are unknown. *)
Fixpoint concatSizes (p : prog) (axis : nat) (l : list nat) (dyn : option nat) (total : Z)
    : option (option nat * Z) :=
  match l with
  | [] => Some (dyn, total)
  | v :: r =>
      match nth_error (tdims (types p v)) axis with
      | Some (Some n) => concatSizes p axis r dyn (total + n)
      | Some None => match dyn with
                     | Some _ => None
                     | None => concatSizes p axis r (Some v) total
                     end
      | None => None
      end
  end.

Definition offConcat (p : prog) (l : list nat) (axis : nat) (d : dim) : list rel :=
  match concatSizes p axis l None 0 with
  | Some (Some v, total) => if 0 <? total then [((v, axis), total, d)] else []
  | _ => []
  end.

(* The Expand case, 1496-1543: the entry of the shape vector that covers the dimension.
   ShapedType::getNumElements asserts that the shape is known. *)
Definition numElements (p : prog) (v : nat) : outcome Z :=
  if (length (dynAxes (tdims (types p v))) =? 0)%nat then Ok (staticSize (tdims (types p v)))
  else Assert.

Fixpoint entryAt (p : prog) (l : list nat) (cur : Z) (axis : nat) : outcome (option nat) :=
  match l with
  | [] => Ok None
  | v :: r =>
      bind (numElements p v) (fun n =>
      if (cur <=? Z.of_nat axis) && (Z.of_nat axis <? cur + n) then Ok (Some v)
      else entryAt p r (cur + n) axis)
  end.

Definition throughSqueeze (p : prog) (v : nat) : nat :=
  match defOp p v with
  | Some {| okind := KSqueeze; ins := Some x :: _ |} => x
  | _ => v
  end.

Definition dimSource (p : prog) (v : nat) : option dim :=
  match defOp p (throughSqueeze p v) with
  | Some {| okind := KDim a; ins := Some x :: _ |} => Some (x, a)
  | _ => None
  end.

Definition offExpand (p : prog) (s : nat) (d : dim) : outcome (list rel) :=
  match defOp p s with
  | Some {| okind := KConcat _; ins := l |} =>
      bind (entryAt p (given l) 0 (snd d)) (fun found =>
      match found with
      | None => Ok []
      | Some e =>
          let so := match defOp p e with
                    | Some {| okind := KReshape _; ins := Some x :: _ |} => defOp p x
                    | o => o
                    end in
          match so with
          | Some {| okind := KAdd; ins := [Some a; Some b] |} =>
              let mk v (c : Z) := match dimSource p v with Some sd => [(sd, c, d)] | None => [] end in
              match constOf p b with
              | Some s => withScalar s (mk a)
              | None => match constOf p a with
                        | Some s => withScalar s (mk b)
                        | None => Ok []
                        end
              end
          | _ => Ok []
          end
      end)
  | _ => Ok []
  end.

(* The general case, 1546-1566. *)
Definition offGeneral (p : prog) (ss : sets) (o : op) (d : dim) : list rel :=
  flat_map (fun v =>
    flat_map (fun i => if sameDim p ss v (Z.of_nat i) (fst d) (Z.of_nat (snd d))
                       then [((v, i), 0, d)] else [])
             (seq 0 (rankOf p v))) (given (ins o)).

(* visitDimForOffsets, 1425-1567. *)
Definition visitOffsets (p : prog) (ss : sets) (d : dim) : outcome (list rel) :=
  match defOp p (fst d) with
  | None => Ok []
  | Some o =>
      match okind o, ins o with
      | KConstant _ _, _ => Ok []
      | KAdd, [Some a; Some b] =>
          match offAdd p a b d with
          | Some res => res
          | None => Ok (offGeneral p ss o d)
          end
      | KConcat axis, l =>
          let a := normAxis axis (rankOf p (fst d)) in
          if Z.of_nat (snd d) =? a then Ok (offConcat p (given l) (snd d) d)
          else Ok (offGeneral p ss o d)
      | KExpand, [Some x; Some s] => offExpand p s d
      | KExpand, _ => Ok []
      | _, _ => Ok (offGeneral p ss o d)
      end
  end.

Definition relsOf (rs : list rel) (d : dim) : list rel := filter (fun r => dimEq (rkey r) d) rs.

(* DenseMap<int64_t, DimT>::try_emplace over all relations of a set, 1364-1376. *)
Fixpoint firstTargets (rs : list rel) (acc : list (Z * dim)) : list (Z * dim) :=
  match rs with
  | [] => acc
  | r :: t =>
      if existsb (fun q => fst q =? roff r) acc then firstTargets t acc
      else firstTargets t (acc ++ [(roff r, rtgt r)])
  end.

(* Phase 1 for one set, 1355-1394. *)
Definition shareInSet (rs : list rel) (s : list dim) : list rel :=
  let known := flat_map (relsOf rs) s in
  let ot := firstTargets known [] in
  rs ++ flat_map (fun d => match relsOf rs d with
                           | [] => map (fun q => (d, fst q, snd q)) ot
                           | _ => []
                           end) s.

Definition share (rs : list rel) (ss : sets) : list rel := fold_left shareInSet ss rs.

(* Phase 2, 1396-1423: the pairs of targets that must be equal. *)
Fixpoint offsetsOf (rs : list rel) (acc : list Z) : list Z :=
  match rs with
  | [] => acc
  | r :: t => offsetsOf t (if existsb (Z.eqb (roff r)) acc then acc else acc ++ [roff r])
  end.

Definition newEqualities (p : prog) (ss : sets) (rs : list rel) (s : list dim) : list (dim * dim) :=
  if (length s <? 2)%nat then []
  else
    let known := flat_map (relsOf rs) s in
    flat_map (fun off =>
      match map rtgt (filter (fun r => roff r =? off) known) with
      | [] => []
      | t0 :: r =>
          flat_map (fun t => if sameDim p ss (fst t0) (Z.of_nat (snd t0)) (fst t) (Z.of_nat (snd t))
                             then [] else [(t0, t)]) r
      end) (offsetsOf known []).

(* propagateOffsetRelations, 1352-1433.  build(dim2, build(dim1)) creates a new set with
   both dimensions (712-731). *)
Record state := { sSets : sets; sRels : list rel }.

Fixpoint propagate (fuel : nat) (p : prog) (st : state) : outcome state :=
  match fuel with
  | O => OutOfFuel
  | S f =>
      let rs := share (sRels st) (sSets st) in
      let eqs := flat_map (newEqualities p (sSets st) rs) (sSets st) in
      if negb (length rs =? length (sRels st))%nat || negb (length eqs =? 0)%nat then
        propagate f p {| sSets := mergeDimSets
                                    (sSets st ++ map (fun e => insert [fst e] (snd e)) eqs);
                         sRels := rs |}
      else Ok {| sSets := sSets st; sRels := rs |}
  end.

(* build(Value), 792-812. *)
Definition buildValue (p : prog) (v : nat) : sets :=
  map (fun a => [(v, a)]) (dynAxes (tdims (types p v))).

(* buildFunctionArgsRes, 733-790: the dimensions without a parameter ... *)
Definition plainDims (p : prog) (l : list nat) (par : nat -> nat -> option nat) : sets :=
  flat_map (fun i => match nth_error l i with
    | Some v => flat_map (fun a => match par i a with None => [[(v, a)]] | Some _ => [] end)
                         (dynAxes (tdims (types p v)))
    | None => [] end) (seq 0 (length l)).

(* ... and those with one: (parameter, dimension). *)
Definition paramDims (p : prog) (l : list nat) (par : nat -> nat -> option nat) : list (nat * dim) :=
  flat_map (fun i => match nth_error l i with
    | Some v => flat_map (fun a => match par i a with Some q => [(q, (v, a))] | None => [] end)
                         (dynAxes (tdims (types p v)))
    | None => [] end) (seq 0 (length l)).

Fixpoint addParam (q : nat) (d : dim) (m : list (nat * list dim)) : list (nat * list dim) :=
  match m with
  | [] => [(q, [d])]
  | (q', s) :: r => if Nat.eqb q q' then (q', insert s d) :: r else (q', s) :: addParam q d r
  end.

Definition paramSets (l : list (nat * dim)) : sets :=
  map snd (fold_left (fun m e => addParam (fst e) (snd e) m) l []).

(* The constructors, 660-710: [whole] for a module, otherwise for one operation and the
   operations above it, which includes the arguments but not the results. *)
Definition initial (p : prog) (whole : bool) : sets :=
  flat_map (fun i => if targets p i then
    match nth_error (ops p) i with Some o => flat_map (buildValue p) (outs o) | None => [] end
    else []) (seq 0 (length (ops p))) ++
  plainDims p (args p) (argParam p) ++
  (if whole then plainDims p (rets p) (retParam p) else []) ++
  paramSets (paramDims p (args p) (argParam p) ++
             (if whole then paramDims p (rets p) (retParam p) else [])).

(* analyze, 1029-1076. *)
Definition analyze (fuel : nat) (p : prog) (whole : bool) : outcome state :=
  bind (classify fuel p (initial p whole)) (fun ss =>
  bind (collect (visitOffsets p ss) (concat ss)) (fun rs =>
  propagate fuel p {| sSets := ss; sRels := rs |})).

(* sameShape 868-879, sameDynShape 881-902, broadcastLastDim 904-922. *)
Definition sameShape (p : prog) (st : state) (a b : nat) : bool :=
  (rankOf p a =? rankOf p b)%nat &&
  forallb (fun i => sameDim p (sSets st) a (Z.of_nat i) b (Z.of_nat i)) (seq 0 (rankOf p a)).

Definition sameDynShape (p : prog) (st : state) (a b : nat) : bool :=
  (rankOf p a =? rankOf p b)%nat &&
  forallb (fun i => (negb (dynDim p a i) && negb (dynDim p b i)) ||
                    sameDim p (sSets st) a (Z.of_nat i) b (Z.of_nat i)) (seq 0 (rankOf p a)).

Definition broadcastLastDim (p : prog) (st : state) (a b : nat) : bool :=
  (rankOf p a =? rankOf p b)%nat &&
  match nth_error (tdims (types p a)) (rankOf p a - 1) with
  | Some (Some 1) =>
      forallb (fun i => sameDim p (sSets st) a (Z.of_nat i) b (Z.of_nat i)) (seq 0 (rankOf p a - 1))
  | _ => false
  end.

(* getDimOffset, 924-956. *)
Definition getDimOffset (p : prog) (st : state) (t1 : nat) (x1 : Z) (t2 : nat) (x2 : Z) : option Z :=
  match inBound x1 (rankOf p t1), inBound x2 (rankOf p t2) with
  | Some a1, Some a2 =>
      if sameDim p (sSets st) t1 x1 t2 x2 then Some 0
      else
        match find (fun r => dimEq (rtgt r) (t2, a2)) (relsOf (sRels st) (t1, a1)) with
        | Some r => Some (roff r)
        | None =>
            match find (fun r => dimEq (rtgt r) (t1, a1)) (relsOf (sRels st) (t2, a2)) with
            | Some r => Some (- roff r)
            | None => None
            end
        end
  | _, _ => None
  end.

(* sameDimWithOffset, 958-985. *)
Definition sameDimWithOffset (p : prog) (st : state) (t1 : nat) (x1 o1 : Z) (t2 : nat) (x2 o2 : Z) : bool :=
  match inBound x1 (rankOf p t1), inBound x2 (rankOf p t2) with
  | Some _, Some _ =>
      if o1 - o2 =? 0 then sameDim p (sSets st) t1 x1 t2 x2
      else match getDimOffset p st t1 x1 t2 x2 with
           | Some k => k =? o1 - o2
           | None => false
           end
  | _, _ => false
  end.

(* RemoveSameONNXDim.cpp 59-97: the values of onnx.Dim operations found for one set; all
   of them are replaced by one.  A dimension that is not itself an onnx.Dim contributes
   the first onnx.Dim that reads it; block arguments are skipped. *)
Definition dimValues (p : prog) (s : list dim) : list nat :=
  flat_map (fun d =>
    match defKind p (fst d) with
    | None => []
    | Some (KDim _) => [fst d]
    | Some _ =>
        match find (fun u => match nth_error (ops p) u with
                             | Some {| okind := KDim a |} => Nat.eqb a (snd d)
                             | _ => false end) (users p (fst d)) with
        | Some u => match nth_error (ops p) u with Some o => outs o | None => [] end
        | None => []
        end
    end) s.
