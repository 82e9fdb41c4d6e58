(** Reshape, Split, Squeeze, Unsqueeze, Flatten and Concat: shape helpers
    (src/Dialect/ONNX/ONNXOps/Tensor) and copy loops (src/Conversion/ONNXToKrnl/Tensor).

    Reshape is written once over a domain of index expressions and used twice: with
    integers (the code run on the actual sizes) and with optional integers (shape
    inference: a literal or a question mark).  Tensors are functions of an index, and a
    load or store outside a shape is [None]. *)
From Coq Require Import List ZArith Bool Arith.
From Verif Require Import Util TensorSpec.
Import ListNotations.
Open Scope Z_scope.

Definition memb (i : nat) (l : list nat) : bool := existsb (Nat.eqb i) l.
Definition enum {A} (l : list A) : list (nat * A) := combine (seq 0 (length l)) l.

(** Reshape.cpp:84-135: the dims of the shape found equal to a data dim, by position in
    the shape; [None] when two are found equal to the same data dim.  Which dims are found
    equal (ScopedDimAnalysis, areDimsFromConcat) is the parameter [dimOf]. *)
Fixpoint findBijection (dimOf : list (option nat)) (i : nat) (dataI outI : list nat) : option (list nat * list nat) :=
  match dimOf with
  | [] => Some (dataI, outI)
  | None :: r => findBijection r (S i) dataI outI
  | Some k :: r => if memb k dataI then None else findBijection r (S i) (k :: dataI) (i :: outI)
  end.
Definition ignoredDims (dimOf : list (option nat)) : list nat * list nat :=
  match findBijection dimOf 0 [] [] with Some p => p | None => ([], []) end.

Section Reshape.
(** Index expressions: literals, product, floorDiv, and select(x == z, a, b). *)
Context {D : Type} (lit : Z -> D) (mul : D -> D -> D) (fdiv : D -> D -> option D) (ifeq : D -> Z -> D -> D -> D).
(** Reshape.cpp:140-145. *)
Definition numOfElements (data : list D) (ign : list nat) : D :=
  fold_left (fun acc e => if memb (fst e) ign then acc else mul acc (snd e)) (enum data) (lit 1).
(** Reshape.cpp:150-160: 0 copies the dim of the data. *)
Definition dimFromShape (data : list D) (e : nat * D) : D :=
  match nth_error data (fst e) with Some d => ifeq (snd e) 0 d (snd e) | None => snd e end.
(** Reshape.cpp:147-172. *)
Definition numOfElementsFromShape (data shape : list D) (ign : list nat) : D :=
  fold_left (fun acc e => if memb (fst e) ign then acc else
    let dim := dimFromShape data e in mul acc (ifeq dim (-1) (lit 1) dim)) (enum shape) (lit 1).
(** Reshape.cpp:178-183; the quotient is computed for each output dim, used or not. *)
Definition reshapeDims (dimOf : list (option nat)) (data shape : list D) : option (list D) :=
  match shape with
  | [] => Some []
  | _ =>
      let (dataI, outI) := ignoredDims dimOf in
      q <- fdiv (numOfElements data dataI) (numOfElementsFromShape data shape outI) ;;
      Some (map (fun e => ifeq (snd e) (-1) q (dimFromShape data e)) (enum shape))
  end.
End Reshape.
(** On actual sizes; arith.floordivsi by zero is undefined. *)
Definition reshapeRun : list (option nat) -> list Z -> list Z -> option (list Z) :=
  reshapeDims (fun z => z) Z.mul (fun a b => if b =? 0 then None else Some (a / b)) (fun x z a b => if x =? z then a else b).
(** In shape inference (IndexExprModel: a question mark operand gives a question mark;
    literal division is taken as exact, see C28). *)
Definition both (f : Z -> Z -> Z) (a b : option Z) : option Z := match a, b with Some x, Some y => Some (f x y) | _, _ => None end.
Definition reshapeInfer : list (option nat) -> list (option Z) -> list (option Z) -> option (list (option Z)) :=
  reshapeDims (@Some Z) (both Z.mul)
    (fun a b => match a, b with Some x, Some y => if y =? 0 then None else Some (Some (x / y)) | _, _ => Some None end)
    (fun x z a b => match x with Some v => if v =? z then a else b | None => None end).
(** Reshape.cpp:184-192, data of unknown rank. *)
Definition reshapeInferUnranked (shape : list (option Z)) : list (option Z) :=
  map (fun v => match v with Some z => if (z =? 0) || (z =? -1) then None else Some z | None => None end) shape.

(** Split.cpp:35-43, negative axis. *)
Definition normAxis (rank a : Z) : option Z := if (a <? - rank) || (rank <=? a) then None else Some (if a <? 0 then rank + a else a).
(** Split.cpp:48-80: the sizes; [known]: the dim is a literal; [hasNumOutputs]: Split of
    opset 18 rather than V13 or V11; [None]: the error messages. *)
Definition cdivZ (a b : Z) : Z := - (- a / b).
Definition splitSizes (known hasNumOutputs : bool) (n : nat) (dim : Z) (explicit : list Z) : option (list Z) :=
  match explicit with
  | _ :: _ => if (length explicit =? n)%nat then Some explicit else None
  | [] =>
      if known && negb (dim mod Z.of_nat n =? 0) && negb hasNumOutputs then None
      else
        let numBiggerChunks := if known then Z.to_nat (dim mod Z.of_nat n) else n in
        Some (map (fun i => if (i <? numBiggerChunks)%nat then cdivZ dim (Z.of_nat n) else dim / Z.of_nat n) (seq 0 n))
  end.
Section Copies.
Context {T : Type}.
Record tensor := { tShape : list Z; tAt : list Z -> T }.
Fixpoint inBounds (s idx : list Z) : bool :=
  match s, idx with
  | [], [] => true
  | d :: s, i :: idx => (0 <=? i) && (i <? d) && inBounds s idx
  | _, _ => false
  end.
Definition load (t : tensor) (idx : list Z) : option T := if inBounds (tShape t) idx then Some (tAt t idx) else None.
Fixpoint collect {A B} (f : A -> option B) (l : list A) : option (list B) :=
  match l with [] => Some [] | x :: l => y <- f x ;; r <- collect f l ;; Some (y :: r) end.
(** src/Conversion/ONNXToKrnl/Tensor/Split.cpp:60-95: the stores into output i, in
    order. *)
Definition splitOutShape (s : list Z) (axis : nat) (sizes : list Z) (i : nat) : list Z := upd axis (nth i sizes 0) s.
Definition splitLoop (x : tensor) (axis : nat) (sizes : list Z) (i : nat) : option (list (list Z * T)) :=
  collect (fun idx => v <- load x (upd axis (fold_left Z.add (firstn i sizes) (nth axis idx 0)) idx) ;; Some (idx, v))
          (indices (splitOutShape (tShape x) axis sizes i)).

(** Concat.cpp (ONNXOps/Tensor):28-99: dims that are literals at compile time, with their
    value. *)
Definition isEmptyInput (s : list (bool * Z)) : bool :=
  match s with [(true, 0)] => true | _ => false end.
Fixpoint concatRest (axis : nat) (rest : list (list (bool * Z))) (dims : list (bool * Z)) (total : Z) : list (bool * Z) * Z :=
  match rest with
  | [] => (dims, total)
  | s :: rest =>
      if isEmptyInput s then concatRest axis rest dims total
      else concatRest axis rest (map (fun e : (bool * Z) * (bool * Z) => if fst (snd e) then snd e else fst e) (combine dims s)) (total + snd (nth axis s (false, 0)))
  end.
Fixpoint concatDims (axis : nat) (inputs : list (list (bool * Z))) : option (list Z) :=
  match inputs with
  | [] => None
  | s :: rest =>
      if isEmptyInput s then concatDims axis rest
      else let (dims, total) := concatRest axis rest s (snd (nth axis s (false, 0))) in
           Some (upd axis total (map snd dims))
  end.
(** src/Conversion/ONNXToKrnl/Tensor/Concat.cpp:72-121: the stores, in order. *)
Definition concatCopy (axis : nat) (out : list Z) (x : tensor) (off : Z) : option (list (list Z * T)) :=
  collect (fun idx =>
      v <- load x idx ;;
      let w := upd axis (nth axis idx 0 + off) idx in
      if inBounds out w then Some (w, v) else None)
    (indices (upd axis (nth axis (tShape x) 0) out)).
Fixpoint concatLoop (axis : nat) (out : list Z) (inputs : list tensor) (off : Z) : option (list (list Z * T)) :=
  match inputs with
  | [] => Some []
  | x :: r =>
      s <- concatCopy axis out x off ;;
      t <- concatLoop axis out r (off + nth axis (tShape x) 0) ;;
      Some (s ++ t)
  end.

(** src/Conversion/ONNXToKrnl/Tensor/Flatten.cpp:99-165: the position stored to, built
    from the innermost dim outwards. *)
Fixpoint flattenIndex (rdims ridx : list Z) (acc pos : Z) : Z :=
  match rdims, ridx with
  | d :: rd, i :: ri => flattenIndex rd ri (d * acc) (pos + i * acc)
  | _, _ => pos
  end.
Definition flattenLoop (x : tensor) (axis : nat) (out : list Z) : option (list (list Z * T)) :=
  collect (fun idx =>
      v <- load x idx ;;
      let w := [flattenIndex (rev (firstn axis (tShape x))) (rev (firstn axis idx)) 1 0;
                flattenIndex (rev (skipn axis (tShape x))) (rev (skipn axis idx)) 1 0] in
      if inBounds out w then Some (w, v) else None)
    (indices (tShape x)).
End Copies.
Arguments tensor : clear implicits.

(** Flatten.cpp (ONNXOps/Tensor):28-65, and the sizes allocated
    (Conversion/ONNXToKrnl/Tensor/Flatten.cpp:26-52). *)
Definition flattenAxis (rank a : Z) : option nat := if (a <? - rank) || (rank <? a) then None else Some (Z.to_nat (if a <? 0 then a + rank else a)).
Fixpoint inferProduct (l : list (option Z)) (acc : Z) : option Z :=
  match l with [] => Some acc | None :: _ => None | Some d :: r => inferProduct r (acc * d) end.
Definition flattenInfer (s : list (option Z)) (axis : nat) : list (option Z) := [inferProduct (firstn axis s) 1; inferProduct (skipn axis s) 1].
Definition flattenAlloc (s : list Z) (axis : nat) : list Z := [fold_left Z.mul (firstn axis s) 1; fold_left Z.mul (skipn axis s) 1].

(** Squeeze.cpp:40-103; dims of unknown size are [None].  Without axes every dim must be
    known. *)
Fixpoint normAll (rank : Z) (axes : list Z) : option (list Z) :=
  match axes with [] => Some [] | a :: r => a' <- normAxis rank a ;; r' <- normAll rank r ;; Some (a' :: r') end.
Definition zmem (a : Z) (l : list Z) : bool := existsb (Z.eqb a) l.
Definition zenum {A} (l : list A) : list (Z * A) := combine (zrange (Z.of_nat (length l))) l.
Definition keepDims {A} (data : list A) (axes : list Z) : list A := map snd (filter (fun e => negb (zmem (fst e) axes)) (zenum data)).
Definition squeeze {A} (data : list A) (axes : list Z) : option (list A) :=
  ax <- normAll (Z.of_nat (length data)) axes ;; Some (keepDims data ax).
Fixpoint onesOf (data : list (option Z)) (i : Z) : option (list Z) :=
  match data with
  | [] => Some []
  | None :: _ => None
  | Some d :: r => l <- onesOf r (i + 1) ;; Some (if d =? 1 then i :: l else l)
  end.
Definition squeezeAll (data : list (option Z)) : option (list (option Z)) := ax <- onesOf data 0 ;; Some (keepDims data ax).

(** Unsqueeze.cpp:30-76.  [inl]: rejected; the inner [None]: a dim of the data read past
    its end, or out of fuel. *)
Fixpoint normDistinct (rank : Z) (axes : list Z) (seen : list Z) : option (list Z) :=
  match axes with
  | [] => Some seen
  | a :: r => a' <- normAxis rank a ;; if zmem a' seen then None else normDistinct rank r (seen ++ [a'])
  end.
Fixpoint unsqueezeLoop {A} (one : A) (data : list A) (outRank : Z) (axes : list Z) (fuel : nat) (i j : Z) : option (list A) :=
  match fuel with
  | O => None
  | S fuel =>
      if (i <? outRank) || (j <? Z.of_nat (length data)) then
        if zmem i axes then r <- unsqueezeLoop one data outRank axes fuel (i + 1) j ;; Some (one :: r)
        else d <- zget data j ;; r <- unsqueezeLoop one data outRank axes fuel (i + 1) (j + 1) ;; Some (d :: r)
      else Some []
  end.
Inductive res (A : Type) := Rejected | Crashed | Done (a : A).
Arguments Rejected {A}. Arguments Crashed {A}. Arguments Done {A}.
Definition unsqueeze {A} (one : A) (data : list A) (axes : list Z) : res (list A) :=
  let outRank := Z.of_nat (length data) + Z.of_nat (length axes) in
  match normDistinct outRank axes [] with
  | None => Rejected
  | Some ax => match unsqueezeLoop one data outRank ax (S (length data + length axes + length data)) 0 0 with
               | Some l => Done l | None => Crashed end
  end.
