(** Theorems C64: the loops generated for MatMul. *)
From Coq Require Import List ZArith Lia Bool Arith.
From Verif Require Import Util TensorSpec TensorLemmas ElementsSpec LoopModel LoopProofs SimdReduceProps KrnlMatmulModel KrnlMatmulProofs MatmulTileProofs MatmulLowerProofs.
Import ListNotations.
Open Scope Z_scope.

(** Element [bt ++ i ++ j] of numpy.matmul: row [i] of [a] times column [j] of [b], the
    products added in increasing order of the contracted index. *)
Definition matmulElement {T} (add mul : T -> T -> T) (zero : T) (lb rb : list Z) (K : Z) (a b : list Z -> T) (bt i j : list Z) : T :=
  fold_left add (map2 mul (map (fun k => a (bsel lb bt ++ i ++ [k])) (zrange K)) (map (fun k => b (bsel rb bt ++ [k] ++ j)) (zrange K))) zero.

(** Operands of shapes [lb ++ (M) ++ [K]] and [rb ++ [K] ++ (N)] ([M] / [N] missing for a
    vector) and batch shape [c]; [aDims] and [bDims] also say which dimensions are known at
    compile time. One batch shape is a suffix of the other: a batch dimension 1 is never
    stretched (see the refutations). *)
Record operands {T} (aDims bDims : list dim) (lb rb c : list Z) (vl vr : bool) (M K N : Z) (A B : mem T) (a b : list Z -> T) : Prop := {
  ofA : map dval aDims = lb ++ opt_axis vl M ++ [K];
  ofB : map dval bDims = rb ++ [K] ++ opt_axis vr N;
  leftBatch : exists p, c = p ++ lb;
  rightBatch : exists p, c = p ++ rb;
  longest : length c = Nat.max (length lb) (length rb);
  leftVector : vl = true -> lb = [];
  rightVector : vr = true -> rb = [];
  sizes : 0 <= M /\ 0 <= K /\ 0 <= N;
  shapeA : mShape A = map dval aDims;
  shapeB : mShape B = map dval bDims;
  dataA : forall i, valid (map dval aDims) i -> mAt A i = Some (a i);
  dataB : forall i, valid (map dval bDims) i -> mAt B i = Some (b i) }.
(** No dimension is known to be zero at compile time. *)
Definition noStaticZero (dims : list dim) : Prop := forall d, In d dims -> lit d = true -> dval d <> 0.

(** C64: for an addition that is associative and commutative, whatever the tiling and SIMD
    options, the vector length (a power of two) and the answers about equal dimensions, the
    generated loops stay in bounds and compute the product. *)
Theorem C64_matmul {T} (add mul : T -> T -> T) zero archVL enableTiling enableSIMD sameDim aDims bDims lb rb c vl vr M K N (A B : mem T) a b :
  operands aDims bDims lb rb c vl vr M K N A B a b -> monoid add zero -> (exists n : nat, archVL = 2 ^ Z.of_nat n) ->
  (enableTiling = true -> noStaticZero (aDims ++ bDims)) ->
  exists out, lowerMatmul add mul zero archVL enableTiling enableSIMD sameDim aDims bDims A B = Some out /\
    mShape out = c ++ opt_axis vl M ++ opt_axis vr N /\
    forall bt i j, valid c bt -> valid (opt_axis vl M) i -> valid (opt_axis vr N) j ->
      mAt out (bt ++ i ++ j) = Some (matmulElement add mul zero lb rb K a b bt i j).
Proof.
  intros [] MO P2 NZ. destruct sizes0 as (HM & HK & HN). pose proof MO as (_ & AC & _). assert (1 <= archVL) by (destruct P2 as (n & ->); pose proof (Z.pow_pos_nonneg 2 (Z.of_nat n)); lia).
  apply (lower_ok aDims bDims lb rb c vl vr M K N); auto.
Qed.
(** The same, with the order of the additions too (so that it says what a floating-point
    product is), except for a SIMD product by a matrix of one column. *)
Theorem C64_matmul_order {T} (add mul : T -> T -> T) zero archVL enableTiling enableSIMD sameDim aDims bDims lb rb c vl vr M K N (A B : mem T) a b :
  operands aDims bDims lb rb c vl vr M K N A B a b -> (forall x y, add x y = add y x) -> 1 <= archVL ->
  (enableTiling = true -> noStaticZero (aDims ++ bDims)) -> (enableTiling = false \/ enableSIMD = false \/ N <> 1 \/ vr = true) ->
  exists out, lowerMatmul add mul zero archVL enableTiling enableSIMD sameDim aDims bDims A B = Some out /\
    mShape out = c ++ opt_axis vl M ++ opt_axis vr N /\
    forall bt i j, valid c bt -> valid (opt_axis vl M) i -> valid (opt_axis vr N) j ->
      mAt out (bt ++ i ++ j) = Some (matmulElement add mul zero lb rb K a b bt i j).
Proof.
  intros [] AC VL NZ EX. destruct sizes0 as (HM & HK & HN).
  apply (lower_ok aDims bDims lb rb c vl vr M K N); auto. intros -> -> -> ->. exfalso. destruct EX as [|[|[|]]]; try discriminate; auto.
Qed.

(** A matrix given by a function. *)
Definition full {T} (s : list Z) (f : list Z -> T) : mem T := Mem s (fun i => Some (f i)).
Definition code (i : list Z) : Z := fold_left (fun x y => 10 * x + y + 1) i 0.

(** Known dimensions [1;3;4] and [5;4;2]: numpy stretches the batch dimension, the loops read
    A out of bounds. *)
Theorem C64_batch_of_one_refuted : exists aDims bDims (A B : mem Z),
  map dval aDims = [1; 3; 4] /\ map dval bDims = [5; 4; 2] /\ is_broadcast [1] [5] [5] /\ mShape A = [1; 3; 4] /\ mShape B = [5; 4; 2] /\
  (forall i, mAt A i <> None) /\ (forall i, mAt B i <> None) /\
  forall enableTiling enableSIMD, lowerMatmul Z.add Z.mul 0 4 enableTiling enableSIMD (fun _ => false) aDims bDims A B = None.
Proof.
  exists [Dim true 1; Dim true 3; Dim true 4], [Dim true 5; Dim true 4; Dim true 2], (full [1; 3; 4] code), (full [5; 4; 2] code).
  repeat (split; [try reflexivity; try discriminate|]); try discriminate.
  - intros [|[|i]] H; cbn in H; [right; left; split; reflexivity|lia|lia].
  - intros [] []; vm_compute; reflexivity.
Qed.
(** The same with batch dimensions known at run time only: one batch instead of five. *)
Theorem C64_dynamic_batch_refuted : exists aDims bDims (A B : mem Z),
  map dval aDims = [1; 3; 4] /\ map dval bDims = [5; 4; 2] /\ mShape A = [1; 3; 4] /\ mShape B = [5; 4; 2] /\
  (forall i, mAt A i <> None) /\ (forall i, mAt B i <> None) /\
  forall enableTiling enableSIMD, exists out, lowerMatmul Z.add Z.mul 0 4 enableTiling enableSIMD (fun _ => false) aDims bDims A B = Some out /\ mShape out = [1; 3; 2].
Proof.
  exists [Dim false 1; Dim true 3; Dim true 4], [Dim false 5; Dim true 4; Dim true 2], (full [1; 3; 4] code), (full [5; 4; 2] code).
  repeat (split; [try reflexivity; try discriminate|]); try discriminate.
  intros [] []; eexists; (split; [vm_compute; reflexivity|reflexivity]).
Qed.
(** A dimension known to be zero: the tiles have size zero. *)
Theorem C64_static_zero_refuted : exists aDims bDims (A B : mem Z),
  operands aDims bDims [] [] [] false false 0 4 2 A B code code /\
  forall enableSIMD sameDim, lowerMatmul Z.add Z.mul 0 4 true enableSIMD sameDim aDims bDims A B = None.
Proof.
  exists [Dim true 0; Dim true 4], [Dim true 4; Dim true 2], (full [0; 4] code), (full [4; 2] code). split.
  - constructor; try reflexivity; try discriminate; try (exists []; reflexivity). lia.
  - intros [] sd; reflexivity.
Qed.
(** A SIMD product by one column adds in another order: with an addition that saturates (so
    commutative but not associative) the result differs. *)
Definition sat (x y : Z) : Z := Z.max (-10) (Z.min 10 (x + y)).
Theorem C64_vector_order_refuted : exists aDims bDims (A B : mem Z) a b out v,
  operands aDims bDims [] [] [] false false 4 8 1 A B a b /\ (forall x y, sat x y = sat y x) /\ noStaticZero (aDims ++ bDims) /\
  lowerMatmul sat Z.mul 0 4 true true (fun _ => false) aDims bDims A B = Some out /\ mAt out [0; 0] = Some v /\ v <> matmulElement sat Z.mul 0 [] [] 8 a b [] [0] [0].
Proof.
  pose (a := fun i : list Z => nth (Z.to_nat (nth 1 i 0)) [10; 5; 0; 0; -10; 0; 0; 0] 0).
  exists [Dim true 4; Dim true 8], [Dim true 8; Dim true 1], (full [4; 8] a), (full [8; 1] (fun _ => 1)), a, (fun _ => 1).
  eexists. eexists. split; [constructor; try reflexivity; try discriminate; try (exists []; reflexivity); lia|].
  split; [intros; unfold sat; f_equal; lia|]. split; [intros d Hd _; cbn [In app] in Hd; repeat (destruct Hd as [<-|Hd]; [cbn; lia|]); destruct Hd|].
  split; [vm_compute; reflexivity|]. split; [vm_compute; reflexivity|]. vm_compute. discriminate.
Qed.

(** The hypotheses can be met: a stack of products, a product with a shared right matrix, and
    vectors. *)
Example C64_nonvacuous_batched : operands [Dim false 2; Dim true 3; Dim false 5] [Dim true 5; Dim true 8] [2] [] [2] false false 3 5 8 (full [2; 3; 5] code) (full [5; 8] code) code code /\
  noStaticZero ([Dim false 2; Dim true 3; Dim false 5] ++ [Dim true 5; Dim true 8]) /\ monoid Z.add 0 /\ 4 = 2 ^ Z.of_nat 2.
Proof.
  split; [constructor; try reflexivity; try discriminate; try lia; [exists []|exists [2]]; reflexivity|].
  split; [intros d Hd _; cbn [In app] in Hd; repeat (destruct Hd as [<-|Hd]; [cbn; lia|]); destruct Hd|]. split; [|reflexivity]. repeat split; intros; lia.
Qed.
Example C64_nonvacuous_vectors : operands [Dim false 5] [Dim true 2; Dim false 5; Dim true 3] [] [2] [2] true false 1 5 3 (full [5] code) (full [2; 5; 3] code) code code.
Proof. constructor; try reflexivity; try discriminate; try lia; [exists [2]|exists []]; reflexivity. Qed.
Example C64_example : exists out, lowerMatmul Z.add Z.mul 0 4 true true (fun _ => true) [Dim false 2; Dim true 3; Dim false 5] [Dim true 5; Dim true 8] (full [2; 3; 5] code) (full [5; 8] code) = Some out /\
  mAt out [1; 2; 7] = Some (231 * 18 + 232 * 28 + 233 * 38 + 234 * 48 + 235 * 58).
Proof. eexists. split; vm_compute; reflexivity. Qed.
Print Assumptions C64_matmul.
Print Assumptions C64_matmul_order.
