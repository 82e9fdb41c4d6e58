(** Theorems C65: the loops generated for Gemm. *)
From Coq Require Import List ZArith Lia Bool Arith.
From Verif Require Import Util TensorSpec TensorLemmas ElementsSpec LoopModel LoopProofs KrnlMatmulModel GemmLowerModel GemmLowerProofs.
Import ListNotations.
Open Scope Z_scope.

(** Element [i, j] of alpha * A' * B' + beta * C, A' and B' being A and B or their
    transposes; the products are added in increasing order of the contracted index. *)
Definition gemmElement {T} (add mul : T -> T -> T) (zero : T) (tA tB : bool) (alpha beta : T) (K : Z) (a b : list Z -> T) (c : option (list Z * (list Z -> T))) (i j : Z) : T :=
  let rowA := map (fun k => a (if tA then [k; i] else [i; k])) (zrange K) in
  let colB := map (fun k => b (if tB then [j; k] else [k; j])) (zrange K) in
  let s := fold_left add (map2 mul rowA colB) zero in
  match c with None => mul alpha s | Some (cs, cv) => add (mul alpha s) (mul beta (cv (bsel cs [i; j]))) end.

(** The operands: A is I x K (K x I if transposed), B is K x J (J x K if transposed), the
    bias, if any, has a shape that broadcasts to I x J. *)
Record gemmOperands {T} (op : gemmOp (T := T)) (A B : mem T) (a b : list Z -> T) (c : option (list Z * (list Z -> T))) (I J K : Z) : Prop := {
  sizes : 0 <= I /\ 0 <= J /\ 0 <= K;
  typeA : [dval (fst (aType op)); dval (snd (aType op))] = mShape A;
  typeB : [dval (fst (bType op)); dval (snd (bType op))] = mShape B;
  shapeA : mShape A = if transA op then [K; I] else [I; K];
  shapeB : mShape B = if transB op then [J; K] else [K; J];
  dataA : forall x, valid (mShape A) x -> mAt A x = Some (a x);
  dataB : forall x, valid (mShape B) x -> mAt B x = Some (b x);
  dataC : match bias op, c with
          | None, None => True
          | Some C, Some (cs, cv) => mShape C = cs /\ is_broadcast cs [I; J] [I; J] /\ forall x, valid cs x -> mAt C x = Some (cv x)
          | _, _ => False
          end }.
(** What the comparisons of alpha and beta with 1 and 0 mean for the multiplication: in
    particular, a bias element times zero can be left out (true of integers and of finite
    floating-point numbers only). *)
Record coefficients {T} (add mul : T -> T -> T) (op : gemmOp (T := T)) (c : option (list Z * (list Z -> T))) : Prop := {
  alphaOne : alphaIsOne op = true -> forall x, mul (alpha op) x = x;
  betaOne : betaIsOne op = true -> forall x, mul (beta op) x = x;
  betaZero : betaIsZero op = true -> forall cs cv x y, c = Some (cs, cv) -> valid cs y -> add x (mul (beta op) (cv y)) = x }.

(** C65: whatever the options, the transposes, the sizes and what is known of them at compile
    time, the generated loops stay in bounds, read no uninitialised buffer cell and compute
    the specified matrix. *)
Theorem C65_gemm {T} (add mul : T -> T -> T) zero archVL enableTiling enableSIMD op (A B : mem T) a b c I J K :
  gemmOperands op A B a b c I J K -> (forall x y, add x y = add y x) -> (enableTiling = true -> coefficients add mul op c) ->
  exists out, lowerGemm add mul zero archVL enableTiling enableSIMD op A B = Some out /\ mShape out = [I; J] /\
    forall i j, 0 <= i < I -> 0 <= j < J -> mAt out [i; j] = Some (gemmElement add mul zero (transA op) (transB op) (alpha op) (beta op) K a b c i j).
Proof.
  intros [(HI & HJ & HK) TA TB SA SB DA DB DC] AC CO. set (cs := match c with Some (cs, _) => cs | None => [] end). set (cv := match c with Some (_, cv) => cv | None => fun _ => zero end).
  assert (HBias : forall C, bias op = Some C -> mShape C = cs /\ is_broadcast cs [I; J] [I; J] /\ forall x, valid cs x -> mAt C x = Some (cv x)).
  { intros C E. rewrite E in DC. unfold cs, cv. destruct c as [(cs' & cv')|]; [exact DC|destruct DC]. }
  assert (EV : forall i j, gemmValue add mul zero op a b K cs cv i j = gemmElement add mul zero (transA op) (transB op) (alpha op) (beta op) K a b c i j).
  { intros i j. unfold gemmValue, gemmElement, opA, opB, cs, cv. destruct (bias op), c as [(cs' & cv')|]; try contradiction; reflexivity. }
  destruct enableTiling.
  - specialize (CO eq_refl) as [A1 B1 B0]. destruct (lowerGemm_ok add mul zero AC op A B a b I J K cs cv) with (archVL := archVL) (enableTiling := true) (enableSIMD := enableSIMD) as (out & E & S1 & R); auto; try congruence.
    + intros _ Z0 HH x y V. unfold hasBias in HH. destruct (bias op) as [C|]; [|discriminate]. unfold cs, cv in *. destruct c as [(cs' & cv')|]; [|destruct DC]. apply (B0 Z0 cs' cv' x y eq_refl V).
    + exists out. split; auto. split; auto. intros i j Hi Hj. rewrite <- EV. auto.
  - unfold lowerGemm. destruct (gemmDims_ok op A B I J K ltac:(congruence) ltac:(congruence) SA SB) as (dI & dJ & dK & ED & EI & EJ & EK). rewrite ED. cbn [obind].
    destruct (generic_gemm add mul zero AC op A B a b I J K cs cv) with (dI := dI) (dJ := dJ) (dK := dK) as (out & E & S1 & R); auto; try congruence.
    exists out. split; auto. split; auto. intros i j Hi Hj. rewrite <- EV. auto.
Qed.

(** beta = 0 and alpha = 1: the tiled code ignores the bias even if it holds a NaN; the code
    without tiling yields NaN as specified. Integers with a NaN: *)
Definition nadd (x y : option Z) : option Z := match x, y with Some x, Some y => Some (x + y) | _, _ => None end.
Definition nmul (x y : option Z) : option Z := match x, y with Some x, Some y => Some (x * y) | _, _ => None end.
Definition all {T} (s : list Z) (v : T) : mem T := Mem s (fun _ => Some v).
Definition one_by_one (bias : option (option Z)) : gemmOp (T := option Z) :=
  GemmOp false false (Some 1) (Some 0) true false true (Dim true 1, Dim true 1) (Dim true 1, Dim true 1) (match bias with Some v => Some (all [1] v) | None => None end).
Theorem C65_zero_beta_refuted : exists (op : gemmOp (T := option Z)) A B a b c out1 out2,
  gemmOperands op A B a b c 1 1 1 /\ (forall x y, nadd x y = nadd y x) /\
  (forall x, nmul (alpha op) x = x) /\ beta op = Some 0 /\
  lowerGemm nadd nmul (Some 0) 4 true true op A B = Some out1 /\ lowerGemm nadd nmul (Some 0) 4 false true op A B = Some out2 /\
  mAt out1 [0; 0] = Some (Some 6) /\ mAt out2 [0; 0] = Some None /\
  gemmElement nadd nmul (Some 0) false false (alpha op) (beta op) 1 a b c 0 0 = None.
Proof.
  exists (one_by_one (Some None)), (all [1; 1] (Some 2)), (all [1; 1] (Some 3)), (fun _ => Some 2), (fun _ => Some 3), (Some ([1], fun _ => None)).
  eexists. eexists. split.
  - constructor; try reflexivity; try lia. cbn [one_by_one bias]. split; [reflexivity|]. split; [|reflexivity]. split; [reflexivity|].
    intros [|[|i]] H; cbn in H; try lia; cbn; auto.
  - split; [intros [x|] [y|]; cbn; auto; f_equal; lia|]. split; [intros [x|]; [|reflexivity]; change (Some (1 * x) = Some x); f_equal; lia|]. split; [reflexivity|].
    split; [vm_compute; reflexivity|]. split; [vm_compute; reflexivity|]. repeat split; vm_compute; reflexivity.
Qed.

(** The hypotheses can be met: integer matrices, B transposed, a row as bias, a run-time
    number of columns. *)
Definition value (x : list Z) : Z := fold_left (fun n d => 10 * n + d + 1) x 0.
Definition some_gemm : gemmOp (T := Z) :=
  GemmOp false true 1 2 true false false (Dim true 5, Dim false 3) (Dim false 20, Dim true 3) (Some (Mem [20] (fun x => Some (value x)))).
Example C65_nonvacuous : gemmOperands some_gemm (Mem [5; 3] (fun x => Some (value x))) (Mem [20; 3] (fun x => Some (value x))) value value (Some ([20], value)) 5 20 3 /\
  (forall x y, Z.add x y = Z.add y x) /\ coefficients Z.add Z.mul some_gemm (Some ([20], value)).
Proof.
  split; [|split].
  - constructor; try reflexivity; try lia. cbn [some_gemm bias]. split; [reflexivity|]. split; [|reflexivity]. split; [reflexivity|].
    intros [|[|i]] H; cbn in H; try lia; cbn; auto. 
  - intros; lia.
  - constructor; cbn [some_gemm alpha beta alphaIsOne betaIsOne betaIsZero]; try discriminate. intros _ x. lia.
Qed.
Example C65_example : exists out, lowerGemm Z.add Z.mul 0 8 true true some_gemm (Mem [5; 3] (fun x => Some (value x))) (Mem [20; 3] (fun x => Some (value x))) = Some out /\
  mAt out [4; 17] = Some (51 * 181 + 52 * 182 + 53 * 183 + 2 * 18).
Proof. eexists. split; vm_compute; reflexivity. Qed.
Print Assumptions C65_gemm.
