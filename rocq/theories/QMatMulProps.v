(** C80: products of quantized matrices. *)
From Coq Require Import List ZArith QArith Qabs Bool Lia Lqa.
From Verif Require Import Util QuantSpec QuantModel QuantProofs QuantProps QMatMulSpec QMatMulModel QMatMulProofs.
Import ListNotations.
Open Scope Z_scope.

(** MatMulInteger computes the product modulo 2^32. *)
Theorem C80_matmul_integer : forall M K N A B (za zb : option (param Z)) i j, 0 <= i < M -> 0 <= j < N ->
  (match za with Some p => fits p M | None => True end) -> (match zb with Some p => fits p N | None => True end) ->
  exists v r, product K A B (match za with Some p => p | None => One 0 end) (match zb with Some p => p | None => One 0 end) i j v /\
    matMulInteger M K N A B za zb i j = Some r /\ - 2 ^ 31 <= r < 2 ^ 31 /\ (2 ^ 32 | r - v).
Proof.
  intros M K N A B za zb i j Hi Hj Fa Fb.
  assert (Ga : exists a, valueAt (match za with Some p => p | None => One 0 end) i a /\
    forall k, 0 <= k < K -> exists q, match za with None => Some (A i k) | Some p => z <- unsqueezed M K i k p ;; Some (wrap32 (A i k - z)) end = Some (A i k - a + q * 2 ^ 32)).
  { destruct za as [p|].
    - destruct (unsqueezed_ok p M K i 0 Hi Fa) as (a & _ & Va). exists a. split; auto. intros k _.
      destruct (unsqueezed_ok p M K i k Hi Fa) as (z & -> & Vz). cbn [obind]. rewrite (valueAt_fun _ _ _ _ Vz Va). destruct (wrap32_eq (A i k - a)) as (q & ->). eauto.
    - exists 0. split; [reflexivity|]. intros k _. exists 0. f_equal. ring. }
  assert (Gb : exists b, valueAt (match zb with Some p => p | None => One 0 end) j b /\
    forall k, 0 <= k < K -> exists q, match zb with None => Some (B k j) | Some p => z <- byColumn N j p ;; Some (wrap32 (B k j - z)) end = Some (B k j - b + q * 2 ^ 32)).
  { destruct zb as [p|].
    - destruct (byColumn_ok p N j Hj Fb) as (b & Eb & Vb). exists b. split; auto. intros k _.
      rewrite Eb. cbn [obind]. destruct (wrap32_eq (B k j - b)) as (q & ->). eauto.
    - exists 0. split; [reflexivity|]. intros k _. exists 0. f_equal. ring. }
  destruct Ga as (a & Va & Ga). destruct Gb as (b & Vb & Gb).
  unfold matMulInteger. cbv zeta. rewrite (dot32_ok K _ _ (fun k => A i k - a) (fun k => B k j - b) Ga Gb).
  eexists. eexists. split; [exists a, b; split; [exact Va|]; split; [exact Vb | reflexivity]|]. split; [reflexivity|]. split; [apply wrap32_range|].
  match goal with |- context [wrap32 ?x] => destruct (wrap32_eq x) as (q & ->) end. exists q. ring.
Qed.

(** It computes the product of matrices of bytes with up to 33025 columns. *)
Theorem C80_matmul_integer_exact : forall M K N ua ub A B za zb i j, 0 <= i < M -> 0 <= j < N -> 0 <= K <= 33025 ->
  (forall k, 0 <= k < K -> byte ua (A i k) /\ byte ub (B k j)) ->
  (forall v, valueAt za i v -> byte ua v) -> (forall v, valueAt zb j v -> byte ub v) -> fits za M -> fits zb N ->
  exists v, product K A B za zb i j v /\ matMulInteger M K N A B (Some za) (Some zb) i j = Some v.
Proof.
  intros M K N ua ub A B za zb i j Hi Hj HK HAB Ha Hb Fa Fb.
  destruct (C80_matmul_integer M K N A B (Some za) (Some zb) i j Hi Hj Fa Fb) as (v & r & P & E & R & (q & D)).
  exists v. split; auto. rewrite E. f_equal. destruct P as (a & b & Va & Vb & Ev).
  assert (H : - 2 ^ 31 <= v < 2 ^ 31). { subst v. apply (bytes_bound K ua ub a b (fun k => A i k) (fun k => B k j)); auto; intros; apply HAB; auto. }
  change (2 ^ 32) with (2 * 2 ^ 31) in D. assert (q = 0) by lia. lia.
Qed.
Theorem C80_matmul_overflow_refuted : ~ (forall M K N A B i j, 0 <= i < M -> 0 <= j < N -> (forall i j, byte true (A i j) /\ byte true (B i j)) ->
  exists v, product K A B (One 0) (One 0) i j v /\ matMulInteger M K N A B None None i j = Some v).
Proof.
  intros H. destruct (H 1 33026 1 (fun _ _ => 255) (fun _ _ => 255) 0 0) as (v & P & E); [lia | lia | intros; cbn; lia|].
  destruct (C80_matmul_integer 1 33026 1 (fun _ _ => 255) (fun _ _ => 255) None None 0 0) as (w & r & P' & E' & R & _); auto; try lia.
  rewrite E in E'. injection E' as <-.
  destruct P as (a & b & Va & Vb & Ev). cbn in Va, Vb. subst a b.
  assert (T : forall n, total n (fun _ => (255 - 0) * (255 - 0)) = Z.of_nat n * 65025) by (clear; induction n as [|n IH]; cbn [total]; [reflexivity | rewrite IH; lia]).
  rewrite T in Ev. change (2 ^ 31) with 2147483648 in R. lia.
Qed.

(** QLinearMatMul: the rounded and shifted product, modulo 256. *)
Theorem C80_qlinear : forall M K N ua ub uy A sa za B sb zb sy zy i j,
  0 <= i < M -> 0 <= j < N -> 0 <= K <= 33025 ->
  (forall k, 0 <= k < K -> byte ua (A i k) /\ byte ub (B k j)) ->
  (forall v, valueAt za i v -> byte ua v) -> (forall v, valueAt zb j v -> byte ub v) -> byte uy zy ->
  fits za M -> fits zb N -> fits sa 1 -> fits sb N -> ~ (sy == 0)%Q ->
  exists v a b n, product K A B za zb i j v /\ valueAt sa i a /\ valueAt sb j b /\ rounded (inject_Z v * a * b / sy) n /\
    (- 2 ^ 31 <= n < 2 ^ 31 -> exists y, qlinearMatMul M K N ua ub uy A sa (Some za) B sb (Some zb) sy (Some zy) i j = Some y /\ byte uy y /\ (256 | y - (n + zy))).
Proof. exact qlinear_ok. Qed.

(** Where the result is inside the range of the type, it is the one of ONNX. *)
Theorem C80_qlinear_in_range : forall M K N ua ub (uy : bool) A sa za B sb zb sy zy i j y,
  let lo := if uy then 0 else -128 in let hi := if uy then 255 else 127 in
  0 <= i < M -> 0 <= j < N -> 0 <= K <= 33025 ->
  (forall k, 0 <= k < K -> byte ua (A i k) /\ byte ub (B k j)) ->
  (forall v, valueAt za i v -> byte ua v) -> (forall v, valueAt zb j v -> byte ub v) -> lo <= zy <= hi ->
  fits za M -> fits zb N -> fits sa 1 -> fits sb N -> ~ (sy == 0)%Q ->
  qproduct lo hi K A B sa za sb zb sy zy i j y -> lo < y < hi ->
  qlinearMatMul M K N ua ub uy A sa (Some za) B sb (Some zb) sy (Some zy) i j = Some y.
Proof.
  intros M K N ua ub uy A sa za B sb zb sy zy i j y lo hi Hi Hj HK HAB Ha Hb Hz Fza Fzb Fsa Fsb Hs (v & a & b & P & Va & Vb & n & Rn & Ey) Hy.
  assert (Bz : byte uy zy) by (subst lo hi; destruct uy; exact Hz).
  destruct (qlinear_ok M K N ua ub uy A sa za B sb zb sy zy i j Hi Hj HK HAB Ha Hb Bz Fza Fzb Fsa Fsb Hs) as (v' & a' & b' & n' & P' & Va' & Vb' & Rn' & G).
  rewrite (product_fun _ _ _ _ _ _ _ _ _ P' P), (valueAt_fun _ _ _ _ Va' Va), (valueAt_fun _ _ _ _ Vb' Vb) in Rn'. rewrite (rounded_unique _ _ _ Rn' Rn) in G.
  assert (En : y = n + zy) by (unfold saturate in Ey; lia).
  destruct G as (y' & -> & By & D).
  { change (2 ^ 31) with 2147483648. subst lo hi. destruct uy; lia. }
  f_equal. eapply byte_unique; [exact By | | rewrite En; exact D]. unfold byte; subst lo hi; destruct uy; lia.
Qed.

(** It does not saturate: 100 * 100 gives 16 instead of 255. *)
Theorem C80_saturate_refuted : exists A B y, qlinearMatMul 1 1 1 true true true A (One 1%Q) (Some (One 0)) B (One 1%Q) (Some (One 0)) 1%Q (Some 0) 0 0 = Some y /\
  qproduct 0 255 1 A B (One 1%Q) (One 0) (One 1%Q) (One 0) 1%Q 0 0 0 255 /\ y = 16.
Proof.
  exists (fun _ _ => 100), (fun _ _ => 100), 16. split; [vm_compute; reflexivity|]. split; [|reflexivity].
  exists 10000, 1%Q, 1%Q. split; [exists 0, 0; repeat split|]. split; [reflexivity|]. split; [reflexivity|]. exists 10000. split; [|reflexivity].
  eapply rounded_comp; [|apply rounded_Z]. reflexivity.
Qed.

(** Scales of the rows of A are applied to the columns (of a square result; otherwise the program
    is not compiled). *)
Theorem C80_row_scale_refuted :
  (exists A B, qlinearMatMul 2 1 2 true true true A (Each [1; 2]%Q) (Some (One 0)) B (One 1%Q) (Some (One 0)) 1%Q (Some 0) 0 1 = Some 2 /\
     qproduct 0 255 1 A B (Each [1; 2]%Q) (One 0) (One 1%Q) (One 0) 1%Q 0 0 1 1) /\
  (forall A B, qlinearMatMul 2 1 3 true true true A (Each [1; 2]%Q) (Some (One 0)) B (One 1%Q) (Some (One 0)) 1%Q (Some 0) 0 1 = None).
Proof.
  split.
  - exists (fun _ _ => 1), (fun _ _ => 1). split; [vm_compute; reflexivity|].
    exists 1, 1%Q, 1%Q. split; [exists 0, 0; repeat split|]. split; [reflexivity|]. split; [reflexivity|]. exists 1. split; [|reflexivity].
    eapply rounded_comp; [|apply rounded_Z]. reflexivity.
  - intros A B. reflexivity.
Qed.

Lemma Forall2_inv_head {A B} (P : A -> B -> Prop) a b l m : Forall2 P (a :: l) (b :: m) -> P a b.
Proof. inversion 1; auto. Qed.

(** The rewriting of quantized float products keeps results inside the range. *)
Theorem C80_recompose : forall M K N ua ub (uy : bool) A sa za B sb zb sy zy i j y,
  let lo := if uy then 0 else -128 in let hi := if uy then 255 else 127 in
  0 <= i < M -> 0 <= j < N -> 0 <= K <= 33025 ->
  (forall k, 0 <= k < K -> byte ua (A i k) /\ byte ub (B k j)) -> byte ua za -> byte ub zb -> lo <= zy <= hi -> ~ (sy == 0)%Q ->
  before K uy A sa (Some za) B sb (Some zb) sy (Some zy) i j = Some y -> lo < y < hi ->
  recomposed M K N ua ub uy A sa (Some za) B sb (Some zb) sy (Some zy) i j = Some y.
Proof.
  intros M K N ua ub uy A sa za B sb zb sy zy i j y lo hi Hi Hj HK HAB Hza Hzb Hzy Hs E Hy.
  unfold recomposed. cbn [option_map]. apply C80_qlinear_in_range; auto; try exact I; try (intros v Hv; cbn in Hv; subst v; auto).
  unfold before in E. cbv zeta in E.
  set (x := sumQ _) in E. destruct (C79_quantize false uy sy (Some zy) [x] Hs) as (ys & Ey & F). rewrite Ey in E. cbn [obind] in E.
  destruct ys as [|y' ys]; [discriminate|]. cbn [hd_error] in E. injection E as E. rewrite E in F.
  assert (Fq := Forall2_inv_head _ _ _ _ _ F). destruct Fq as (n & Rn & Eq).
  set (v := total (Z.to_nat K) (fun k => (A i k - za) * (B k j - zb))).
  exists v, sa, sb. split; [exists za, zb; repeat split|]. split; [reflexivity|]. split; [reflexivity|]. exists n. split; [|exact Eq].
  eapply rounded_comp; [|exact Rn]. subst x.
  rewrite (sumQ_total _ (fun k => (A i k - za) * (B k j - zb)) K (sa * sb)%Q).
  - fold v. field. exact Hs.
  - intros k. unfold dequantizeElement. rewrite inject_Z_mult, !injZ_sub. ring.
Qed.
(** Not where QuantizeLinear saturates, and not without zero points. *)
Theorem C80_recompose_refuted :
  (exists A B, before 1 true A 1%Q (Some 0) B 1%Q (Some 0) 1%Q (Some 0) 0 0 = Some 255 /\
    recomposed 1 1 1 true true true A 1%Q (Some 0) B 1%Q (Some 0) 1%Q (Some 0) 0 0 = Some 16) /\
  (exists A B, before 1 true A 1%Q None B 1%Q None 1%Q None 0 0 = Some 6 /\
    recomposed 1 1 1 true true true A 1%Q None B 1%Q None 1%Q None 0 0 = None).
Proof.
  split; [exists (fun _ _ => 100), (fun _ _ => 100) | exists (fun _ _ => 2), (fun _ _ => 3)]; split; vm_compute; reflexivity.
Qed.

Example C80_ex_matmul : map (fun i => map (fun j => matMulInteger 2 3 2 (fun i k => i * 3 + k) (fun k j => 10 * k + j) (Some (Each [1; 2])) (Some (Each [0; 1])) i j) [0; 1]) [0; 1] =
  [[Some 20; Some 20]; [Some 80; Some 80]].
Proof. vm_compute. reflexivity. Qed.
Example C80_ex_qlinear : map (fun j => qlinearMatMul 2 3 2 true false true (fun i k => i * 3 + k + 128) (One (1 # 2)%Q) (Some (Each [128; 130])) (fun k j => k - 2 * j) (Each [1 # 2; 1 # 4]%Q) (Some (One 1)) (1 # 3)%Q (Some 7) 1 j) [0; 1] =
  [Some 9; Some 3].
Proof. vm_compute. reflexivity. Qed.
Example C80_ex_fits : fits (Each [128; 130]) 2 /\ fits (One (1 # 2)%Q) 1 /\ valueAt (Each [128; 130]) 1 130.
Proof. cbn. auto. Qed.

Print Assumptions C80_matmul_integer.
Print Assumptions C80_matmul_integer_exact.
Print Assumptions C80_matmul_overflow_refuted.
Print Assumptions C80_qlinear.
Print Assumptions C80_qlinear_in_range.
Print Assumptions C80_saturate_refuted.
Print Assumptions C80_row_scale_refuted.
Print Assumptions C80_recompose.
Print Assumptions C80_recompose_refuted.
