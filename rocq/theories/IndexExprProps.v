(** C27 (symbolic dimension arithmetic) and C28 (literal divisions). *)
From Coq Require Import List ZArith Lia Bool Arith.
From Verif Require Import Util FloatDivModel FloatDivProofs IndexExprModel IndexExprSpec IndexExprProofs IndexExprPlain.
Import ListNotations.
Open Scope Z_scope.

(** What is assumed of simplifyAffineExpr: a constant result is the value of the
    expression wherever it is defined. *)
Definition simplifier_ok (simp : aexp -> option Z) : Prop :=
  forall a c ds ss z, simp a = Some c -> aeval ds ss a = Some z -> z = c.
(** Non-vacuity: folding expressions without dims and symbols is one. *)
Definition cfold (a : aexp) : option Z := aeval [] [] a.
Example cfold_ok : simplifier_ok cfold.
Proof.
  intros a c ds ss z H E. unfold cfold in H. apply (aeval_app a [] [] ds ss c) in H. cbn [app] in H. congruence.
Qed.

Definition scope0 (shapeInference : bool) : scope := mkScope [] [] shapeInference.

Lemma dims_class cs : dims_not_symbols cs -> exists isdim, Forall (cmd_ok isdim) cs.
Proof.
  intros H. exists (fun n => existsb (fun c => match c with CDim m => (m =? n)%nat | _ => false end) cs).
  apply Forall_forall. intros c Hc. destruct c; cbn [cmd_ok]; auto.
  - apply existsb_exists. exists (CDim n). split; auto. apply Nat.eqb_refl.
  - apply not_true_is_false. intros E. apply existsb_exists in E as (c & H1 & H2). destruct c; try discriminate.
    apply Nat.eqb_eq in H2. subst. eapply H; eauto.
Qed.

(** In the lowering pass, every register of a safe program reads as the integer it
    denotes: its literal (if any) and the value emitted for it. *)
Theorem C27_lowering_sound : forall simp ndebug env cs ps ws,
  simplifier_ok simp ->
  sorts [] cs = Some ps -> sems env [] cs = Some ws -> dims_not_symbols cs ->
  safe_run simp ndebug env (scope0 false) [] [] cs ->
  exists sc rs, runCmds simp ndebug [] cs (scope0 false) = Some (sc, rs) /\ length rs = length ws /\
    forall i e z, nth_error rs i = Some e -> nth_error ws i = Some z -> reads env e z.
Proof.
  intros simp ndebug env cs ps ws SO T Sm DS SF. destruct (dims_class cs DS) as [isdim CO].
  destruct (run_ok simp SO ndebug env isdim cs (scope0 false) [] [] [] ps ws) as (t & rs & E & _ & _ & (L1 & L2 & R)); auto.
  - split; [reflexivity|]. split; intros n [].
  - split; [reflexivity|]. split; [reflexivity|]. intros i p e z H. destruct i; discriminate.
  - exists t, rs. split; auto. split; [congruence|]. intros i e z He Hz.
    assert (exists p, nth_error ps i = Some p) as [p Hp].
    { destruct (nth_error ps i) eqn:Ep; eauto. apply nth_error_None in Ep. assert (i < length rs)%nat by (apply nth_error_Some; congruence). lia. }
    pose proof (R i p e z Hp He Hz) as D. constructor; [apply (d_lit _ _ _ _ _ _ D)|].
    destruct (d_val _ _ _ _ _ _ D) as (v & Ev & V & _). eauto.
Qed.

(** Without min/max no condition on the compiler's internal state is needed. *)
Theorem C27_lowering_sound_plain : forall simp ndebug env cs ps ws,
  simplifier_ok simp ->
  sorts [] cs = Some ps -> sems env [] cs = Some ws -> dims_not_symbols cs -> plain_run env [] cs ->
  exists sc rs, runCmds simp ndebug [] cs (scope0 false) = Some (sc, rs) /\ length rs = length ws /\
    forall i e z, nth_error rs i = Some e -> nth_error ws i = Some z -> reads env e z.
Proof.
  intros simp ndebug env cs ps ws SO T Sm DS PL. eapply C27_lowering_sound; eauto.
  destruct (dims_class cs DS) as [isdim CO].
  eapply (plain_run_safe simp ndebug SO env isdim); eauto.
  - split; [reflexivity|]. split; intros n [].
  - split; [reflexivity|]. split; [reflexivity|]. intros i p e z H. destruct i; discriminate.
Qed.

(** In shape inference, whatever is folded to a literal is right for every run-time
    value of the dimensions. *)
Theorem C27_shape_inference_sound : forall simp ndebug env cs ps ws,
  sorts [] cs = Some ps -> sems env [] cs = Some ws -> exact_divs env [] cs ->
  exists rs, runCmds simp ndebug [] cs (scope0 true) = Some (scope0 true, rs) /\ length rs = length ws /\
    forall i e z, nth_error rs i = Some e -> nth_error ws i = Some z -> literal e = true -> intLit e = z.
Proof.
  intros simp ndebug env cs ps ws T Sm ED.
  destruct (si_run simp ndebug env (scope0 true) eq_refl cs [] [] [] ps ws) as (rs & E & (L1 & L2 & R)); auto.
  - split; [reflexivity|]. split; [reflexivity|]. intros i p e z H. destruct i; discriminate.
  - exists rs. split; auto. split; [congruence|]. intros i e z He Hz Le.
    assert (exists p, nth_error ps i = Some p) as [p Hp].
    { destruct (nth_error ps i) eqn:Ep; eauto. apply nth_error_None in Ep. assert (i < length rs)%nat by (apply nth_error_Some; congruence). lia. }
    apply (s_lit _ _ _ (R i p e z Hp He Hz) Le).
Qed.

(** *** Uses that go wrong, each with the exclusion it explains *)
Definition result (simp : aexp -> option Z) ndebug cs : option IE :=
  match runCmds simp ndebug [] cs (scope0 false) with Some (_, rs) => nth_error rs (length rs - 1) | None => None end.
Definition emitted env (e : option IE) : option Z :=
  match e with Some e => match val e with Some v => veval env v | None => None end | None => None end.

(** [a - min(x, y)] is rewritten to [min(a - x, a - y)]: 10 - min(3, 5) becomes 5. *)
Theorem C27_sub_of_min_refuted : exists cs env ws,
  sems env [] cs = Some ws /\ last ws 0 = 7 /\ emitted env (result cfold false cs) = Some 5.
Proof.
  exists [CDim 0; CDim 1; CMinMax true [0; 1]%nat; CLit 10; CSub 3 2], (fun n => if (n =? 0)%nat then 3 else 5).
  eexists. split; [vm_compute; reflexivity|]. split; reflexivity.
Qed.
(** With NDEBUG the same shapes of expression, added, abort: the terms are
    collected inside an assert. *)
Theorem C27_release_propagation_refuted : exists cs env ws,
  sems env [] cs = Some ws /\ emitted env (result cfold false cs) = Some (last ws 0) /\ result cfold true cs = None.
Proof.
  exists [CDim 0; CDim 1; CMinMax true [0; 1]%nat; CLit 10; CAdd 3 2], (fun n => if (n =? 0)%nat then 3 else 5).
  eexists. split; [vm_compute; reflexivity|]. split; reflexivity.
Qed.
(** min of the literals 5 and 3: the literal is 3, the value is the constant 5. *)
Theorem C27_literal_min_value_refuted : exists cs e,
  (forall env, sems env [] cs = Some [5; 3; 3]) /\ result cfold false cs = Some e /\
  literal e = true /\ intLit e = 3 /\ forall env, emitted env (Some e) = Some 5.
Proof.
  exists [CLit 5; CLit 3; CMinMax true [0; 1]%nat]. eexists. split; [intros; reflexivity|].
  split; [vm_compute; reflexivity|]. split; [reflexivity|]. split; [reflexivity|]. reflexivity.
Qed.
(** An arith.constant of another type than index is read as the literal 0. *)
Theorem C27_i64_constant_refuted : exists sc e,
  initAsKind (VInt 7) KNonAffine (scope0 false) = Some (sc, e) /\ literal e = true /\ intLit e = 0.
Proof. eexists _, _. split; [reflexivity|]. split; reflexivity. Qed.
(** -3 mod 2 is 1 as a literal but -1 as run-time code. *)
Theorem C27_mod_of_negative_refuted :
  emitted (fun _ => 2) (result cfold false [CLit (-3); CDim 0; CMod 0 1]) = Some (-1) /\
  emitted (fun _ => 2) (result cfold false [CLit (-3); CLit 2; CMod 0 1]) = Some 1.
Proof. split; reflexivity. Qed.
(** clamp(0, 5, 3) is 5 when folded but 3 at run time. *)
Theorem C27_clamp_inverted_refuted :
  emitted (fun _ => 0) (result cfold false [CLit 0; CLit 5; CLit 3; CClamp 0 1 2]) = Some 5 /\
  emitted (fun _ => 0) (result cfold false [CDim 0; CLit 5; CLit 3; CClamp 0 1 2]) = Some 3.
Proof. split; reflexivity. Qed.

(** Non-vacuity: a program with min, division and select satisfies every
    hypothesis (d0 = 7, d1 = 3): min((d0 + 1) floordiv 2, d1) * 4, selected when d1 < d0. *)
Definition demo : list cmd :=
  [CDim 0; CDim 1; CLit 1; CAdd 0 2; CLit 2; CFloor 3 4; CMinMax true [5; 1]%nat; CLit 4; CMul 6 7; CCmp Slt 1 0; CSelect 9 8 0].
Example demo_sorts : exists ps, sorts [] demo = Some ps. Proof. eexists. reflexivity. Qed.
Example demo_sems : sems (fun n => if (n =? 0)%nat then 7 else 3) [] demo = Some [7; 3; 1; 8; 2; 4; 3; 4; 12; 1; 12].
Proof. reflexivity. Qed.
Example demo_dims : dims_not_symbols demo.
Proof. intros n _ H. cbn in H. repeat (destruct H as [H|H]; [discriminate|]). contradiction. Qed.
Lemma safe_step simp nd env sc zs rs c r : safe simp nd sc zs rs c ->
  (forall sc' e z, exec simp nd rs c sc = Some (sc', e) -> sem env zs c = Some z -> safe_run simp nd env sc' (zs ++ [z]) (rs ++ [e]) r) ->
  safe_run simp nd env sc zs rs (c :: r).
Proof. intros A B. split; auto. Qed.
Example demo_safe : safe_run cfold true (fun n => if (n =? 0)%nat then 7 else 3) (scope0 false) [] [] demo.
Proof.
  unfold demo.
  repeat match goal with
  | |- safe_run _ _ _ _ _ _ [] => exact I
  | |- safe_run _ _ _ _ _ _ (_ :: _) =>
      apply safe_step; [|intros ? ? ? HE HS; vm_compute in HE; injection HE as <- <-; vm_compute in HS; injection HS as <-]
  end; cbn [safe]; auto.
  - intros a b Ha Hb. injection Ha as <-. injection Hb as <-. left. split; reflexivity.
  - intros a b Ha Hb. injection Ha as <-. discriminate.
  - intros es E. vm_compute in E. injection E as <-. left. eexists. split; [now left|reflexivity].
Qed.
Example demo_result : emitted (fun n => if (n =? 0)%nat then 7 else 3) (result cfold true demo) = Some 12.
Proof. reflexivity. Qed.
Example demo_plain : plain_run (fun _ => 9) [] [CDim 0; CLit 4; CCeil 0 1; CMod 0 1; CSub 2 3].
Proof.
  cbn [plain_run plain]. split; auto. intros z H. injection H as <-. split; auto. intros z H. injection H as <-.
  split. { intros x y Hx Hy. injection Hx as <-. injection Hy as <-. lia. }
  intros z H. split. { intros x Hx. injection Hx as <-. lia. }
  intros z' H'. auto.
Qed.

(** ** C28 *)
(** The divisions done in double precision are exact below 2^53. *)
Theorem C28_floorDiv_exact : forall a b, Z.abs a < 2 ^ 53 -> Z.abs b <= 2 ^ 53 -> b <> 0 -> lit_floorDiv a b = Some (a / b).
Proof. exact lit_floorDiv_correct. Qed.
Theorem C28_ceilDiv_exact : forall a b, Z.abs a < 2 ^ 53 -> Z.abs b <= 2 ^ 53 -> b <> 0 ->
  exists q, lit_ceilDiv a b = Some q /\ q = - ((- a) / b).
Proof. intros. eexists. split; [now apply lit_ceilDiv_correct|reflexivity]. Qed.
(** They are not exact for all 64-bit operands. *)
Theorem C28_large_refuted : exists a b, - 2 ^ 63 <= a < 2 ^ 63 /\ - 2 ^ 63 <= b < 2 ^ 63 /\ b <> 0 /\
  lit_floorDiv a b <> Some (a / b) /\ lit_ceilDiv a b <> Some (- ((- a) / b)).
Proof.
  exists (2 ^ 54 + 2), 2. split; [lia|]. split; [lia|]. split; [lia|]. split; vm_compute; discriminate.
Qed.
Example C28_ex1 : lit_floorDiv (-7) 2 = Some (-4) /\ lit_ceilDiv (-7) 2 = Some (-3) /\ lit_ceilDiv 7 (-2) = Some (-3).
Proof. repeat split; vm_compute; reflexivity. Qed.

Print Assumptions C27_lowering_sound.
Print Assumptions C27_lowering_sound_plain.
Print Assumptions C27_shape_inference_sound.
Print Assumptions C27_sub_of_min_refuted.
Print Assumptions C28_floorDiv_exact.
Print Assumptions C28_ceilDiv_exact.
Print Assumptions C28_large_refuted.
