(** C85: rewriting elementwise binary operations keeps their results. *)
From Coq Require Import List ZArith Bool Lia.
From Verif Require Import Util TensorSpec TensorLemmas ShapeOpsModel ShapeOpsSpec BroadcastSpec ReshapeRewriteSpec ConcatRewriteSpec ShapeRewriteModel PowRnnProofs BinaryRewriteSpec BinaryRewriteModel BinaryRewriteProofs.
Import ListNotations.
Open Scope Z_scope.

(** Legacy broadcasting from an axis that is not negative becomes NumPy broadcasting. *)
Theorem C85_axis {A B C} (f : A -> B -> C) axis x y z : isLegacyBinary f axis x y z ->
  exists y', broadcastAxis (Z.of_nat (length (tShape x))) y (Z.of_nat axis) = Rewritten y' /\ isBinary f x y' z.
Proof.
  intros (L & E & S & V). set (n := (length (tShape x) - axis - length (tShape y))%nat).
  assert (U : isBinary f x (unsqueezeEnd n y) z).
  { split; [rewrite S; apply legacy_broadcast; auto|]. intros idx H. rewrite (V idx H). rewrite S in H. rewrite (bindex_self _ _ H). cbn [unsqueezeEnd tShape tAt]. unfold n. rewrite legacy_index by auto. reflexivity. }
  unfold broadcastAxis. destruct (Z.ltb_spec (Z.of_nat (length (tShape x))) (Z.of_nat axis)); [lia|]. destruct (Z.ltb_spec (Z.of_nat (length (tShape x)) - Z.of_nat axis) (Z.of_nat (length (tShape y)))); [lia|].
  destruct (Z.ltb_spec (Z.of_nat (length (tShape y))) (Z.of_nat (length (tShape x)) - Z.of_nat axis)).
  - eexists. split; [reflexivity|]. replace (Z.to_nat (Z.of_nat (length (tShape x)) - Z.of_nat axis - Z.of_nat (length (tShape y)))) with n by lia. exact U.
  - exists y. split; [reflexivity|]. assert (n = 0%nat) by lia. rewrite H2 in U. destruct U as [U1 U2]. cbn [unsqueezeEnd tShape tAt repeat] in *. rewrite app_nil_r in *. split; auto. intros idx H'. rewrite (U2 idx H'). do 2 f_equal.
    apply firstn_all2. pose proof (valid_len _ _ (bindex_ok _ _ _ idx (BinaryRewriteProofs.broadcast_sym _ _ _ U1) H')). lia.
Qed.
(** (2, 3, 4) and (3) from axis 1. *)
Example C85_axis_case : exists x y z : tensor Z, isLegacyBinary Z.sub 1 x y z /\ tShape x = [2; 3; 4] /\ tAt z [1; 2; 3] = 121 /\
  exists y', broadcastAxis 3 y 1 = Rewritten y' /\ tShape y' = [3; 1].
Proof.
  exists {| tShape := [2; 3; 4]; tAt := fun i => 100 * nth 0 i 0 + 10 * nth 1 i 0 + nth 2 i 0 |}, {| tShape := [3]; tAt := fun i => nth 0 i 0 |},
    {| tShape := [2; 3; 4]; tAt := fun i => 100 * nth 0 i 0 + 9 * nth 1 i 0 + nth 2 i 0 |}.
  split; [|split; [reflexivity|split; [reflexivity|eexists; split; reflexivity]]]. split; [cbn; lia|]. split; [reflexivity|]. split; [reflexivity|]. intros idx V. cbn [tAt tShape] in *. destruct idx as [|a [|b [|c [|]]]]; apply valid_len in V; try discriminate. cbn [nth firstn skipn length tShape tAt]. ring.
Qed.
(** Axis -1 is accepted: the second operand gets more dims than the first. *)
Theorem C85_negative_axis_refuted : exists (x y y' : tensor Z), broadcastAxis (Z.of_nat (length (tShape x))) y (-1) = Rewritten y' /\
  tShape y = [3] /\ tShape x = [2; 3] /\ forall f (z : tensor Z), isBinary f x y' z -> tShape z <> tShape x.
Proof.
  exists {| tShape := [2; 3]; tAt := fun _ => 0 |}, {| tShape := [3]; tAt := fun _ => 0 |}. eexists. split; [reflexivity|]. split; [reflexivity|]. split; [reflexivity|].
  intros f z [(B & _) _] E. cbn [tShape] in E. rewrite E in B. specialize (B _ (or_intror (or_introl eq_refl))). vm_compute in B. lia.
Qed.

(** The value of an operand. *)
Definition operandIs {A} (o : operand A) (v : tensor A) : Prop :=
  match o with Plain s => v = sValue s | Expand s sh => isExpanded (sValue s) (shValue sh) v end.
(** A binary operation on a scalar constant and an expanded one: the Expand moves to the result. *)
Theorem C85_expand {A C} (f : A -> A -> C) lhs rhs l r sh a b z c z' :
  propagateExpand lhs rhs = Rewritten (l, r, sh) -> operandIs lhs a -> operandIs rhs b -> isBinary f a b z ->
  isBinary f l r c -> isExpanded c sh z' -> same z z'.
Proof.
  intros E Ia Ib Z Cc Z'.
  assert (K : isScalarTensor l = true /\ isScalarTensor r = true /\ ((isExpanded l sh a /\ b = r) \/ (a = l /\ isExpanded r sh b))).
  { unfold propagateExpand in E. destruct lhs as [sl|sl shl], rhs as [sr|sr shr]; cbn [matchValue] in E; try discriminate;
      destruct (sConst sl && isScalarTensor (sValue sl)) eqn:El; try discriminate; try (destruct (sConst sr && isScalarTensor (sValue sr)) eqn:Er; try discriminate);
      apply andb_prop in El as [_ El]; try (apply andb_prop in Er as [_ Er]).
    - destruct (shType shr) as [dims|]; [|discriminate]. assert (Q : Rewritten (sValue sl, sValue sr, shValue shr) = Rewritten (l, r, sh)) by (destruct dims as [|[[| |]|] [|]]; try discriminate; exact E). injection Q as <- <- <-. cbn in Ia, Ib. auto.
    - destruct (shType shl) as [dims|]; [|discriminate]. assert (Q : Rewritten (sValue sl, sValue sr, shValue shl) = Rewritten (l, r, sh)) by (destruct dims as [|[[| |]|] [|]]; try discriminate; exact E). injection Q as <- <- <-. cbn in Ia, Ib. auto. }
  destruct K as (Sl & Sr & K). destruct (scalar_ones l Sl) as [Fl Ll], (scalar_ones r Sr) as [Fr Lr].
  pose proof (scalar_broadcast _ _ _ Fl Ll (proj1 Cc)) as Sc.
  assert (Fc : Forall (eq 1) (tShape c) /\ (length (tShape c) <= 1)%nat) by (rewrite Sc; destruct (_ =? _)%nat; auto). destruct Fc as [Fc Lc].
  pose proof (scalar_broadcast _ _ _ Fc Lc (proj1 Z')) as Sz'.
  set (vl := tAt l (map (fun _ => 0) (tShape l))). set (vr := tAt r (map (fun _ => 0) (tShape r))).
  assert (Vc : forall i, valid (tShape c) i -> tAt c i = f vl vr) by (apply (binary_value f l r c); auto; apply scalar_value; auto).
  assert (Scc : isScalarTensor c = true) by (unfold isScalarTensor; destruct (tShape c) as [|d [|e s]]; auto; [inversion Fc; subst; reflexivity | cbn in Lc; lia]).
  assert (Vz' : forall i, valid (tShape z') i -> tAt z' i = f vl vr).
  { intros i H. rewrite (expand_value c sh z' Scc Z' i H). apply Vc. clear - Fc. induction Fc as [|d s <- F IH]; constructor; auto; lia. }
  assert (M : tShape z = tShape z' /\ (forall i, valid (tShape a) i -> tAt a i = vl) /\ (forall i, valid (tShape b) i -> tAt b i = vr)).
  { destruct K as [[Ea ->] | [-> Eb]].
    - split; [|split; [apply expand_value with (sh := sh); auto | apply scalar_value; auto]].
      pose proof (scalar_broadcast _ _ _ Fl Ll (proj1 Ea)) as Sa. pose proof (scalar_broadcast _ _ _ Fr Lr (BinaryRewriteProofs.broadcast_sym _ _ _ (proj1 Z))) as Sz.
      rewrite Sz, Sz', Sa, Sc. destruct (Nat.eqb_spec (length sh) 0) as [E0 | N0]; [|destruct (Nat.eqb_spec (length sh) 0); [lia | auto]].
      destruct (tShape l) as [|? [|]] eqn:El1, (tShape r) as [|? [|]] eqn:Er1; cbn in *; try lia; auto. inversion Fl; inversion Fr; subst; reflexivity.
    - split; [|split; [apply scalar_value; auto | apply expand_value with (sh := sh); auto]].
      pose proof (scalar_broadcast _ _ _ Fr Lr (proj1 Eb)) as Sb. pose proof (scalar_broadcast _ _ _ Fl Ll (proj1 Z)) as Sz.
      rewrite Sz, Sz', Sb, Sc. destruct (Nat.eqb_spec (length sh) 0) as [E0 | N0]; [auto|]. destruct (Nat.eqb_spec (length sh) 0); [lia | auto]. }
  destruct M as (Ms & Ma & Mb). split; auto. intros idx H. rewrite (binary_value f a b z vl vr Z Ma Mb idx H). symmetry. apply Vz'. rewrite <- Ms. exact H.
Qed.
Definition scalarZ (s : list Z) (v : Z) : tensor Z := {| tShape := s; tAt := fun _ => v |}.
Example C85_expand_case : exists z c z', propagateExpand (Plain {| sConst := true; sValue := scalarZ [1] 7 |}) (Expand {| sConst := true; sValue := scalarZ [] 2 |} {| shValue := [2; 3]; shType := Some [None] |}) =
    Rewritten (scalarZ [1] 7, scalarZ [] 2, [2; 3]) /\ isExpanded (scalarZ [] 2) [2; 3] (scalarZ [2; 3] 2) /\ isBinary Z.sub (scalarZ [1] 7) (scalarZ [2; 3] 2) z /\
    isBinary Z.sub (scalarZ [1] 7) (scalarZ [] 2) c /\ isExpanded c [2; 3] z' /\ z = scalarZ [2; 3] 5.
Proof.
  exists (scalarZ [2; 3] 5), (scalarZ [1] 5), (scalarZ [2; 3] 5). split; [reflexivity|].
  split; [split; [apply broadcast_sym, broadcast_ones; [constructor | cbn; lia] | reflexivity]|]. split; [split; [apply broadcast_sym, broadcast_ones; [repeat constructor | cbn; lia] | reflexivity]|].
  split; [split; [apply broadcast_ones; [constructor | cbn; lia] | reflexivity]|]. split; [|reflexivity]. split; [apply broadcast_sym, broadcast_ones; [repeat constructor | cbn; lia] | reflexivity].
Qed.

(** The value of an operand. *)
Definition reshapeIs {A} (o : reshapeOperand A) (v : tensor A) : Prop :=
  match o with Reshape x target az => isReshaped az x target v | NotReshape x => v = x end.
(** A binary operation on a reshaped tensor and a scalar, the scalar of rank 0 or the others not: the
    result is the Reshape of the new operation. *)
Theorem C85_reshape {A C} (f : A -> A -> C) lhs rhs x s target az v z b :
  propagateReshape lhs rhs = Rewritten (x, s, target, az) -> reshapeIs lhs v -> isBinary f v rhs z ->
  tShape rhs = [] \/ (tShape x <> [] /\ tShape v <> []) -> isBinary f x s b -> isReshaped az b target z.
Proof.
  intros E Iv Z Rk Bb. destruct lhs as [x' t' az'|]; [|discriminate]. cbn in E. destruct (isScalarTensor rhs) eqn:Sr; [|discriminate]. cbn [negb] in E. injection E as -> -> -> ->. destruct Iv as [Sh Vv].
  destruct (scalar_ones s Sr) as [Fr Lr].
  assert (Sz : tShape z = tShape v). { apply (broadcast_ones_unique _ _ _ Fr) ; [|exact (proj1 Z)]. destruct Rk as [-> | [_ N]]; [cbn; lia|]. destruct (tShape v); [congruence | cbn; lia]. }
  assert (Sb : tShape b = tShape x). { apply (broadcast_ones_unique _ _ _ Fr) ; [|exact (proj1 Bb)]. destruct Rk as [-> | [N _]]; [cbn; lia|]. destruct (tShape x); [congruence | cbn; lia]. }
  split; [rewrite Sb, Sz; exact Sh|]. intros i j Hi Hj Er. destruct Z as [Z1 Z2], Bb as [B1 B2]. rewrite (Z2 j Hj), (B2 i Hi). rewrite Sb in *. rewrite Sz in *.
  rewrite (bindex_self _ _ Hj), (bindex_self _ _ Hi), (Vv i j Hi Hj Er).
  rewrite (scalar_value s Sr _ (bindex_ok _ _ _ j (broadcast_sym _ _ _ Z1) Hj)), (scalar_value s Sr _ (bindex_ok _ _ _ i (broadcast_sym _ _ _ B1) Hi)). reflexivity.
Qed.
Example C85_reshape_case : propagateReshape (Reshape (scalarZ [2; 3] 4) [3; -1] false) (scalarZ [1] 1) = Rewritten (scalarZ [2; 3] 4, scalarZ [1] 1, [3; -1], false) /\
  isReshaped false (scalarZ [2; 3] 4) [3; -1] (scalarZ [3; 2] 4) /\ isBinary Z.sub (scalarZ [3; 2] 4) (scalarZ [1] 1) (scalarZ [3; 2] 3) /\ isBinary Z.sub (scalarZ [2; 3] 4) (scalarZ [1] 1) (scalarZ [2; 3] 3) /\
  propagateReshape (Reshape (scalarZ [2; 3] 4) [3; -1] false) (scalarZ [2] 1) = NoMatch.
Proof.
  split; [reflexivity|]. split; [|split; [|split; [|reflexivity]]].
  - split; [|reflexivity]. split; [reflexivity|]. split; [|reflexivity]. intros [|[|[|i]]] v E; cbn in E; try discriminate; injection E as <-; split; intros; auto; lia.
  - split; [apply broadcast_ones; [repeat constructor | cbn; lia] | reflexivity].
  - split; [apply broadcast_ones; [repeat constructor | cbn; lia] | reflexivity].
Qed.
(** A tensor reshaped to rank 0 and a scalar of shape (1): the result loses its dim. *)
Theorem C85_reshape_refuted : exists (lhs : reshapeOperand Z) rhs x s target az v z b,
  propagateReshape lhs rhs = Rewritten (x, s, target, az) /\ reshapeIs lhs v /\ isBinary Z.sub v rhs z /\ isBinary Z.sub x s b /\
  ~ isReshaped az b target z /\ tShape z = [1] /\ forall z', isReshaped az b target z' -> tShape z' = [].
Proof.
  exists (Reshape (scalarZ [1; 1] 4) [] false), (scalarZ [1] 1), (scalarZ [1; 1] 4), (scalarZ [1] 1), [], false, (scalarZ [] 4), (scalarZ [1] 3), (scalarZ [1; 1] 3).
  split; [reflexivity|]. split; [|split; [|split; [|split; [|split; [reflexivity|]]]]].
  - split; [|reflexivity]. split; [reflexivity|]. split; [|reflexivity]. intros [|i] v E; discriminate.
  - split; [apply broadcast_sym, broadcast_ones; [constructor | cbn; lia] | reflexivity].
  - split; [apply broadcast_ones; [repeat constructor | cbn; lia] | reflexivity].
  - intros [(L & _) _]. discriminate.
  - intros z' [(L & _) _]. destruct (tShape z'); [auto | discriminate].
Qed.

Print Assumptions C85_axis.
Print Assumptions C85_negative_axis_refuted.
Print Assumptions C85_expand.
Print Assumptions C85_reshape.
Print Assumptions C85_reshape_refuted.
