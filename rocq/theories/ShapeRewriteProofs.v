(** Lemmas for the rewriting of shape computations. *)
From Coq Require Import List ZArith Bool Lia.
From Verif Require Import Util ShapeOpsModel ShapeOpsSpec ShapeOpsProofs ShapeOpsAxes ShapeOpsProps ReshapeRewriteModel ShapeRewriteSpec ShapeRewriteModel.
Import ListNotations.
Open Scope Z_scope.

Lemma unsqueezeOfExpand_ok data axes : let rank := Z.of_nat (length data) + Z.of_nat (length axes) in
  Forall (fun a => 0 <= a < rank) axes -> NoDup axes -> exists out, unsqueezeOfExpand data axes = Some out /\ unsqueezed data axes out.
Proof.
  intros rank HR HD.
  assert (Id : forall f, (forall a, 0 <= a -> f a = a) -> map f axes = axes).
  { intros f Hf. rewrite <- (map_id axes) at 2. apply map_ext_in. intros a I. rewrite Forall_forall in HR. apply Hf. specialize (HR a I). lia. }
  assert (R : axes_in_range rank axes) by (eapply Forall_impl; [|exact HR]; cbn; intros; lia).
  assert (D : axes_distinct rank axes). { unfold axes_distinct. rewrite Id; auto. intros a Ha. destruct (Z.ltb_spec a 0); [lia | auto]. }
  destruct (C33_unsqueeze 1 data axes R D) as (out & E & L & O & K & _). fold rank in L, O, K. exists out. split; [|split; [exact L | split; [exact O | exact K]]].
  unfold unsqueeze in E. fold rank in E. rewrite normDistinct_some in E; auto. cbn [app] in E.
  rewrite Id in E. 2:{ intros a Ha. unfold nm. destruct (Z.ltb_spec a 0); [lia | auto]. }
  unfold unsqueezeOfExpand. rewrite Id. 2:{ intros a Ha. destruct (Z.ltb_spec a 0); [lia | auto]. } fold rank.
  destruct (unsqueezeLoop 1 data rank axes (S (length data + length axes + length data)) 0 0); [injection E as ->; auto | discriminate].
Qed.

Lemma agrees_zget t s a v : agrees t s -> zget t a = Some (Some v) -> zget s a = Some v.
Proof.
  intros A. unfold zget. destruct (a <? 0); [discriminate|]. revert A. generalize (Z.to_nat a). intros n A. revert n. induction A as [|o d t s Ho A IH]; intros [|n] E; cbn in *; try discriminate; auto.
  injection E as ->. f_equal. symmetry. auto.
Qed.
Lemma existsb_eqb i l : existsb (Z.eqb i) l = true <-> In i l.
Proof. rewrite existsb_exists. split; [intros (x & I & E); apply Z.eqb_eq in E; subst; auto | intros I; exists i; split; auto; apply Z.eqb_refl]. Qed.
Lemma sliceNewDims_ok axes data : forall outT out i, agrees outT out -> 0 <= i ->
  (forall k, 0 <= k < Z.of_nat (length out) -> ~ In (i + k) axes -> zget out k = zget data (i + k)) ->
  (forall k, In (i + k) axes -> zget outT k <> Some None) -> forall l, sliceNewDims axes i outT data = Rewritten l -> l = out.
Proof.
  induction outT as [|o outT IH]; intros out i A Hi Hk Hs l E; inversion A as [|? d ? out' Ho A']; subst; [injection E as <-; auto|]. cbn [sliceNewDims] in E.
  destruct (if existsb (Z.eqb i) axes then Some (dimValue o) else zget data i) as [v|] eqn:Ev; [|discriminate].
  destruct (sliceNewDims axes (i + 1) outT data) as [| |l'] eqn:El; try discriminate. injection E as <-.
  assert (v = d).
  { destruct (existsb (Z.eqb i) axes) eqn:Ex.
    - apply existsb_eqb in Ex. specialize (Hs 0). rewrite Z.add_0_r in Hs. specialize (Hs Ex). cbn in Hs. destruct o as [w|]; [|congruence]. injection Ev as <-. apply Ho. reflexivity.
    - assert (N : ~ In i axes) by (intros I; apply existsb_eqb in I; congruence). specialize (Hk 0). rewrite Z.add_0_r in Hk. cbn [length] in Hk. specialize (Hk ltac:(lia) N). rewrite Ev in Hk. cbn in Hk. congruence. }
  subst v. f_equal. apply (IH out' (i + 1) A'); auto; [lia| |].
  - intros k Kk N. specialize (Hk (k + 1)). replace (i + (k + 1)) with (i + 1 + k) in Hk by lia. rewrite <- Hk; [|cbn [length]; lia|auto]. rewrite !zget_spec by lia. replace (Z.to_nat (k + 1)) with (S (Z.to_nat k)) by lia. reflexivity.
  - intros k I. specialize (Hs (k + 1)). replace (i + (k + 1)) with (i + 1 + k) in Hs by lia. specialize (Hs I). unfold zget in *. destruct (Z.ltb_spec k 0); [discriminate|]. destruct (Z.ltb_spec (k + 1) 0); [lia|].
    replace (Z.to_nat (k + 1)) with (S (Z.to_nat k)) in Hs by lia. exact Hs.
Qed.

Lemma equalResults_ok ks : forall ops i bs, 0 <= i -> (forall v, In (OfDim v) ops -> 0 <= v) -> (forall k, In k ks -> k < 0) -> i + Z.of_nat (length ops) <= Z.of_nat (length ks) ->
  equalResults ops i ks = Rewritten bs -> bs = map (fun p => operandValue (fst p) =? nth (snd p) ks 0) (combine ops (seq (Z.to_nat i) (length ops))).
Proof.
  induction ops as [|o r IH]; intros i bs Hi Hd Hn Hl E; [injection E as <-; reflexivity|]. cbn [equalResults] in E. cbn [length] in Hl.
  assert (Hk : zget ks i = Some (nth (Z.to_nat i) ks 0)) by (rewrite zget_spec by lia; apply nth_error_nth'; lia). rewrite Hk in E.
  assert (Neg : nth (Z.to_nat i) ks 0 < 0) by (apply Hn, nth_In; lia).
  assert (St : forall e, match equalResults r (i + 1) ks with Rewritten l => Rewritten (e :: l) | x => x end = Rewritten bs -> bs = e :: map (fun p => operandValue (fst p) =? nth (snd p) ks 0) (combine r (seq (S (Z.to_nat i)) (length r)))).
  { intros e Ee. destruct (equalResults r (i + 1) ks) as [| |l] eqn:El; try discriminate. injection Ee as <-. f_equal. rewrite (IH (i + 1) l ltac:(lia) (fun v I => Hd v (or_intror I)) Hn ltac:(lia) El). replace (Z.to_nat (i + 1)) with (S (Z.to_nat i)) by lia. reflexivity. }
  cbn [length seq combine map fst snd]. destruct o as [v|v|v]; cbn [operandValue] in *; try discriminate.
  - apply St in E. rewrite E. f_equal. specialize (Hd v (or_introl eq_refl)). symmetry. apply Z.eqb_neq. lia.
  - apply St in E. exact E.
Qed.
Lemma selectValues_ok xs ks : forall ops i l, 0 <= i -> i + Z.of_nat (length ops) <= Z.of_nat (length xs) ->
  selectValues (map (fun p => operandValue (fst p) =? nth (snd p) ks 0) (combine ops (seq (Z.to_nat i) (length ops)))) ops i xs = Rewritten l ->
  l = map (fun p => if operandValue (fst p) =? nth (snd p) ks 0 then nth (snd p) xs 0 else operandValue (fst p)) (combine ops (seq (Z.to_nat i) (length ops))).
Proof.
  induction ops as [|o r IH]; intros i l Hi Hl E; [injection E as <-; reflexivity|]. cbn [length seq combine map fst snd selectValues] in *.
  assert (Hk : zget xs i = Some (nth (Z.to_nat i) xs 0)) by (rewrite zget_spec by lia; apply nth_error_nth'; lia). rewrite Hk in E.
  replace (S (Z.to_nat i)) with (Z.to_nat (i + 1)) in * by lia.
  destruct (operandValue o =? nth (Z.to_nat i) ks 0); destruct (selectValues _ r (i + 1) xs) as [| |l'] eqn:El; try discriminate; injection E as <-; f_equal; apply (IH (i + 1)); auto; lia.
Qed.

Lemma equalResults_defined ks : forall ops i, 0 <= i -> i + Z.of_nat (length ops) <= Z.of_nat (length ks) -> equalResults ops i ks <> Undefined.
Proof.
  induction ops as [|o r IH]; intros i Hi Hl; [discriminate|]. cbn [length equalResults] in *.
  assert (Hk : zget ks i = Some (nth (Z.to_nat i) ks 0)) by (rewrite zget_spec by lia; apply nth_error_nth'; lia). rewrite Hk.
  specialize (IH (i + 1) ltac:(lia) ltac:(lia)). destruct o; try discriminate; destruct (equalResults r (i + 1) ks); try discriminate; congruence.
Qed.
Lemma selectValues_defined xs : forall bs ops i, 0 <= i -> i + Z.of_nat (length ops) <= Z.of_nat (length xs) -> selectValues bs ops i xs <> Undefined.
Proof.
  induction bs as [|e bs IH]; intros ops i Hi Hl; [discriminate|]. destruct ops as [|o r]; [discriminate|]. cbn [length selectValues] in *.
  assert (Hk : zget xs i = Some (nth (Z.to_nat i) xs 0)) by (rewrite zget_spec by lia; apply nth_error_nth'; lia). rewrite Hk.
  specialize (IH r (i + 1) ltac:(lia) ltac:(lia)). destruct e; destruct (selectValues bs r (i + 1) xs); try discriminate; congruence.
Qed.

Lemma scalarsUpTo_ok : forall n inputs v, (forall b l, In (b, l) inputs -> b = true -> length l = 1%nat) -> scalarsUpTo n inputs = Rewritten v ->
  exists e, nth_error (concat (map snd inputs)) n = Some e /\ v = [e].
Proof.
  induction n as [|n IH]; intros [|[b l] r] v H E; cbn [scalarsUpTo] in E; try discriminate; destruct b; try discriminate; cbn [negb] in E.
  - injection E as <-. specialize (H true l (or_introl eq_refl) eq_refl). destruct l as [|e [|]]; try discriminate. exists e. auto.
  - destruct (IH r v (fun b l I => H b l (or_intror I)) E) as (e & He & ->). exists e. split; auto. specialize (H true l (or_introl eq_refl) eq_refl). destruct l as [|x [|]]; try discriminate. exact He.
Qed.
Lemma scalarsUpTo_defined : forall n inputs, (forall b l, In (b, l) inputs -> b = true -> length l = 1%nat) -> (n < length (concat (map snd inputs)))%nat -> scalarsUpTo n inputs <> Undefined.
Proof.
  induction n as [|n IH]; intros [|[b l] r] H L; cbn [scalarsUpTo]; try (cbn in L; lia); destruct b; cbn [negb]; try discriminate.
  apply IH; [intros; eapply H; eauto; right; auto|]. specialize (H true l (or_introl eq_refl) eq_refl). cbn [map snd concat] in L. rewrite app_length, H in L. lia.
Qed.
