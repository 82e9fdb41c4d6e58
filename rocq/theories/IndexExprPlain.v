(** Programs without min/max are safe; soundness of literals in shape inference. *)
From Coq Require Import List ZArith Lia Bool Arith.
From Verif Require Import Util FloatDivModel FloatDivProofs IndexExprModel IndexExprSpec IndexExprProofs.
Import ListNotations.
Open Scope Z_scope.
Open Scope ie_scope.

(** ** No value is an affine.min/max *)
Definition post {A} (m : M A) (P : A -> Prop) : Prop := forall s t r, m s = Some (t, r) -> P r.
Lemma post_bind {A B} (m : M A) (f : A -> M B) Q P : post m Q -> (forall a, Q a -> post (f a) P) -> post (bind m f) P.
Proof. intros H K s t r E. unfold bind in E. destruct (m s) as [[s' a]|] eqn:Em; [|discriminate]. eapply K; eauto. Qed.
Lemma post_ret {A} (a : A) (P : A -> Prop) : P a -> post (ret a) P.
Proof. intros H s t r E. injection E as <- <-. auto. Qed.
Lemma post_fail {A} (P : A -> Prop) : post fail P.
Proof. intros s t r E. discriminate. Qed.
Lemma post_any {A} (m : M A) : post m (fun _ => True).
Proof. intros s t r _. auto. Qed.
Lemma post_lift {A} (o : option A) (P : A -> Prop) : (forall a, o = Some a -> P a) -> post (lift o) P.
Proof. intros H. destruct o; [apply post_ret; auto|apply post_fail]. Qed.

Definition vnm (v : vexp) : Prop := minMaxOf v = None.
Definition nm (e : IE) : Prop := forall v, val e = Some v -> vnm v.
Lemma nm_is e : nm e -> is_minmax e = false.
Proof. unfold nm, is_minmax, vnm. destruct (val e) as [[]|]; auto. intros H. specialize (H _ eq_refl). discriminate. Qed.

Lemma post_getValueOpt e : nm e -> post (getValueOpt e) (fun o => forall v, o = Some v -> vnm v).
Proof.
  intros N. unfold getValueOpt. eapply post_bind; [apply post_any|]. intros [|] _; [apply post_fail|].
  destruct (val e) as [v|] eqn:E. { apply post_ret. intros w H. injection H as <-. apply N; auto. }
  destruct (literal e). { apply post_ret. intros w H. injection H as <-. destruct (isPred e); reflexivity. }
  destruct (aff e). { eapply post_bind; [apply post_any|]. intros sc _. apply post_ret. intros w H. injection H as <-. reflexivity. }
  destruct (isQM e); [|apply post_fail]. apply post_ret. discriminate.
Qed.
Lemma post_getValue e : nm e -> post (getValue e) vnm.
Proof. intros N. unfold getValue. eapply post_bind; [apply post_getValueOpt; auto|]. intros o H. now apply post_lift. Qed.
Lemma post_init l k z a v : (forall w, v = Some w -> vnm w) -> post (init l k z a v) nm.
Proof.
  intros H. unfold init. destruct v as [w|]. { apply post_ret. intros u E. apply H. exact E. }
  eapply post_bind; [apply post_any|]. intros [|] _. { apply post_ret. intros u E. discriminate. }
  eapply post_bind; [apply post_getValueOpt|].
  - intros u E. discriminate.
  - intros o Ho. apply post_ret. intros u E. apply Ho. exact E.
Qed.
Lemma post_copy e : nm e -> post (deepCopy e) nm.
Proof. intros. now apply post_init. Qed.
Lemma post_qm : post questionmark nm. Proof. now apply post_init. Qed.
Lemma post_literal z k : post (initAsLiteral z k) nm. Proof. now apply post_init. Qed.
Lemma post_asKind v k : vnm v -> post (initAsKind v k) nm.
Proof.
  intros H. unfold initAsKind. destruct (getIntegerLiteralFromValue v); [apply post_literal|].
  eapply post_bind; [apply post_any|]. intros [|] _; [apply post_qm|]. apply post_init. intros w E. now injection E as <-.
Qed.
Section Ops.
Variable simp : aexp -> option Z.
Variable ndebug : bool.
Lemma post_asAffine a : post (initAsAffineExpr simp a) nm.
Proof. unfold initAsAffineExpr. destruct (simp a); [apply post_literal|now apply post_init]. Qed.
Lemma post_select c a b : nm c -> nm a -> nm b -> post (select c a b) nm.
Proof.
  intros. unfold select. destruct (literal c). { destruct (intLit c =? 0); now apply post_copy. }
  eapply post_bind; [apply post_any|]. intros [|] _; [apply post_qm|].
  eapply post_bind; [apply post_any|]. intros vc _. eapply post_bind; [apply post_any|]. intros va _.
  eapply post_bind; [apply post_any|]. intros vb _. now apply post_asKind.
Qed.
Lemma post_compare p a b : post (compareOp p a b) nm.
Proof.
  unfold compareOp. destruct (literal a && literal b); [apply post_literal|].
  eapply post_bind; [apply post_any|]. intros [|] _; [apply post_qm|].
  eapply post_bind; [apply post_any|]. intros vc _. eapply post_bind; [apply post_any|]. intros va _. now apply post_asKind.
Qed.
Lemma post_binaryOp a b pr wl hA hB neu lf af vf : nm a -> nm b -> post (af a b) nm -> (forall x y, vnm (vf x y)) ->
  post (binaryOp simp ndebug a b pr wl hA hB neu lf af vf) nm.
Proof.
  intros A B AF VF. unfold binaryOp. destruct (_ && _ && isIdentical a neu); [now apply post_copy|].
  destruct (hB && isIdentical b neu); [now apply post_copy|].
  destruct (literal a && literal b). { eapply post_bind; [apply post_any|]. intros z _. apply post_literal. }
  eapply post_bind; [apply post_any|]. intros [|] _; [apply post_qm|]. destruct (_ || _); [auto|].
  eapply post_bind; [apply post_getValue; auto|]. intros va Va. eapply post_bind; [apply post_getValue; auto|]. intros vb Vb.
  unfold vnm in Va, Vb. rewrite Va, Vb. destruct pr; now apply post_asKind.
Qed.
Lemma post_affineBin f a b : post (affineBin simp f a b) nm.
Proof.
  unfold affineBin. eapply post_bind; [apply post_any|]. intros x _. eapply post_bind; [apply post_any|]. intros y _. apply post_asAffine.
Qed.
Lemma post_div t f g a b : (forall x y, vnm (g x y)) -> post (affineDivLike simp t f g a b) nm.
Proof.
  intros G. unfold affineDivLike. destruct (literal b); [|apply post_fail]. destruct (t (intLit b)).
  - eapply post_bind; [apply post_any|]. intros x _. apply post_asAffine.
  - eapply post_bind; [apply post_any|]. intros x _. eapply post_bind; [apply post_any|]. intros y _. now apply post_asKind.
Qed.
Definition not_minmax (c : cmd) : Prop := match c with CMinMax _ _ => False | _ => True end.
Lemma post_reg rs i : Forall nm rs -> post (reg rs i) nm.
Proof. intros F. apply post_lift. intros a E. rewrite Forall_forall in F. eapply F, nth_error_In; eauto. Qed.
Lemma post_exec rs c : Forall nm rs -> not_minmax c -> post (exec simp ndebug rs c) nm.
Proof.
  intros F NM. destruct c; cbn [exec not_minmax] in *; try contradiction;
   try (apply post_literal); try (now apply post_asKind);
   repeat (eapply post_bind; [apply post_reg; auto|]; intros);
   try (apply post_binaryOp; auto; first [apply post_affineBin|apply post_div; intros; reflexivity|intros; reflexivity]);
   try (apply post_compare); try (now apply post_select).
  - unfold ieMul. destruct (literal a); apply post_binaryOp; auto; first [apply post_affineBin|intros; reflexivity].
  - unfold ieClamp. destruct (_ && _). { apply post_ret. destruct (_ <? _); auto. destruct (_ <? _); auto. }
    eapply post_bind; [apply post_any|]. intros [|] _; [apply post_qm|].
    eapply post_bind; [apply post_compare|]. intros c1 H1'. eapply post_bind; [apply post_select; auto|]. intros r1 Hr1.
    eapply post_bind; [apply post_compare|]. intros c2 H2'. now apply post_select.
  - unfold ieAnd. destruct (literal a). { destruct (intLit a =? 0); [apply post_literal|now apply post_copy]. }
    destruct (literal a0). { destruct (intLit a0 =? 0); [apply post_literal|now apply post_copy]. }
    destruct (_ || _); [apply post_qm|]. destruct (_ && _); [|apply post_fail].
    eapply post_bind; [apply post_any|]. intros x _. eapply post_bind; [apply post_any|]. intros y _. now apply post_asKind.
  - unfold ieOr. destruct (literal a). { destruct (negb (intLit a =? 0)); [apply post_literal|now apply post_copy]. }
    destruct (literal a0). { destruct (negb (intLit a0 =? 0)); [apply post_literal|now apply post_copy]. }
    destruct (_ || _); [apply post_qm|]. destruct (_ && _); [|apply post_fail].
    eapply post_bind; [apply post_any|]. intros x _. eapply post_bind; [apply post_any|]. intros y _. now apply post_asKind.
  - unfold ieNot. eapply post_bind; [apply post_any|]. intros x _. apply post_compare.
Qed.

Hypothesis simp_sound : forall a c ds ss z, simp a = Some c -> aeval ds ss a = Some z -> z = c.

Lemma plain_safe env isdim s ts rs zs c p z : regs env isdim s ts rs zs -> Forall nm rs -> sort_of ts c = Some p -> sem env zs c = Some z ->
  plain zs c -> safe simp ndebug s zs rs c.
Proof.
  intros (LR & LZ & R) F T Sm P. rewrite Forall_forall in F.
  assert (NM : forall i a, nth_error rs i = Some a -> is_minmax a = false). { intros i a E. apply nm_is, F. eapply nth_error_In; eauto. }
  assert (G : forall i a, nth_error ts i = Some false -> nth_error rs i = Some a -> literal a = true -> exists x, nth_error zs i = Some x /\ intLit a = x).
  { intros i a Et Er L. destruct (nth_error zs i) as [x|] eqn:Ez.
    - exists x. split; auto. eapply d_lit; eauto.
    - apply nth_error_None in Ez. assert (i < length ts)%nat by (apply nth_error_Some; congruence). lia. }
  destruct c; cbn [safe plain sort_of] in *; auto; try contradiction.
  - intros a b Ea Eb. left. eauto.
  - intros a b Ea Eb. split; left; eauto.
  - destruct (_ && _) eqn:EB; [|discriminate]. apply andb_true_iff in EB as [T1 T2]. apply int_sort in T1, T2.
    intros a b Ea Eb La Lb. destruct (G _ _ T1 Ea La) as (x & Ex & ->). destruct (G _ _ T2 Eb Lb) as (y & Ey & ->). eauto.
  - destruct (_ && _) eqn:EB; [|discriminate]. apply andb_true_iff in EB as [T1 T2]. apply int_sort in T1, T2.
    intros a b Ea Eb La Lb. destruct (G _ _ T1 Ea La) as (x & Ex & ->). destruct (G _ _ T2 Eb Lb) as (y & Ey & ->). eauto.
Qed.

Lemma plain_run_safe env isdim cs : forall s ts rs zs ps ws, inv isdim s -> regs env isdim s ts rs zs -> Forall nm rs ->
  sorts ts cs = Some ps -> sems env zs cs = Some ws -> Forall (cmd_ok isdim) cs -> plain_run env zs cs ->
  safe_run simp ndebug env s zs rs cs.
Proof.
  induction cs as [|c cs IH]; intros s ts rs zs ps ws I R F T Sm CO PL; cbn [sorts sems safe_run plain_run] in *; auto.
  destruct (sort_of ts c) as [p|] eqn:ET; cbn [obind] in T; [|discriminate].
  destruct (sem env zs c) as [z|] eqn:ES; cbn [obind] in Sm; [|discriminate].
  inversion CO; subst. destruct PL as [PL PR].
  assert (SF : safe simp ndebug s zs rs c) by (eapply plain_safe; eauto).
  split; auto. intros sc' e z' E Ez. injection Ez as <-.
  destruct (exec_ok simp simp_sound ndebug env isdim s ts rs zs c p z I R ET ES H1 SF) as (t & e' & E' & X & It & D).
  rewrite E in E'. injection E' as <- <-.
  eapply (IH sc' (ts ++ [p]) (rs ++ [e]) (zs ++ [z])); eauto.
  - apply regs_snoc; auto. eapply regs_ext; eauto.
  - apply Forall_app. split; auto. constructor; [|constructor]. eapply post_exec; eauto. destruct c; cbn; auto.
Qed.
End Ops.

(** ** Shape inference: literals *)
Section SI.
Variable simp : aexp -> option Z.
Variable ndebug : bool.
Variable env : nat -> Z.

Record dsi (p : bool) (e : IE) (z : Z) : Prop := {
  s_lit : literal e = true -> intLit e = z;
  s_qm : literal e = false -> isQM e = true;
  s_bool : p = true -> z = 0 \/ z = 1
}.
Definition wsi {A} (s : scope) (m : M A) (P : A -> Prop) : Prop := exists r, m s = Some (s, r) /\ P r.
Lemma wsi_ret {A} s (a : A) (P : A -> Prop) : P a -> wsi s (ret a) P.
Proof. intros H. exists a. split; auto. Qed.
Lemma wsi_bind {A B} s (m : M A) (f : A -> M B) Q P : wsi s m Q -> (forall r, Q r -> wsi s (f r) P) -> wsi s (bind m f) P.
Proof. intros (r & E & H) K. destruct (K r H) as (r' & E' & H'). exists r'. split; auto. unfold bind. now rewrite E. Qed.
Lemma wsi_SI {B} s (f : bool -> M B) P : si s = true -> wsi s (f true) P -> wsi s (x <-- isSI ;; f x) P.
Proof. intros E (r & E' & H). exists r. split; auto. unfold bind, isSI. now rewrite E. Qed.

Variable s : scope.
Hypothesis SIs : si s = true.

Lemma wsi_init l k z a v (P : IE -> Prop) : P (mkIE l k z a v) -> wsi s (init l k z a v) P.
Proof. intros H. unfold init. destruct v; [now apply wsi_ret|]. apply wsi_SI; auto. now apply wsi_ret. Qed.
Lemma wsi_literal z k p : (p = true -> z = 0 \/ z = 1) -> wsi s (initAsLiteral z k) (fun e => dsi p e z).
Proof. intros H. apply wsi_init. constructor; cbn; auto; discriminate. Qed.
Lemma wsi_qm p z : (p = true -> z = 0 \/ z = 1) -> wsi s questionmark (fun e => dsi p e z).
Proof. intros H. apply wsi_init. constructor; cbn; auto; discriminate. Qed.
Lemma wsi_copy p e z : dsi p e z -> wsi s (deepCopy e) (fun e => dsi p e z).
Proof. intros []. apply wsi_init. constructor; cbn; auto. Qed.
Lemma wsi_leaf n k : wsi s (initAsKind (VLeaf n) k) (fun e => dsi false e (env n)).
Proof. unfold initAsKind. cbn [getIntegerLiteralFromValue]. apply wsi_SI; auto. apply wsi_qm. discriminate. Qed.
Lemma wsi_compare p q a b x y : dsi q a x -> dsi q b y -> wsi s (compareOp p a b) (fun e => dsi true e (truth (compares p x y))).
Proof.
  intros A B. rewrite <- cmp_spec. unfold compareOp. destruct (literal a && literal b) eqn:L.
  - apply andb_true_iff in L as [L1 L2]. rewrite (s_lit _ _ _ A L1), (s_lit _ _ _ B L2). apply wsi_literal. intros _. destruct (cmp_eval p x y); auto.
  - apply wsi_SI; auto. apply wsi_qm. intros _. destruct (cmp_eval p x y); auto.
Qed.
Lemma wsi_select c a b k x y : dsi true c k -> dsi false a x -> dsi false b y -> wsi s (select c a b) (fun e => dsi false e (if k =? 0 then y else x)).
Proof.
  intros C A B. unfold select. destruct (literal c) eqn:L.
  - rewrite (s_lit _ _ _ C L). destruct (k =? 0); now apply wsi_copy.
  - apply wsi_SI; auto. apply wsi_qm. discriminate.
Qed.
Lemma litRed_fold m : forall l zs e z, Forall2 (dsi false) l zs -> forallb literal l = true -> literal e = true -> intLit e = z ->
  literal (fold_left (litRed m) l e) = true /\ intLit (fold_left (litRed m) l e) = fold_left (extreme m) zs z.
Proof.
  induction l as [|a l IH]; intros zs e z F L Le E; inversion F as [|? y ? zs' Ha Fl]; subst; cbn [fold_left forallb] in *; auto.
  apply andb_true_iff in L as [L1 L2]. apply IH; auto.
  - unfold litRed. destruct (if m then _ else _); auto.
  - unfold litRed, extreme. rewrite (s_lit _ _ _ Ha L1). destruct m.
    + destruct (Z.ltb_spec y (intLit e)); cbn [intLit]; lia.
    + destruct (Z.ltb_spec (intLit e) y); cbn [intLit]; lia.
Qed.
Lemma wsi_minmax m es zs z0 zr : Forall2 (dsi false) es zs -> zs = z0 :: zr ->
  wsi s (minmax m es) (fun e => dsi false e (fold_left (extreme m) zr z0)).
Proof.
  intros F ->. inversion F as [|e0 ? er ? D0 FT]; subst. destruct er as [|e1 er].
  - inversion FT; subst. now apply wsi_copy.
  - unfold minmax. eapply wsi_bind with (Q := fun r => literal r = literal e0 /\ intLit r = intLit e0). { apply wsi_init; auto. }
    intros r [R1 R2]. destruct (forallb literal (e0 :: e1 :: er)) eqn:FL.
    + apply wsi_ret. cbn [forallb] in FL. apply andb_true_iff in FL as [L0 L1].
      destruct (litRed_fold m (e1 :: er) zr r z0 FT L1) as [H1 H2]; [congruence|rewrite R2; now apply (s_lit _ _ _ D0)|].
      constructor; auto; try congruence; discriminate.
    + apply wsi_SI; auto. apply wsi_qm. discriminate.
Qed.
Lemma wsi_binaryOp a b x y z pr wl hA hB neu lf af vf : dsi false a x -> dsi false b y ->
  (hA = true -> x = neu -> z = y) -> (hB = true -> y = neu -> z = x) ->
  (literal a = true -> literal b = true -> lf x y = Some z) ->
  wsi s (binaryOp simp ndebug a b pr wl hA hB neu lf af vf) (fun e => dsi false e z).
Proof.
  intros A B NA NB LF. unfold binaryOp.
  destruct (_ && hA && isIdentical a neu) eqn:T1.
  { apply andb_true_iff in T1 as [T1 T2]. apply andb_true_iff in T1 as [_ T1]. unfold isIdentical in T2.
    apply andb_true_iff in T2 as [T2 T3]. apply Z.eqb_eq in T3. rewrite (s_lit _ _ _ A T2) in T3.
    rewrite (NA T1 T3). now apply wsi_copy. }
  destruct (hB && isIdentical b neu) eqn:T2.
  { apply andb_true_iff in T2 as [T2 T3]. unfold isIdentical in T3. apply andb_true_iff in T3 as [T3 T4]. apply Z.eqb_eq in T4.
    rewrite (s_lit _ _ _ B T3) in T4. rewrite (NB T2 T4). now apply wsi_copy. }
  destruct (literal a && literal b) eqn:RL.
  { apply andb_true_iff in RL as [L1 L2]. rewrite (s_lit _ _ _ A L1), (s_lit _ _ _ B L2), (LF L1 L2). cbn [lift].
    eapply wsi_bind with (Q := fun r => r = z); [now apply wsi_ret|]. intros r ->. apply wsi_literal. discriminate. }
  apply wsi_SI; auto. apply wsi_qm. discriminate.
Qed.

Definition sregs (ts : list bool) (rs : list IE) (zs : list Z) : Prop :=
  length rs = length ts /\ length zs = length ts /\
  forall i p e z, nth_error ts i = Some p -> nth_error rs i = Some e -> nth_error zs i = Some z -> dsi p e z.
Lemma sregs_snoc ts rs zs p e z : sregs ts rs zs -> dsi p e z -> sregs (ts ++ [p]) (rs ++ [e]) (zs ++ [z]).
Proof.
  intros (A & B & C) D. split; [rewrite !app_length; simpl; lia|]. split; [rewrite !app_length; simpl; lia|].
  intros i p' e' z' H1 H2 H3. destruct (Nat.lt_ge_cases i (length ts)) as [L|L].
  - rewrite nth_error_app1 in H1, H2, H3 by lia. eauto.
  - rewrite nth_error_app2 in H1, H2, H3 by lia. rewrite A in H2. rewrite B in H3.
    destruct (i - length ts)%nat as [|k]; cbn in *; [congruence|destruct k; discriminate].
Qed.
Lemma wsi_reg {B} ts rs zs i p (f : IE -> M B) P z : sregs ts rs zs -> nth_error ts i = Some p -> nth_error zs i = Some z ->
  (forall e, nth_error rs i = Some e -> dsi p e z -> wsi s (f e) P) -> wsi s (e <-- reg rs i ;; f e) P.
Proof.
  intros (A & B' & C) T Z K. destruct (nth_error rs i) as [e|] eqn:E.
  2: { apply nth_error_None in E. assert (i < length ts)%nat by (apply nth_error_Some; congruence). lia. }
  destruct (K e eq_refl (C i p e z T E Z)) as (r & H & HH). exists r. split; auto.
  unfold reg, bind. rewrite E. exact H.
Qed.
Lemma wsi_mapregs ts rs zs l ws : sregs ts rs zs -> Forall (fun i => nth_error ts i = Some false) l ->
  mapO (nth_error zs) l = Some ws -> wsi s (mapM (reg rs) l) (fun es => Forall2 (dsi false) es ws).
Proof.
  intros R. revert ws. induction l as [|i l IH]; intros ws F E; cbn [mapM mapO] in *.
  - injection E as <-. apply wsi_ret; auto.
  - inversion F; subst. destruct (nth_error zs i) as [z|] eqn:Ez; cbn [obind] in E; [|discriminate].
    destruct (mapO (nth_error zs) l) as [ws'|]; cbn [obind] in E; [|discriminate]. injection E as <-.
    eapply wsi_reg; eauto. intros e Ee De. eapply wsi_bind; [apply IH; eauto|].
    intros es F2. apply wsi_ret; auto.
Qed.

Ltac splitb := repeat match goal with H : _ && _ = true |- _ => apply andb_true_iff in H; destruct H end;
  repeat match goal with H : match nth_error _ _ with _ => _ end = true |- _ => first [apply int_sort in H|apply prd_sort in H] end.
Ltac getz := unfold bin, znth in *; repeat match goal with
  | H : (_ <- nth_error ?zs ?i ;; _) = Some _ |- _ => let E := fresh "EZ" in destruct (nth_error zs i) eqn:E; cbn [obind] in H; [|discriminate] end.

Lemma si_exec ts rs zs c p z : sregs ts rs zs -> sort_of ts c = Some p -> sem env zs c = Some z -> exact_div zs c ->
  wsi s (exec simp ndebug rs c) (fun e => dsi p e z).
Proof.
  intros R T Sm ED. destruct c; cbn [sort_of sem exec exact_div] in *;
   try (match type of T with (if ?b then _ else _) = _ => destruct b eqn:EB; [injection T as <-|discriminate] end; splitb; getz).
  - injection T as <-. injection Sm as <-. apply wsi_literal. discriminate.
  - injection T as <-. injection Sm as <-. apply wsi_leaf.
  - injection T as <-. injection Sm as <-. apply wsi_leaf.
  - injection T as <-. injection Sm as <-. apply wsi_leaf.
  - injection Sm as <-. eapply wsi_reg; eauto. intros a Ea Da. eapply wsi_reg; eauto. intros b Eb Db.
    eapply wsi_binaryOp; eauto; lia.
  - injection Sm as <-. eapply wsi_reg; eauto. intros a Ea Da. eapply wsi_reg; eauto. intros b Eb Db.
    eapply wsi_binaryOp; eauto; try lia.
  - injection Sm as <-. eapply wsi_reg; eauto. intros a Ea Da. eapply wsi_reg; eauto. intros b Eb Db.
    unfold ieMul. destruct (literal a); eapply wsi_binaryOp; eauto; try lia. intros; f_equal; lia.
  - destruct (Z.eqb_spec z1 0); [discriminate|]. injection Sm as <-.
    eapply wsi_reg; eauto. intros a Ea Da. eapply wsi_reg; eauto. intros b Eb Db. 
    eapply wsi_binaryOp; eauto; try discriminate.
    + intros _ ->. apply Z.div_1_r.
    + intros _ _. destruct (ED _ _ eq_refl eq_refl). now apply lit_floorDiv_correct.
  - destruct (Z.eqb_spec z1 0); [discriminate|]. injection Sm as <-.
    eapply wsi_reg; eauto. intros a Ea Da. eapply wsi_reg; eauto. intros b Eb Db. 
    eapply wsi_binaryOp; eauto; try discriminate.
    + intros _ ->. rewrite Z.div_1_r. lia.
    + intros _ _. destruct (ED _ _ eq_refl eq_refl). now apply lit_ceilDiv_correct.
  - destruct (Z.ltb_spec 0 z1); [|discriminate]. injection Sm as <-.
    eapply wsi_reg; eauto. intros a Ea Da. eapply wsi_reg; eauto. intros b Eb Db. 
    eapply wsi_binaryOp; eauto; try discriminate.
    intros _ _. unfold lit_mod. destruct (Z.leb_spec 1 z1); auto; lia.
  - destruct (mapO (nth_error zs) l) as [ws|] eqn:EW; cbn [obind] in Sm; [|discriminate].
    destruct ws as [|w ws]; [discriminate|]. injection Sm as <-.
    eapply wsi_bind; [eapply wsi_mapregs; eauto|].
    { apply Forall_forall. intros i Hi. rewrite forallb_forall in EB. apply int_sort. now apply EB. }
    intros es F2. cbv beta in F2. rewrite <- extreme_spec. eapply wsi_minmax; eauto.
  - destruct (Z.leb_spec z1 z2) as [LH|]; [|discriminate]. injection Sm as <-.
    eapply wsi_reg; eauto. intros a Ea Da. eapply wsi_reg; eauto. intros b Eb Db. eapply wsi_reg; eauto. intros d Ed Dd.
    unfold ieClamp. destruct (literal a && literal b && literal d) eqn:E.
    + apply andb_true_iff in E as [E E3]. apply andb_true_iff in E as [E1 E2].
      apply wsi_ret. rewrite (s_lit _ _ _ Da E1), (s_lit _ _ _ Db E2), (s_lit _ _ _ Dd E3).
      destruct (Z.ltb_spec z0 z1); [replace (Z.max z1 (Z.min z0 z2)) with z1 by lia; auto|].
      destruct (Z.ltb_spec z2 z0); [replace (Z.max z1 (Z.min z0 z2)) with z2 by lia; auto|replace (Z.max z1 (Z.min z0 z2)) with z0 by lia; auto].
    + apply wsi_SI; auto. apply wsi_qm. discriminate.
  - injection Sm as <-. eapply wsi_reg; eauto. intros a Ea Da. eapply wsi_reg; eauto. intros b Eb Db.
    eapply wsi_compare; eauto.
  - injection Sm as <-.
    eapply wsi_reg; eauto. intros a Ea Da. eapply wsi_reg; eauto. intros b Eb Db. eapply wsi_reg; eauto. intros d Ed Dd.
    apply wsi_select; auto.
  - injection Sm as <-. eapply wsi_reg; eauto. intros a Ea Da. eapply wsi_reg; eauto. intros b Eb Db.
    assert (TB : true = true -> truth (negb (z0 =? 0) && negb (z1 =? 0)) = 0 \/ truth (negb (z0 =? 0) && negb (z1 =? 0)) = 1).
    { intros _. destruct (_ && _); auto. }
    unfold ieAnd. destruct (literal a) eqn:LA; [rewrite (s_lit _ _ _ Da LA); destruct (z0 =? 0)|]; cbn [negb andb truth].
    { apply wsi_literal; auto. }
    { destruct (s_bool _ _ _ Db eq_refl) as [-> | ->]; cbn; now apply wsi_copy. }
    destruct (literal b) eqn:LB; [rewrite (s_lit _ _ _ Db LB); destruct (z1 =? 0)|]; cbn [negb truth]; rewrite ?andb_true_r, ?andb_false_r.
    { apply wsi_literal; auto. }
    { destruct (s_bool _ _ _ Da eq_refl) as [-> | ->]; cbn; now apply wsi_copy. }
    rewrite (s_qm _ _ _ Da LA). cbn [orb]. now apply wsi_qm.
  - injection Sm as <-. eapply wsi_reg; eauto. intros a Ea Da. eapply wsi_reg; eauto. intros b Eb Db.
    assert (TB : true = true -> truth (negb (z0 =? 0) || negb (z1 =? 0)) = 0 \/ truth (negb (z0 =? 0) || negb (z1 =? 0)) = 1).
    { intros _. destruct (_ || _); auto. }
    unfold ieOr. destruct (literal a) eqn:LA; [rewrite (s_lit _ _ _ Da LA); destruct (z0 =? 0)|]; cbn [negb orb truth].
    { destruct (s_bool _ _ _ Db eq_refl) as [-> | ->]; cbn; now apply wsi_copy. }
    { apply wsi_literal; auto. }
    destruct (literal b) eqn:LB; [rewrite (s_lit _ _ _ Db LB); destruct (z1 =? 0)|]; cbn [negb truth]; rewrite ?orb_true_r, ?orb_false_r.
    { destruct (s_bool _ _ _ Da eq_refl) as [-> | ->]; cbn; now apply wsi_copy. }
    { apply wsi_literal; auto. }
    rewrite (s_qm _ _ _ Da LA). cbn [orb]. now apply wsi_qm.
  - injection Sm as <-. eapply wsi_reg; eauto. intros a Ea Da. unfold ieNot.
    eapply wsi_bind; [apply (wsi_literal 0 KPred true); auto|]. intros f Df. cbv beta in Df. eapply (wsi_compare Eq_); eauto.
Qed.

Lemma si_run cs : forall ts rs zs ps ws, sregs ts rs zs -> sorts ts cs = Some ps -> sems env zs cs = Some ws ->
  exact_divs env zs cs -> wsi s (runCmds simp ndebug rs cs) (fun es => sregs ps es ws).
Proof.
  induction cs as [|c cs IH]; intros ts rs zs ps ws R T Sm ED; cbn [sorts sems runCmds exact_divs] in *.
  - injection T as <-. injection Sm as <-. now apply wsi_ret.
  - destruct (sort_of ts c) as [p|] eqn:ET; cbn [obind] in T; [|discriminate].
    destruct (sem env zs c) as [z|] eqn:ES; cbn [obind] in Sm; [|discriminate]. destruct ED as [ED ER].
    eapply wsi_bind; [eapply si_exec; eauto|]. intros e De. cbv beta in De.
    eapply IH; eauto. now apply sregs_snoc.
Qed.
End SI.
