(** Every rewrite keeps the tensor an expression stands for, what is known
    about its type, and the invariants. *)
From Coq Require Import ZArith List Bool Lia.
From Verif Require Import Util TensorSpec TensorLemmas BroadcastSpec
  FoldSpec FoldModel FoldProofs FoldChain RewriteSpec RewriteModel RewriteProofs.
Import ListNotations.
Open Scope Z_scope.

(** ** Static types *)

Lemma zl_impl {A} (f g : A -> A -> option A) (P : A -> Prop) :
  (forall a b r, f a b = Some r -> P r -> g a b = Some r) ->
  forall l m r, zipLong f l m = Some r -> Forall P r -> zipLong g l m = Some r.
Proof.
  intros H. induction l as [|a l IH]; intros [|b m] r E F; cbn in *; auto.
  apply obind_some in E as (d & Ed & E). apply obind_some in E as (r' & Er & E). injection E as <-.
  inversion F; subst. rewrite (H _ _ _ Ed) by auto. cbn. rewrite (IH _ _ Er) by auto. reflexivity.
Qed.

Lemma isStatic_Forall ds : isStatic ds = true <-> Forall (fun d => d <> None) ds.
Proof.
  unfold isStatic. rewrite forallb_forall, Forall_forall. split; intros H d Hd; specialize (H d Hd); destruct d; congruence.
Qed.

Lemma buildType_known T1 T2 ds : buildType T1 T2 = Some ds -> knownShape T1 T2 = Some ds.
Proof.
  destruct T1 as [a|], T2 as [b|]; cbn; try discriminate. intros H.
  apply obind_some in H as (r & Hr & H). destruct (isStatic r) eqn:S; [|discriminate]. injection H as <-.
  rewrite (zl_impl buildDim knownDim (fun d => d <> None)) with (r := r); auto; [|apply isStatic_Forall; auto].
  intros [x|] [y|] d; cbn; auto.
  - destruct (Z.ltb_spec 1 x), (Z.eqb_spec x 1); try lia; intros E; injection E as <-; congruence.
  - destruct (Z.ltb_spec 1 y), (Z.eqb_spec y 1); try lia; intros E; injection E as <-; congruence.
Qed.

Lemma Forall_rev' {A} (P : A -> Prop) l : Forall P l -> Forall P (rev l).
Proof. rewrite !Forall_forall. intros H x Hx. apply H. apply in_rev. auto. Qed.

Lemma zl_static : forall a b, Forall (fun d : option Z => d <> None) a -> Forall (fun d : option Z => d <> None) b ->
  zipLong buildDim a b = zipLong knownDim a b /\
  forall r, zipLong knownDim a b = Some r -> Forall (fun d : option Z => d <> None) r.
Proof.
  induction a as [|x a IH]; intros [|y b] Fa Fb; cbn; split; auto; try (intros r E; injection E as <-; auto).
  - inversion Fa; inversion Fb; subst. destruct (IH b) as [E _]; auto. rewrite E. destruct x, y; try congruence. reflexivity.
  - intros r E. inversion Fa; inversion Fb; subst. destruct (IH b) as [_ I]; auto.
    apply obind_some in E as (d & Ed & E). apply obind_some in E as (r' & Er & E). injection E as <-.
    constructor; auto. destruct x, y; try congruence. cbn in Ed. destruct (bsize z z0); congruence.
Qed.

Lemma buildType_static T1 T2 : static T1 -> static T2 -> buildType T1 T2 = knownShape T1 T2.
Proof.
  destruct T1 as [a|], T2 as [b|]; cbn; try contradiction. intros Fa Fb.
  destruct (zl_static (rev a) (rev b)) as [E I]; auto using Forall_rev'. rewrite E.
  destruct (zipLong knownDim (rev a) (rev b)) as [r|]; cbn; auto.
  destruct (isStatic r) eqn:S; auto. specialize (I r eq_refl). apply isStatic_Forall in I. congruence.
Qed.

Lemma knownShape_static T1 T2 ds : static T1 -> static T2 -> knownShape T1 T2 = Some ds -> static (Some ds).
Proof.
  destruct T1 as [a|], T2 as [b|]; cbn; try contradiction. intros Fa Fb H.
  apply obind_some in H as (r & Hr & H). injection H as <-.
  apply Forall_rev'. apply (zl_static (rev a) (rev b)); auto using Forall_rev'.
Qed.

Lemma static_const s : static (Some (map Some s)).
Proof. cbn. induction s; cbn; constructor; auto. discriminate. Qed.

Lemma zl_consts : forall a b, zipLong knownDim (map Some a) (map Some b) = option_map (map Some) (zipLong bsize a b).
Proof.
  induction a as [|x a IH]; intros [|y b]; cbn; auto. rewrite IH. destruct (bsize x y); cbn; auto.
  destruct (zipLong bsize a b); reflexivity.
Qed.

Lemma known_consts a b : knownShape (Some (map Some a)) (Some (map Some b)) = option_map (map Some) (bshape a b).
Proof.
  cbn. unfold bshape. rewrite <- !map_rev, zl_consts. destruct (zipLong bsize (rev a) (rev b)); cbn; auto.
  rewrite map_rev. reflexivity.
Qed.

Lemma getShape_some T s : getShape T = Some s -> T = Some (map Some s).
Proof.
  destruct T as [ds|]; cbn; [|discriminate].
  assert (forall (ds : list (option Z)) acc s, foldM (fun (d : option Z) s => v <- d ;; Some (s ++ [v])) ds acc = Some s ->
            exists r, s = acc ++ r /\ ds = map Some r) as G.
  { clear. induction ds as [|d ds IH]; intros acc s H; cbn in H.
    - injection H as <-. exists []. rewrite app_nil_r. auto.
    - destruct d as [v|]; cbn in H; [|discriminate]. apply IH in H as (r & -> & ->).
      exists (v :: r). rewrite <- app_assoc. auto. }
  intros H. apply G in H as (r & -> & ->). reflexivity.
Qed.

(** ** The run-time shape agrees with what is known *)

Definition confDim (d : option Z) (n : Z) : Prop := d = None \/ d = Some n.

Lemma conf_bsize d1 d2 d n1 n2 n : confDim d1 n1 -> confDim d2 n2 ->
  knownDim d1 d2 = Some d -> bsize n1 n2 = Some n -> confDim d n.
Proof.
  unfold confDim, bsize. intros [->| ->] [->| ->]; cbn; intros K B.
  - injection K as <-. auto.
  - destruct (Z.eqb_spec n2 1); injection K as <-; auto. right.
    destruct (n1 =? 1); auto. destruct (Z.eqb_spec n1 n2); [subst; auto | discriminate].
  - destruct (Z.eqb_spec n1 1); injection K as <-; auto. right.
    destruct (n2 =? 1); auto. destruct (Z.eqb_spec n1 n2); [subst; auto | discriminate].
  - unfold bsize in K. destruct (n1 =? 1); [|destruct (n2 =? 1); [|destruct (n1 =? n2); [|discriminate]]]; right; congruence.
Qed.

Lemma conf_zl : forall K1 K2 K s1 s2 s, Forall2 confDim K1 s1 -> Forall2 confDim K2 s2 ->
  zipLong knownDim K1 K2 = Some K -> zipLong bsize s1 s2 = Some s -> Forall2 confDim K s.
Proof.
  intros K1 K2 K s1 s2 s F1. revert K2 K s2 s. induction F1 as [|d1 n1 K1 s1 H1 F1 IH]; intros K2 K s2 s F2 E B.
  - cbn in *. injection E as <-. injection B as <-. auto.
  - inversion F2 as [|d2 n2 K2' s2' H2 F2']; subst; cbn in *.
    + injection E as <-. injection B as <-. auto.
    + apply obind_some in E as (d & Ed & E). apply obind_some in E as (K' & EK & E). injection E as <-.
      apply obind_some in B as (n & En & B). apply obind_some in B as (s' & Es & B). injection B as <-.
      constructor; [eapply conf_bsize; [exact H1|exact H2| |]; eauto|]. eapply IH; eauto.
Qed.

Lemma known_conforms t env : forall e s, inputsOK t env e -> shapeOf env e = Some s -> conforms (known e) s.
Proof.
  induction e as [n T|s0 d|o e IH T|o e1 IH1 e2 IH2 T]; intros s I S; cbn in *.
  - injection S as <-. tauto.
  - injection S as <-. clear. induction s0; cbn; constructor; auto.
  - auto.
  - destruct I as [I1 I2]. apply obind_some in S as (s1 & S1 & S). apply obind_some in S as (s2 & S2 & S).
    specialize (IH1 _ I1 S1). specialize (IH2 _ I2 S2).
    destruct (known e1) as [K1|], (known e2) as [K2|]; cbn; auto.
    destruct (zipLong knownDim (rev K1) (rev K2)) as [K|] eqn:EK; cbn; auto.
    unfold bshape in S. apply obind_some in S as (r & Hr & S). injection S as <-.
    apply (Forall2_rev' confDim). eapply conf_zl; [| |exact EK|exact Hr]; apply (Forall2_rev' confDim); auto.
Qed.

Lemma neutral_shape : forall K sx s, Forall2 confDim K sx ->
  zipLong knownDim K (map Some s) = Some K -> zipLong bsize sx s = Some sx.
Proof.
  intros K sx s F. revert s. induction F as [|k n K sx H F IH]; intros [|y s] E; cbn in *; auto.
  - discriminate.
  - apply obind_some in E as (d & Ed & E). apply obind_some in E as (r & Er & E).
    injection E as -> ->. rewrite (IH _ Er).
    enough (bsize n y = Some n) as -> by reflexivity. unfold bsize.
    destruct H as [->| ->]; cbn in Ed.
    + destruct (Z.eqb_spec y 1); [|discriminate]. subst. destruct (Z.eqb_spec n 1); subst; auto.
    + unfold bsize in Ed. destruct (n =? 1), (y =? 1), (n =? y); congruence.
Qed.

(** ** Values are in range, constants have elements *)

Lemma bsize_ok a b r : 0 <= a -> 0 <= b -> bsize a b = Some r -> 0 <= r.
Proof. unfold bsize. destruct (a =? 1), (b =? 1), (a =? b); intros ? ? E; try discriminate E; injection E as <-; auto. Qed.

Lemma bshape_ok : forall a b s, okshape a -> okshape b -> bshape a b = Some s -> okshape s.
Proof.
  intros a b s Ha Hb H. unfold bshape in H. apply obind_some in H as (r & Hr & H). injection H as <-.
  apply Forall_rev'. apply Forall_rev' in Ha. apply Forall_rev' in Hb. revert r Hr Ha Hb.
  generalize (rev a) as l, (rev b) as m. induction l as [|x l IH]; intros [|y m] r E Fa Fb; cbn in E;
    try (injection E as <-; auto; fail).
  apply obind_some in E as (d & Ed & E). apply obind_some in E as (r' & Er & E). injection E as <-.
  inversion Fa; inversion Fb; subst. constructor; [exact (bsize_ok x y d ltac:(auto) ltac:(auto) Ed) | eapply IH; eauto].
Qed.

Lemma mapM_spec {A B} (f : A -> option B) : forall l r, mapM f l = Some r -> Forall2 (fun a b => f a = Some b) l r.
Proof.
  induction l as [|a l IH]; intros r H; cbn in H.
  - injection H as <-. constructor.
  - apply obind_some in H as (b & Hb & H). apply obind_some in H as (r' & Hr & H). injection H as <-. constructor; auto.
Qed.

Lemma F2len {A B} (R : A -> B -> Prop) l m : Forall2 R l m -> length l = length m.
Proof. induction 1; cbn; auto. Qed.

Lemma Forall2_nth {A B} (R : A -> B -> Prop) l r : Forall2 R l r -> forall n a, nth_error l n = Some a ->
  exists b, nth_error r n = Some b /\ R a b.
Proof.
  induction 1; intros [|n] a E; cbn in *; try discriminate.
  - injection E as <-. eauto.
  - eauto.
Qed.

Lemma zget_nth {A} (l : list A) i : 0 <= i -> zget l i = nth_error l (Z.to_nat i).
Proof. apply zget_spec. Qed.

Section Root.
  Variables (sg : bool) (w : Z) (bound : Z).
  Hypothesis W : widthOK w.
  Let t := TInt sg w.
  Variable env : nat -> tensor.

  Lemma value_range : forall e s idx v, inferred t e -> inputsOK t env e -> shapeOf env e = Some s ->
    valid s idx -> valueAt t env e idx = Some v -> inRange t v.
  Proof.
    induction e as [n T|s0 d|o e IH T|o e1 IH1 e2 IH2 T]; intros s idx v F I S V E; cbn [valueAt] in E.
    - cbn in S, I. injection S as <-. injection E as <-. apply I; auto.
    - apply obind_some in E as (x & _ & E). injection E as <-. apply (wrap_range t); exact W.
    - apply obind_some in E as (x & _ & E). destruct F as (_ & _ & F). exact (range_un sg w W o x v F E).
    - apply obind_some in E as (s1 & _ & E). apply obind_some in E as (s2 & _ & E).
      apply obind_some in E as (x & _ & E). apply obind_some in E as (y & _ & E).
      destruct F as (_ & _ & _ & F). exact (range_bin sg w W o x y v F E).
  Qed.

  Lemma annOK : forall e, inferred t e -> ann e = None \/ ann e = known e.
  Proof. destruct e; cbn; tauto. Qed.

  Lemma build_inferred : forall o a b, inferred t a -> inferred t b -> tyBin o t = Some t -> inferred t (build o a b).
  Proof.
    intros o a b Fa Fb Ty. unfold build. cbn [inferred]. do 2 (split; [auto|]). split; [|auto].
    destruct (buildType (ann a) (ann b)) as [ds|] eqn:E; [right|auto].
    apply buildType_known in E. cbn [known].
    destruct (annOK a Fa) as [A|A]; rewrite A in E; [discriminate|].
    destruct (annOK b Fb) as [B|B]; rewrite B in E; [destruct (known a); discriminate|]. auto.
  Qed.

  Definition okAt (e : texpr) (n : nat) : Prop := exists s, shapeOf env e = Some s /\ (length s <= n)%nat.

  Lemma okAt_bin o a b T n : okAt (TBin o a b T) n -> okAt a n /\ okAt b n.
  Proof.
    intros (s & S & L). cbn in S. apply obind_some in S as (s1 & S1 & S). apply obind_some in S as (s2 & S2 & S).
    split; [exists s1 | exists s2]; split; auto.
    - pose proof (bshape_length _ _ _ S). lia.
    - rewrite bshape_comm in S. pose proof (bshape_length _ _ _ S). lia.
  Qed.

  Lemma okAt_rd o a b T idx : okAt (TBin o a b T) (length idx) ->
    rd t env (TBin o a b T) idx = op2 t o (rd t env a idx) (rd t env b idx).
  Proof. intros (s & S & L). eapply rd_bin; eauto. Qed.

  (** Equality of tensors from equality of the operand reads. *)
  Lemma same_by_rd e e' : shapeOf env e = shapeOf env e' ->
    (forall s idx, shapeOf env e = Some s -> valid s idx -> okAt e (length idx) -> okAt e' (length idx) ->
      rd t env e idx = rd t env e' idx) ->
    sameTensor t env e e'.
  Proof.
    intros S R. split; auto. intros s idx Hs V.
    rewrite (rd_self t env e s), (rd_self t env e' s); auto; [|congruence].
    pose proof (valid_length _ _ V). apply (R s); auto; exists s; split; try lia; congruence.
  Qed.

  Definition keeps (e e' : texpr) : Prop :=
    sameTensor t env e e' /\ known e = known e' /\ inferred t e' /\ inputsOK t env e'.

  Lemma binEqb_eq a b : binEqb a b = true -> a = b.
  Proof. unfold binEqb. destruct a, b; cbn; intros; congruence. Qed.
  Lemma unEqb_eq a b : unEqb a b = true -> a = b.
  Proof. unfold unEqb. destruct a, b; cbn; intros; congruence. Qed.
  Lemma styEqb_eq a b : styEqb a b = true -> a = b.
  Proof. unfold styEqb. destruct (list_eq_dec _ _ _); destruct a, b; intros; congruence. Qed.

  Ltac conds := repeat match goal with
    | H : _ && _ = true |- _ => apply andb_true_iff in H as [H ?]
    | H : binEqb _ _ = true |- _ => apply binEqb_eq in H; subst
    | H : unEqb _ _ = true |- _ => apply unEqb_eq in H; subst
    end.

  Lemma bin_known o a b T : known (TBin o a b T) = knownShape (known a) (known b).
  Proof. reflexivity. Qed.
  Lemma bin_shape o a b T : shapeOf env (TBin o a b T) = obs (shapeOf env a) (shapeOf env b).
  Proof. reflexivity. Qed.

  Ltac reads := repeat match goal with
    | H : okAt (TBin _ _ _ _) _ |- _ => rewrite (okAt_rd _ _ _ _ _ H);
        let H1 := fresh "K" in let H2 := fresh "K" in apply okAt_bin in H as [H1 H2]
    end.

  Lemma ty_assoc o : tyBin (opOf o) t = Some t.
  Proof. destruct o; reflexivity. Qed.

  Lemma op2A o x y z : op2 t (opOf o) (op2 t (opOf o) x y) z = op2 t (opOf o) x (op2 t (opOf o) y z).
  Proof. apply op2_assoc; auto. Qed.

  Lemma keeps_comm o c x T : inferred t (TBin (opOf o) c x T) -> inputsOK t env (TBin (opOf o) c x T) ->
    keeps (TBin (opOf o) c x T) (TBin (opOf o) x c T).
  Proof.
    intros F I. unfold keeps. rewrite !bin_known. split; [|split; [apply knownShape_comm|]].
    - apply same_by_rd; [rewrite !bin_shape; apply obs_comm|]. intros. reads. apply op2_comm.
    - cbn in F, I |- *. rewrite knownShape_comm. tauto.
  Qed.

  Lemma keeps_tree e e' : shapeOf env e = shapeOf env e' ->
    (forall s idx, shapeOf env e = Some s -> valid s idx -> okAt e (length idx) -> okAt e' (length idx) ->
      rd t env e idx = rd t env e' idx) ->
    known e = known e' -> inferred t e' -> inputsOK t env e' -> keeps e e'.
  Proof. intros. split; [apply same_by_rd|]; auto. Qed.

  Lemma keeps_assoc1 o x c1 T1 c2 T : let e := TBin (opOf o) (TBin (opOf o) x c1 T1) c2 T in
    inferred t e -> inputsOK t env e -> keeps e (TBin (opOf o) x (build (opOf o) c1 c2) T).
  Proof.
    intros e F I. assert (known e = known (TBin (opOf o) x (build (opOf o) c1 c2) T)) as Kn.
    { unfold e, build. rewrite !bin_known. apply knownShape_assoc. }
    apply keeps_tree; auto.
    - unfold e, build. rewrite !bin_shape. apply obs_assoc.
    - intros. unfold e, build in *. reads. apply op2A.
    - cbn [inferred]. rewrite <- Kn. destruct F as ((Fx & Fc1 & _ & Ty) & Fc2 & A & _).
      split; [auto|]. split; [apply build_inferred; auto|]. auto.
    - cbn in I |- *. tauto.
  Qed.

  Lemma keeps_assoc2 o x c T1 y T : let e := TBin (opOf o) (TBin (opOf o) x c T1) y T in
    inferred t e -> inputsOK t env e -> keeps e (TBin (opOf o) (build (opOf o) x y) c T).
  Proof.
    intros e F I. assert (known e = known (TBin (opOf o) (build (opOf o) x y) c T)) as Kn.
    { unfold e, build. rewrite !bin_known. rewrite !knownShape_assoc. f_equal. apply knownShape_comm. }
    apply keeps_tree; auto.
    - unfold e, build. rewrite !bin_shape. rewrite !obs_assoc. f_equal. apply obs_comm.
    - intros. unfold e, build in *. reads. rewrite !op2A. f_equal. apply op2_comm.
    - cbn [inferred]. rewrite <- Kn. destruct F as ((Fx & Fc1 & _ & Ty) & Fc2 & A & _).
      split; [apply build_inferred; auto|]. auto.
    - cbn in I |- *. tauto.
  Qed.

  Lemma keeps_assoc3 o x y c T1 T : let e := TBin (opOf o) x (TBin (opOf o) y c T1) T in
    inferred t e -> inputsOK t env e -> keeps e (TBin (opOf o) (build (opOf o) x y) c T).
  Proof.
    intros e F I. assert (known e = known (TBin (opOf o) (build (opOf o) x y) c T)) as Kn.
    { unfold e, build. rewrite !bin_known. rewrite !knownShape_assoc. reflexivity. }
    apply keeps_tree; auto.
    - unfold e, build. rewrite !bin_shape. rewrite !obs_assoc. reflexivity.
    - intros. unfold e, build in *. reads. rewrite !op2A. reflexivity.
    - cbn [inferred]. rewrite <- Kn. destruct F as (Fx & (Fy & Fc & _ & Ty) & A & _).
      split; [apply build_inferred; auto|]. auto.
    - cbn in I |- *. tauto.
  Qed.

  Lemma keeps_assoc4 o x c1 T1 y c2 T2 T :
    let e := TBin (opOf o) (TBin (opOf o) x c1 T1) (TBin (opOf o) y c2 T2) T in
    inferred t e -> inputsOK t env e ->
    keeps e (TBin (opOf o) (build (opOf o) x y) (build (opOf o) c1 c2) T).
  Proof.
    intros e F I. assert (known e = known (TBin (opOf o) (build (opOf o) x y) (build (opOf o) c1 c2) T)) as Kn.
    { unfold e, build. rewrite !bin_known. rewrite !knownShape_assoc. f_equal.
      rewrite <- !knownShape_assoc. f_equal. apply knownShape_comm. }
    apply keeps_tree; auto.
    - unfold e, build. rewrite !bin_shape. rewrite !obs_assoc. f_equal. rewrite <- !obs_assoc. f_equal. apply obs_comm.
    - intros. unfold e, build in *. reads. rewrite !op2A. f_equal. rewrite <- !op2A. f_equal. apply op2_comm.
    - cbn [inferred]. rewrite <- Kn. destruct F as ((Fx & Fc1 & _ & Ty) & (Fy & Fc2 & _ & _) & A & _).
      split; [apply build_inferred; auto|]. split; [apply build_inferred; auto|]. auto.
    - cbn in I |- *. tauto.
  Qed.

  Lemma rd_const s d idx : rd t env (Const s d) idx = (v <- elem s d (bindex s idx) ;; Some (wrap t v)).
  Proof. reflexivity. Qed.

  Lemma keeps_fold o s1 d1 s2 d2 T e' : let e := TBin o (Const s1 d1) (Const s2 d2) T in
    inferred t e -> inputsOK t env e -> modularBin o = true -> combine o t s1 d1 s2 d2 T = Some e' -> keeps e e'.
  Proof.
    intros e F I M C. unfold combine in C. apply obind_some in C as (s & Hs & C).
    apply obind_some in C as (d & Hd & C). injection C as <-.
    apply getShape_some in Hs. subst T.
    destruct F as ((Ok1 & D1) & (Ok2 & D2) & [A|A] & Ty); [discriminate|].
    unfold e in A. rewrite bin_known in A. cbn [known] in A. rewrite known_consts in A.
    destruct (bshape s1 s2) as [s'|] eqn:B; cbn in A; [|discriminate].
    assert (s' = s) as ->.
    { injection A as A. clear - A. revert s' A. induction s; destruct s'; cbn; intros A; try discriminate; auto.
      injection A as -> A. f_equal; auto. }
    pose proof (bshape_ok _ _ _ Ok1 Ok2 B) as Ok. apply mapM_spec in Hd.
    assert (is_data s d) as Dd.
    { unfold is_data. rewrite <- (indices_length s Ok). f_equal. symmetry. eapply F2len; eauto. }
    unfold keeps. split; [|split; [|split; cbn; auto]].
    - split; [cbn; rewrite B; reflexivity|]. intros s0 idx S V. unfold e in S. cbn in S. rewrite B in S. injection S as <-.
      unfold e. cbn [valueAt shapeOf obind].
      pose proof (indices_nth s idx V) as Nt. pose proof (rm_bound _ _ V).
      rewrite zget_nth in Nt by lia. destruct (Forall2_nth _ _ _ Hd _ _ Nt) as (r & Er & Fr).
      apply obind_some in Fr as (a & Ea & Fr). apply obind_some in Fr as (b & Eb & Fr).
      rewrite Ea, Eb. cbn [obind].
      unfold elem at 1. rewrite rowmajor_rm by (apply valid_length; auto). rewrite zget_nth by lia. rewrite Er. cbn [obind].
      apply fold_bin; auto.
    - unfold e. rewrite bin_known. cbn [known]. rewrite known_consts, B. reflexivity.
  Qed.

  Lemma transform_keeps o s d e' : okshape s -> is_data s d -> modularUn o = true -> tyUn o t = Some t ->
    transform o t s d = Some e' ->
    exists d', e' = Const s d' /\ is_data s d' /\
      forall idx, valid s idx -> valueAt t env e' idx = op1 t o (valueAt t env (Const s d) idx).
  Proof.
    intros Ok Dd M Ty C. unfold transform in C. apply obind_some in C as (d' & Hd & C). injection C as <-.
    apply mapM_spec in Hd. pose proof (F2len _ _ _ Hd) as L. exists d'. split; auto. split; [unfold is_data in *; lia|].
    intros idx V. cbn [valueAt]. destruct (is_data_elem s d idx Dd V) as (v & Ev).
    rewrite Ev. unfold elem in Ev |- *. pose proof (rowmajor_bound _ _ V).
    rewrite zget_nth in * by lia. destruct (Forall2_nth _ _ _ Hd _ _ Ev) as (r & Er & Fr). rewrite Er. cbn [obind op1].
    symmetry. apply fold_un; auto.
  Qed.

  Lemma keeps_un o s d T e' : let e := TUn o (Const s d) T in
    inferred t e -> inputsOK t env e -> modularUn o = true -> transform o t s d = Some e' -> keeps e e'.
  Proof.
    intros e F I M C. destruct F as ((Ok & Dd) & A & Ty).
    destruct (transform_keeps o s d e' Ok Dd M Ty C) as (d' & -> & D' & V').
    split; [|cbn; auto]. split; auto. intros s0 idx S V. cbn in S. injection S as <-. rewrite V' by auto. reflexivity.
  Qed.

  Lemma keeps_neutral o x s d T : let e := TBin (neutralBin o) x (Const s d) T in
    inferred t e -> inputsOK t env e -> ann e <> None -> T = ann x -> constOf t (neutralVal o) d = true -> keeps e x.
  Proof.
    intros e F I Rk Tx C. cbn [ann e] in Rk.
    destruct F as (Fx & (Ok & Dd) & [A|A] & Ty); [contradiction|].
    destruct (annOK x Fx) as [B|B]; [congruence|].
    unfold e in A. rewrite bin_known in A. cbn [known] in A.
    assert (known x = knownShape (known x) (Some (map Some s))) as Kx by congruence.
    assert (shapeOf env x = shapeOf env e) as Sx.
    { unfold e. rewrite bin_shape. cbn [shapeOf]. destruct (shapeOf env x) as [sx|] eqn:Hx; cbn [obs obind]; auto.
      destruct I as [I _]. pose proof (known_conforms t env x sx I Hx) as Cf.
      destruct (known x) as [K|] eqn:EK; [|congruence]. cbn in Cf, Kx.
      symmetry in Kx. apply obind_some in Kx as (r & Hr & Er). injection Er as Er.
      assert (r = rev K) as -> by (rewrite <- Er, rev_involutive; auto).
      rewrite <- map_rev in Hr. apply (Forall2_rev' confDim) in Cf.
      unfold bshape. rewrite (neutral_shape (rev K) (rev sx) (rev s)); auto. cbn. rewrite rev_involutive. reflexivity. }
    split; [|split; [unfold e; rewrite bin_known; auto | split; [auto | apply I]]].
    split; auto. intros s0 idx S V. rewrite <- Sx in S.
    assert (valueAt t env e idx = op2 t (neutralBin o) (rd t env x idx) (rd t env (Const s d) idx)) as Ev.
    { rewrite (rd_self t env e s0) by (auto; congruence). unfold e in *. apply okAt_rd. exists s0.
      pose proof (valid_length _ _ V). split; [congruence | lia]. }
    rewrite Ev, rd_const, <- (rd_self t env x s0) by auto.
    assert (bshape s0 s = Some s0) as Bs.
    { pose proof Sx as Sx'. unfold e in Sx'. rewrite bin_shape, S in Sx'. cbn [shapeOf obs obind] in Sx'. auto. }
    rewrite bshape_comm in Bs. pose proof (bindex_valid' _ _ _ _ Bs V) as Vb.
    destruct (is_data_elem s d _ Dd Vb) as (v & Hv). rewrite Hv. cbn [obind].
    assert (wrap t v = neutralVal o) as ->.
    { unfold elem in Hv. pose proof (rowmajor_bound _ _ Vb). rewrite zget_nth in Hv by lia. apply nth_error_In in Hv.
      unfold constOf in C. rewrite forallb_forall in C. specialize (C v Hv). apply Z.eqb_eq in C.
      rewrite !narrow_wrap in C by exact W. rewrite <- C. apply wrap_id; [exact W|].
      pose proof (widthOK_range _ W).
      assert (2 ^ 7 <= 2 ^ (w - 1)) by (apply Z.pow_le_mono_r; lia).
      assert (2 ^ 8 <= 2 ^ w) by (apply Z.pow_le_mono_r; lia).
      unfold t. destruct sg, o; cbn; lia. }
    destruct (valueAt t env x idx) as [u|] eqn:Eu; cbn [obind op2]; auto.
    apply (op2_neutral sg w W). eapply (value_range x); eauto. apply I.
  Qed.

  Lemma keeps_sub x s d T c : let e := TBin Sub x (Const s d) T in
    inferred t e -> inputsOK t env e -> transform Neg t s d = Some c -> keeps e (TBin Add x c T).
  Proof.
    intros e F I C. destruct F as (Fx & (Ok & Dd) & A & Ty).
    destruct (transform_keeps Neg s d c Ok Dd eq_refl eq_refl C) as (d' & -> & D' & V').
    apply keeps_tree; auto.
    - intros s0 idx S V K K'. unfold e in *. reads. etransitivity; [apply (op2_sub sg w W)|]. fold t. f_equal.
      rewrite !rd_const. rewrite bin_shape in S. cbn [shapeOf] in S.
      apply obind_some in S as (sx & Sx & S). cbn [obind] in S. rewrite bshape_comm in S.
      pose proof (bindex_valid' _ _ _ _ S V) as Vb. specialize (V' _ Vb). cbn [valueAt] in V'. auto.
    - cbn in A |- *. auto.
  Qed.

  Lemma keeps_root p e e' : inferred t e -> inputsOK t env e -> modularPattern p ->
    (forall o, p = NeutralOnRhs o -> ann e <> None) -> rewriteRoot t bound p e = Some e' -> keeps e e'.
  Proof.
    intros F I M Rk R. destruct p as [o|o|o|o|o|o|o|o|]; destruct e as [n T|s d|u a T|b a1 a2 T];
      try discriminate R.
    - cbn [rewriteRoot] in R. match type of R with (if ?c then _ else _) = _ => destruct c eqn:C end; [|discriminate].
      injection R as <-. conds. apply keeps_comm; auto.
    - destruct a1 as [| | |o2 x c1 T1]; try discriminate R. cbn [rewriteRoot] in R.
      match type of R with (if ?c then _ else _) = _ => destruct c eqn:C end; [|discriminate].
      injection R as <-. conds. eapply keeps_assoc1; eauto.
    - destruct a1 as [| | |o2 x c1 T1]; try discriminate R. cbn [rewriteRoot] in R.
      match type of R with (if ?c then _ else _) = _ => destruct c eqn:C end; [|discriminate].
      injection R as <-. conds. eapply keeps_assoc2; eauto.
    - destruct a2 as [| | |o2 y c T1]; try discriminate R. cbn [rewriteRoot] in R.
      match type of R with (if ?c then _ else _) = _ => destruct c eqn:C end; [|discriminate].
      injection R as <-. conds. eapply keeps_assoc3; eauto.
    - destruct a1 as [| | |o2 x c1 T1]; try discriminate R. destruct a2 as [| | |o3 y c2 T2]; try discriminate R.
      cbn [rewriteRoot] in R.
      match type of R with (if ?c then _ else _) = _ => destruct c eqn:C end; [|discriminate].
      injection R as <-. conds. eapply keeps_assoc4; eauto.
    - destruct a1 as [|s1 d1| |]; try discriminate R. destruct a2 as [|s2 d2| |]; try discriminate R.
      cbn [rewriteRoot] in R. destruct (binEqb b o) eqn:C; [|discriminate]. conds.
      apply obind_some in R as (ok & _ & R). destruct ok; [|discriminate]. eapply keeps_fold; eauto.
    - destruct a2 as [|s2 d2| |]; try discriminate R. cbn [rewriteRoot] in R.
      match type of R with (if ?c then _ else _) = _ => destruct c eqn:C end; [|discriminate].
      injection R as <-. conds. eapply keeps_neutral; eauto using styEqb_eq.
    - destruct a as [|s1 d1| |]; try discriminate R. cbn [rewriteRoot] in R.
      destruct (unEqb u o) eqn:C; [|discriminate]. conds. eapply keeps_un; eauto.
    - destruct a2 as [|s2 d2| |]; try discriminate R. cbn [rewriteRoot] in R.
      match type of R with (if ?c then _ else _) = _ => destruct c eqn:C end; [|discriminate].
      apply obind_some in R as (c & Hc & R). injection R as <-. conds. apply (keeps_sub a1 s2 d2); auto.
  Qed.

  Lemma keeps_ctx_un o e e' T : inferred t (TUn o e T) -> keeps e e' -> keeps (TUn o e T) (TUn o e' T).
  Proof.
    intros F ((S & V) & Kn & F' & I'). unfold keeps. cbn [known inferred inputsOK]. rewrite <- Kn. cbn in F.
    split; [|tauto]. split; [exact S|]. intros s idx Hs Vi. cbn [valueAt]. rewrite (V s idx); auto.
  Qed.

  Lemma keeps_ctx_bin o a b a' b' T : inferred t (TBin o a b T) -> keeps a a' -> keeps b b' ->
    keeps (TBin o a b T) (TBin o a' b' T).
  Proof.
    intros F ((S1 & V1) & K1 & F1 & I1) ((S2 & V2) & K2 & F2 & I2).
    unfold keeps. cbn [known inferred inputsOK]. rewrite <- K1, <- K2. cbn in F.
    split; [|tauto]. split; [cbn; rewrite S1, S2; reflexivity|].
    intros s idx Hs Vi. cbn [valueAt]. rewrite <- S1, <- S2. cbn [shapeOf] in Hs.
    apply obind_some in Hs as (s1 & H1 & Hs). apply obind_some in Hs as (s2 & H2 & Hs).
    rewrite H1, H2. cbn [obind]. rewrite (V1 s1) by (auto; eapply bindex_valid'; eauto).
    rewrite bshape_comm in Hs. rewrite (V2 s2) by (auto; eapply bindex_valid'; eauto). reflexivity.
  Qed.

  Lemma keeps_refl e : inferred t e -> inputsOK t env e -> keeps e e.
  Proof. intros. split; [split|]; auto. Qed.

  Lemma keeps_trans a b c : keeps a b -> keeps b c -> keeps a c.
  Proof.
    intros ((S1 & V1) & K1 & _ & _) ((S2 & V2) & K2 & F & I). split; [split|]; [congruence| |split; [congruence|auto]].
    intros s idx Hs V. rewrite (V1 s idx), (V2 s idx); auto. congruence.
  Qed.

  Lemma keeps_at : forall path p e e', inferred t e -> inputsOK t env e -> modularPattern p ->
    rankedRemoval path p e -> rewriteAt t bound path p e = Some e' -> keeps e e'.
  Proof.
    induction path as [|d path IH]; intros p e e' F I M Rk R.
    - cbn in R. apply (keeps_root p); auto. intros o ->. cbn in Rk. auto.
    - cbn in R. destruct e as [n T|s dd|o e1 T|o e1 e2 T], d; try discriminate R;
        apply obind_some in R as (e1' & R1 & R); injection R as <-.
      + apply keeps_ctx_un; auto. destruct F. apply (IH p); auto.
      + destruct F as (F1 & F2 & F'). destruct I as (I1 & I2).
        apply keeps_ctx_bin; [cbn; auto | apply keeps_refl; auto|]. apply (IH p); auto.
      + destruct F as (F1 & F2 & F'). destruct I as (I1 & I2).
        apply keeps_ctx_bin; [cbn; auto | | apply keeps_refl; auto]. apply (IH p); auto.
  Qed.

  Theorem keeps_rewrites : forall h e e', inferred t e -> inputsOK t env e ->
    Forall (fun r => modularPattern (snd r)) h -> rankedRemovals t bound h e ->
    rewrites t bound h e = Some e' -> keeps e e'.
  Proof.
    induction h as [|[path p] h IH]; intros e e' F I M Rk R; cbn in R.
    - injection R as <-. apply keeps_refl; auto.
    - apply obind_some in R as (e1 & R1 & R). inversion M; subst. destruct Rk as [Rk1 Rk2].
      assert (keeps e e1) as K by (apply (keeps_at path p); auto).
      eapply keeps_trans; eauto. apply IH; auto; apply K.
  Qed.
End Root.

(** ** Programs with static types *)

Section Static.
  Variables (sg : bool) (w : Z) (bound : Z).
  Hypothesis W : widthOK w.
  Let t := TInt sg w.

  Lemma static_ann e : allStatic e -> static (ann e).
  Proof. destruct e; cbn; try tauto. intros _. apply (static_const s). Qed.

  Lemma static_known : forall e, allStatic e -> inferred t e -> static (known e) /\ ann e = known e.
  Proof.
    intros e S F. pose proof (static_ann e S) as Sa.
    destruct (annOK sg w (fun _ => mkTensor [] (fun _ => 0)) e F) as [A|A]; [rewrite A in Sa; contradiction|]. rewrite <- A. auto.
  Qed.

  (** Operands of a chain with a known static type can be built. *)
  Lemma static_build o a b : allStatic a -> allStatic b -> inferred t a -> inferred t b ->
    knownShape (known a) (known b) <> None -> allStatic (build o a b).
  Proof.
    intros Sa Sb Fa Fb N. unfold build. cbn [allStatic]. split; [auto|]. split; [auto|].
    destruct (static_known a Sa Fa) as [Ka Aa]. destruct (static_known b Sb Fb) as [Kb Ab].
    rewrite buildType_static; rewrite ?Aa, ?Ab; auto.
    destruct (knownShape (known a) (known b)) as [ds|] eqn:E; [|congruence].
    eapply knownShape_static; [| |exact E]; auto.
  Qed.

  Lemma ks_none_l T : knownShape None T = None.
  Proof. reflexivity. Qed.
  Lemma ks_none_r T : knownShape T None = None.
  Proof. destruct T; reflexivity. Qed.

  Lemma static_root p e e' : allStatic e -> inferred t e -> rewriteRoot t bound p e = Some e' -> allStatic e'.
  Proof.
    intros S F R. pose proof (static_known e S F) as [SK _].
    destruct p as [o|o|o|o|o|o|o|o|]; destruct e as [n T|s d|u a T|b a1 a2 T];
      try discriminate R.
    - cbn [rewriteRoot] in R. match type of R with (if ?c then _ else _) = _ => destruct c eqn:C end; [|discriminate].
      injection R as <-. cbn in *. tauto.
    - destruct a1 as [| | |o2 x c1 T1]; try discriminate R. cbn [rewriteRoot] in R.
      match type of R with (if ?c then _ else _) = _ => destruct c eqn:C end; [|discriminate].
      injection R as <-. destruct S as ((Sx & Sc1 & _) & Sc2 & ST). destruct F as ((Fx & Fc1 & _) & Fc2 & _).
      cbn [allStatic]. split; [auto|]. split; [|auto]. apply static_build; auto.
      intros E. rewrite bin_known, bin_known, knownShape_assoc, E, ks_none_r in SK. exact SK.
    - destruct a1 as [| | |o2 x c1 T1]; try discriminate R. cbn [rewriteRoot] in R.
      match type of R with (if ?c then _ else _) = _ => destruct c eqn:C end; [|discriminate].
      injection R as <-. destruct S as ((Sx & Sc1 & _) & Sc2 & ST). destruct F as ((Fx & Fc1 & _) & Fc2 & _).
      cbn [allStatic]. split; [|auto]. apply static_build; auto.
      intros E. rewrite bin_known, bin_known, knownShape_assoc, (knownShape_comm (known c1)), <- knownShape_assoc, E in SK. exact SK.
    - destruct a2 as [| | |o2 y c T1]; try discriminate R. cbn [rewriteRoot] in R.
      match type of R with (if ?c then _ else _) = _ => destruct c eqn:C end; [|discriminate].
      injection R as <-. destruct S as (Sx & (Sy & Sc & _) & ST). destruct F as (Fx & (Fy & Fc & _) & _).
      cbn [allStatic]. split; [|auto]. apply static_build; auto.
      intros E. rewrite bin_known, bin_known, <- knownShape_assoc, E in SK. exact SK.
    - destruct a1 as [| | |o2 x c1 T1]; try discriminate R. destruct a2 as [| | |o3 y c2 T2]; try discriminate R.
      cbn [rewriteRoot] in R.
      match type of R with (if ?c then _ else _) = _ => destruct c eqn:C end; [|discriminate].
      injection R as <-. destruct S as ((Sx & Sc1 & _) & (Sy & Sc2 & _) & ST).
      destruct F as ((Fx & Fc1 & _) & (Fy & Fc2 & _) & _).
      rewrite !bin_known in SK.
      assert (forall a b c d, knownShape (knownShape a b) (knownShape c d) = knownShape (knownShape a c) (knownShape b d)) as Sw.
      { clear. intros. rewrite !knownShape_assoc. f_equal. rewrite <- !knownShape_assoc. f_equal. apply knownShape_comm. }
      rewrite Sw in SK.
      cbn [allStatic]. split; [|split; [|auto]]; apply static_build; auto; intros E; rewrite E in SK.
      + exact SK.
      + rewrite ks_none_r in SK. exact SK.
    - destruct a1 as [|s1 d1| |]; try discriminate R. destruct a2 as [|s2 d2| |]; try discriminate R.
      cbn [rewriteRoot] in R. destruct (binEqb b o) eqn:C; [|discriminate].
      apply obind_some in R as (ok & _ & R). destruct ok; [|discriminate]. unfold combine in R.
      apply obind_some in R as (s & _ & R). apply obind_some in R as (d & _ & R). injection R as <-. exact Logic.I.
    - destruct a2 as [|s2 d2| |]; try discriminate R. cbn [rewriteRoot] in R.
      match type of R with (if ?c then _ else _) = _ => destruct c eqn:C end; [|discriminate].
      injection R as <-. apply S.
    - destruct a as [|s1 d1| |]; try discriminate R. cbn [rewriteRoot] in R.
      destruct (unEqb u o) eqn:C; [|discriminate]. unfold transform in R.
      apply obind_some in R as (d & _ & R). injection R as <-. exact Logic.I.
    - destruct a2 as [|s2 d2| |]; try discriminate R. cbn [rewriteRoot] in R.
      match type of R with (if ?c then _ else _) = _ => destruct c eqn:C end; [|discriminate].
      apply obind_some in R as (c & Hc & R). injection R as <-. unfold transform in Hc.
      apply obind_some in Hc as (d & _ & Hc). injection Hc as <-. cbn in *. tauto.
  Qed.

  Lemma static_at : forall path p e e', allStatic e -> inferred t e -> rewriteAt t bound path p e = Some e' -> allStatic e'.
  Proof.
    induction path as [|d path IH]; intros p e e' S F R.
    - cbn in R. eapply static_root; eauto.
    - cbn in R. destruct e as [n T|s dd|o e1 T|o e1 e2 T], d; try discriminate R;
        apply obind_some in R as (e1' & R1 & R); injection R as <-; cbn in S, F |- *.
      + split; [|tauto]. eapply IH; [| |exact R1]; tauto.
      + split; [tauto|]. split; [|tauto]. eapply IH; [| |exact R1]; tauto.
      + split; [|tauto]. eapply IH; [| |exact R1]; tauto.
  Qed.

  Lemma static_sub : forall path e e', allStatic e -> subAt path e = Some e' -> ann e' <> None.
  Proof.
    induction path as [|d path IH]; intros e e' S R; cbn in R.
    - injection R as <-. apply static_ann in S. intros E. rewrite E in S. exact S.
    - destruct e as [n T|s dd|o e1 T|o e1 e2 T], d; try discriminate R; cbn in S.
      + apply (IH e1); tauto.
      + apply (IH e2); tauto.
      + apply (IH e1); tauto.
  Qed.

  Lemma static_ranked : forall h e env, allStatic e -> inferred t e -> inputsOK t env e ->
    Forall (fun r => modularPattern (snd r)) h -> rankedRemovals t bound h e.
  Proof.
    induction h as [|[path p] h IH]; intros e env S F I M; cbn; auto. inversion M; subst.
    assert (rankedRemoval path p e) as Rk.
    { unfold rankedRemoval. destruct p; auto. intros e' Hs. eapply static_sub; eauto. }
    split; auto. intros e' R.
    assert (keeps sg w env e e') as (_ & _ & F' & I') by (eapply (keeps_at sg w bound W env path p); eauto).
    apply (IH e' env); auto. eapply static_at; eauto.
  Qed.
End Static.
