(** Lemmas for the constant-propagation rewrites: broadcasting as a
    commutative monoid, reading through nested broadcasts, element
    arithmetic. *)
From Coq Require Import ZArith List Bool Lia.
From Verif Require Import Util TensorSpec TensorLemmas BroadcastSpec BroadcastFlat
  FoldSpec FoldModel FoldProofs RewriteSpec RewriteModel.
Import ListNotations.
Open Scope Z_scope.

(** ** Broadcasting *)

Lemma obind_some {A B} (o : option A) (f : A -> option B) b :
  obind o f = Some b -> exists a, o = Some a /\ f a = Some b.
Proof. destruct o; cbn; intros H; [eauto | discriminate]. Qed.

Section ZipLong.
  Context {A : Type} (f : A -> A -> option A).
  Hypothesis fc : forall a b, f a b = f b a.
  Hypothesis fa : forall a b c, (d <- f a b ;; f d c) = (d <- f b c ;; f a d).

  Lemma zl_comm : forall l m, zipLong f l m = zipLong f m l.
  Proof.
    induction l as [|a l IH]; intros [|b m]; cbn; auto.
    rewrite fc, IH. reflexivity.
  Qed.

  Lemma zl_nil_r : forall l, zipLong f l [] = Some l.
  Proof. destruct l; reflexivity. Qed.

  Lemma zl_assoc : forall l m n,
    (d <- zipLong f l m ;; zipLong f d n) = (d <- zipLong f m n ;; zipLong f l d).
  Proof.
    induction l as [|a l IH]; intros m n.
    - cbn. destruct (zipLong f m n); reflexivity.
    - destruct m as [|b m]; [cbn; destruct n; reflexivity|].
      destruct n as [|c n].
      + cbn [zipLong obind]. destruct (f a b) as [d|]; cbn [obind]; [|reflexivity].
        destruct (zipLong f l m); reflexivity.
      + transitivity (d <- (d <- f a b ;; f d c) ;; r <- (x <- zipLong f l m ;; zipLong f x n) ;; Some (d :: r)).
        * cbn [zipLong]. destruct (f a b); cbn [obind]; auto.
          destruct (zipLong f l m); cbn [obind zipLong]; auto.
          destruct (f a0 c); reflexivity.
        * rewrite fa, IH. cbn [zipLong]. destruct (f b c) as [bc|]; cbn [obind]; auto.
          destruct (zipLong f m n); cbn [obind zipLong]; auto.
          destruct (f a bc); reflexivity.
  Qed.
End ZipLong.

Lemma bsize_comm a b : bsize a b = bsize b a.
Proof. unfold bsize. destruct (Z.eqb_spec a 1), (Z.eqb_spec b 1), (Z.eqb_spec a b), (Z.eqb_spec b a); subst; auto; lia. Qed.

Lemma bsize_assoc a b c : (d <- bsize a b ;; bsize d c) = (d <- bsize b c ;; bsize a d).
Proof.
  unfold bsize.
  repeat (cbn [obind]; match goal with
  | |- context [?x =? ?y] => destruct (Z.eqb_spec x y); subst; try lia; try congruence
  end); reflexivity.
Qed.

Lemma knownDim_comm a b : knownDim a b = knownDim b a.
Proof. destruct a, b; cbn; auto. rewrite bsize_comm. reflexivity. Qed.

Lemma knownDim_assoc a b c : (d <- knownDim a b ;; knownDim d c) = (d <- knownDim b c ;; knownDim a d).
Proof.
  destruct a as [a|], b as [b|], c as [c|]; cbn; unfold bsize;
  repeat (cbn [obind knownDim]; unfold bsize; match goal with
  | |- context [?x =? ?y] => destruct (Z.eqb_spec x y); subst; try lia; try congruence
  end); reflexivity.
Qed.

Lemma bshape_comm a b : bshape a b = bshape b a.
Proof. unfold bshape. rewrite (zl_comm _ bsize_comm). reflexivity. Qed.

Lemma bshape_assoc a b c : (d <- bshape a b ;; bshape d c) = (d <- bshape b c ;; bshape a d).
Proof.
  unfold bshape. pose proof (zl_assoc _ bsize_assoc (rev a) (rev b) (rev c)) as H.
  destruct (zipLong bsize (rev a) (rev b)), (zipLong bsize (rev b) (rev c)); cbn [obind] in *;
  rewrite ?rev_involutive; first [rewrite H; reflexivity | rewrite <- H; reflexivity | reflexivity].
Qed.

Lemma knownShape_comm a b : knownShape a b = knownShape b a.
Proof. destruct a, b; cbn; auto. rewrite (zl_comm _ knownDim_comm). reflexivity. Qed.

Lemma knownShape_assoc a b c : knownShape (knownShape a b) c = knownShape a (knownShape b c).
Proof.
  destruct a as [a|], b as [b|], c as [c|]; cbn; auto.
  - pose proof (zl_assoc _ knownDim_assoc (rev a) (rev b) (rev c)) as H.
    destruct (zipLong knownDim (rev a) (rev b)), (zipLong knownDim (rev b) (rev c)); cbn [obind knownShape] in *; unfold knownShape;
    rewrite ?rev_involutive; first [rewrite H; reflexivity | rewrite <- H; reflexivity | reflexivity].
  - destruct (zipLong knownDim (rev a) (rev b)); reflexivity.
Qed.

(** Shape of three operands in terms of two. *)
Definition obs (a b : option (list Z)) : option (list Z) := s1 <- a ;; s2 <- b ;; bshape s1 s2.

Lemma obs_comm a b : obs a b = obs b a.
Proof. destruct a, b; cbn; auto using bshape_comm. Qed.

Lemma obs_assoc a b c : obs (obs a b) c = obs a (obs b c).
Proof.
  destruct a as [a|], b as [b|]; cbn; auto. destruct c as [c|]; cbn.
  - pose proof (bshape_assoc a b c) as H. destruct (bshape a b), (bshape b c); cbn in *; auto.
  - destruct (bshape a b); reflexivity.
Qed.

(** ** Reading through nested broadcasts *)

Fixpoint rbi (s idx : list Z) : list Z :=
  match s, idx with
  | d :: s', i :: idx' => (if d =? 1 then 0 else i) :: rbi s' idx'
  | _, _ => []
  end.

Lemma rbi_app : forall s idx s2 idx2, length s = length idx ->
  rbi (s ++ s2) (idx ++ idx2) = rbi s idx ++ rbi s2 idx2.
Proof. induction s; destruct idx; cbn; intros; try lia; auto. f_equal; auto. Qed.

Lemma rbi_skip : forall s idx ex, length s = length idx -> rbi s (idx ++ ex) = rbi s idx.
Proof. intros. rewrite <- (app_nil_r s) at 1. rewrite rbi_app; auto. cbn. rewrite app_nil_r. reflexivity. Qed.

Lemma map2_rbi : forall s idx, length s = length idx ->
  map2 (fun d i => if d =? 1 then 0 else i) s idx = rev (rbi (rev s) (rev idx)).
Proof.
  induction s as [|d s IH]; destruct idx as [|i idx]; cbn; intros; try lia; auto.
  rewrite rbi_app by (rewrite !rev_length; lia). rewrite rev_app_distr. cbn.
  f_equal. apply IH. lia.
Qed.

Lemma bindex_rbi : forall s idx, (length s <= length idx)%nat ->
  bindex s idx = rev (rbi (rev s) (rev idx)).
Proof.
  intros s idx H. unfold bindex.
  rewrite map2_rbi by (rewrite skipn_length; lia). f_equal.
  transitivity (rbi (rev s) (rev (firstn (length idx - length s) idx ++ skipn (length idx - length s) idx)));
    [|rewrite firstn_skipn; reflexivity].
  rewrite rev_app_distr, rbi_skip; [reflexivity|].
  rewrite !rev_length, skipn_length. lia.
Qed.

Lemma rbi_length : forall s idx, (length s <= length idx)%nat -> length (rbi s idx) = length s.
Proof. induction s; destruct idx; cbn; intros; try lia. rewrite IHs; lia. Qed.

Lemma rbi_through : forall a b s idx, zipLong bsize a b = Some s -> (length s <= length idx)%nat ->
  rbi a (rbi s idx) = rbi a idx.
Proof.
  induction a as [|x a IH]; intros b s idx H L; [reflexivity|].
  destruct b as [|y b].
  - cbn in H. injection H as <-. clear IH.
    revert x idx L; induction a as [|z a IHa]; intros x [|i idx] L; cbn in *; try lia.
    + destruct (x =? 1); reflexivity.
    + f_equal; [destruct (x =? 1); reflexivity|]. apply IHa. cbn; lia.
  - cbn in H. apply obind_some in H as (d & Hd & H). apply obind_some in H as (r & Hr & H).
    injection H as <-. destruct idx as [|i idx]; [cbn in L; lia|]. cbn in L.
    cbn. f_equal; [|apply (IH b); auto; lia].
    destruct (Z.eqb_spec x 1) as [|Nx]; auto. unfold bsize in Hd. destruct (Z.eqb_spec x 1); [lia|].
    assert (d = x) as -> by (destruct (y =? 1); [congruence|]; destruct (x =? y); congruence).
    destruct (Z.eqb_spec x 1); [lia|reflexivity].
Qed.

Lemma zl_length_l {A} (f : A -> A -> option A) : forall a b s, zipLong f a b = Some s -> (length a <= length s)%nat.
Proof.
  induction a as [|x a IH]; intros b s H; [cbn; lia|]. destruct b as [|y b].
  - cbn in H. injection H as <-. lia.
  - cbn in H. apply obind_some in H as (d & Hd & H). apply obind_some in H as (r & Hr & H). injection H as <-.
    cbn. apply IH in Hr. lia.
Qed.

Lemma bshape_length : forall a b s, bshape a b = Some s -> (length a <= length s)%nat.
Proof.
  unfold bshape. intros a b s H. apply obind_some in H as (r & Hr & H). injection H as <-.
  apply zl_length_l in Hr. rewrite !rev_length in *. auto.
Qed.

Lemma bindex_through : forall a b s idx, bshape a b = Some s -> (length s <= length idx)%nat ->
  bindex a (bindex s idx) = bindex a idx.
Proof.
  intros a b s idx H L. pose proof (bshape_length _ _ _ H) as La.
  unfold bshape in H. apply obind_some in H as (r & Hr & H). injection H as <-.
  rewrite rev_length in *.
  assert (length (bindex (rev r) idx) = length r) as Lb.
  { rewrite bindex_rbi by (rewrite rev_length; auto). rewrite rev_length, rev_involutive, rbi_length; auto.
    rewrite rev_length; auto. }
  rewrite !(bindex_rbi a) by lia. f_equal.
  rewrite bindex_rbi by (rewrite rev_length; auto). rewrite !rev_involutive.
  eapply rbi_through; eauto. rewrite rev_length; auto.
Qed.

Lemma bindex_self : forall s idx, valid s idx -> bindex s idx = idx.
Proof.
  intros s idx V. unfold bindex. rewrite (valid_length _ _ V), Nat.sub_diag. cbn [skipn].
  apply bident; auto.
Qed.

(** Valid indices stay valid for the operand. *)
Lemma rbi_valid : forall a b s idx, zipLong bsize a b = Some s ->
  Forall2 (fun d i => 0 <= i < d) s idx -> Forall2 (fun d i => 0 <= i < d) a (rbi a idx).
Proof.
  induction a as [|x a IH]; intros b s idx H V; [constructor|].
  destruct b as [|y b].
  - cbn in H. injection H as <-. clear IH. revert idx V.
    generalize (x :: a) as l. induction l as [|z l IHl]; intros idx V; inversion V; subst; cbn; constructor; auto.
    destruct (Z.eqb_spec z 1); lia.
  - cbn in H. apply obind_some in H as (d & Hd & H). apply obind_some in H as (r & Hr & H). injection H as <-.
    inversion V as [|? i ? idx' Hi V']; subst. cbn. constructor; [|apply (IH b r); auto].
    unfold bsize in Hd. destruct (Z.eqb_spec x 1); [lia|].
    destruct (Z.eqb_spec y 1); [injection Hd as <-; auto|]. destruct (Z.eqb_spec x y); [injection Hd as <-; auto | discriminate].
Qed.

Lemma Forall2_rev' {A B} (R : A -> B -> Prop) : forall l m, Forall2 R l m -> Forall2 R (rev l) (rev m).
Proof. induction 1; cbn; auto. apply Forall2_app; auto. Qed.

Lemma bindex_valid' : forall a b s idx, bshape a b = Some s -> valid s idx -> valid a (bindex a idx).
Proof.
  intros a b s idx H V. pose proof (bshape_length _ _ _ H). pose proof (valid_length _ _ V).
  rewrite bindex_rbi by lia. unfold bshape in H. apply obind_some in H as (r & Hr & H'). injection H' as <-.
  unfold valid. rewrite <- (rev_involutive a) at 1. apply Forall2_rev'.
  eapply rbi_valid; eauto. rewrite <- (rev_involutive r). apply Forall2_rev'. auto.
Qed.

(** ** Reading an operand at an index of the result *)

Section Read.
  Variable t : ety.
  Variable env : nat -> tensor.

  Definition rd (e : texpr) (idx : index) : option Z :=
    s <- shapeOf env e ;; valueAt t env e (bindex s idx).

  Definition op2 (o : binop) (x y : option Z) : option Z := a <- x ;; b <- y ;; elemBin o t a b.
  Definition op1 (o : unop) (x : option Z) : option Z := a <- x ;; elemUn o t a.

  Lemma rd_bin : forall o a b T s idx, shapeOf env (TBin o a b T) = Some s -> (length s <= length idx)%nat ->
    rd (TBin o a b T) idx = op2 o (rd a idx) (rd b idx).
  Proof.
    intros o a b T s idx H L. unfold rd at 1. rewrite H. cbn [obind]. cbn in H.
    apply obind_some in H as (s1 & H1 & H). apply obind_some in H as (s2 & H2 & H).
    cbn [valueAt]. unfold rd, op2. rewrite H1, H2. cbn [obind].
    rewrite (bindex_through s1 s2 s), (bindex_through s2 s1 s); auto.
    rewrite bshape_comm; auto.
  Qed.

  Lemma rd_un : forall o a T idx, rd (TUn o a T) idx = op1 o (rd a idx).
  Proof. intros. unfold rd, op1. cbn. destruct (shapeOf env a); reflexivity. Qed.

  Lemma rd_self : forall e s idx, shapeOf env e = Some s -> valid s idx -> valueAt t env e idx = rd e idx.
  Proof. intros e s idx H V. unfold rd. rewrite H. cbn. rewrite bindex_self; auto. Qed.
End Read.

(** ** Element arithmetic *)

Section Elem.
  Variables (sg : bool) (w : Z).
  Hypothesis W : widthOK w.
  Let t := TInt sg w.

  Lemma wrap_l : forall f : Z -> Z -> Z, (forall a b c, eqm w a b -> eqm w (f a c) (f b c)) ->
    forall a b, wrap t (f (wrap t a) b) = wrap t (f a b).
  Proof. intros f Hf a b. apply wrap_resp, Hf, wrap_eqm; auto. Qed.

  Lemma add_l : forall a b, wrap t (wrap t a + b) = wrap t (a + b).
  Proof. intros. apply (wrap_l Z.add). intros; apply eqm_add; auto using eqm_refl. Qed.
  Lemma add_r : forall a b, wrap t (a + wrap t b) = wrap t (a + b).
  Proof. intros. rewrite Z.add_comm, add_l, Z.add_comm. reflexivity. Qed.
  Lemma mul_l : forall a b, wrap t (wrap t a * b) = wrap t (a * b).
  Proof. intros. apply (wrap_l Z.mul). intros; apply eqm_mul; auto using eqm_refl. Qed.
  Lemma mul_r : forall a b, wrap t (a * wrap t b) = wrap t (a * b).
  Proof. intros. rewrite Z.mul_comm, mul_l, Z.mul_comm. reflexivity. Qed.

  Lemma op2_comm : forall o x y, op2 t (opOf o) x y = op2 t (opOf o) y x.
  Proof.
    intros [] [x|] [y|]; cbn -[wrap]; auto.
    - rewrite (Z.add_comm x); reflexivity.
    - rewrite (Z.mul_comm x); reflexivity.
  Qed.

  Lemma op2_assoc : forall o x y z, op2 t (opOf o) (op2 t (opOf o) x y) z = op2 t (opOf o) x (op2 t (opOf o) y z).
  Proof.
    intros o [x|] [y|] [z|]; cbn -[wrap]; auto; destruct o; cbn -[wrap]; auto; f_equal; fold t.
    - rewrite add_l, add_r, Z.add_assoc. reflexivity.
    - rewrite mul_l, mul_r, Z.mul_assoc. reflexivity.
  Qed.

  Lemma op2_sub : forall x y, op2 t Sub x y = op2 t Add x (op1 t Neg y).
  Proof.
    intros [x|] [y|]; cbn -[wrap]; auto. fold t. f_equal. rewrite add_r. f_equal.
  Qed.

  Lemma op2_neutral : forall o x, inRange t x -> op2 t (neutralBin o) (Some x) (Some (neutralVal o)) = Some x.
  Proof.
    intros o x R. destruct o; cbn -[wrap]; fold t; f_equal.
    - rewrite Z.add_0_r. apply wrap_id; auto.
    - rewrite Z.sub_0_r. apply wrap_id; auto.
    - rewrite Z.mul_1_r. apply wrap_id; auto.
    - rewrite Z.quot_1_r. apply wrap_id; auto.
  Qed.

  Lemma range_bin : forall o a b v, tyBin o t = Some t -> elemBin o t a b = Some v -> inRange t v.
  Proof.
    unfold elemBin. intros o a b v H E. rewrite H in E. destruct (idealBin o a b); [|discriminate].
    injection E as <-. apply (wrap_range t); exact W.
  Qed.
  Lemma range_un : forall o a v, tyUn o t = Some t -> elemUn o t a = Some v -> inRange t v.
  Proof.
    unfold elemUn. intros o a v H E. rewrite H in E. injection E as <-. apply (wrap_range t); exact W.
  Qed.

  (** Folding the modular operators on wide numbers. *)
  Lemma i64_eqm : forall v r, i64 v = Some r -> eqm w r v.
  Proof. intros v r H. apply i64_inv in H as [-> _]. apply eqm_refl. Qed.
  Lemma u64_eqm : forall v, eqm w (u64 v) v.
  Proof.
    intros v. apply (eqm_le w 64); [pose proof (widthOK_range _ W); lia|]. apply u64_ok.
  Qed.

  Lemma fold_bin : forall o a b r, modularBin o = true -> foldBin o t a b = Some r ->
    elemBin o t (wrap t a) (wrap t b) = Some (wrap t r).
  Proof.
    intros o a b r M F. pose proof (widthOK_range _ W).
    pose proof (wrap_eqm sg w a W) as Ea. pose proof (wrap_eqm sg w b W) as Eb. fold t in Ea, Eb.
    unfold elemBin. unfold t in *.
    destruct o; try discriminate; cbn -[wrap] in F |- *; f_equal; apply wrap_resp.
    - eapply eqm_trans; [apply eqm_add; eauto|]. apply eqm_sym.
      destruct sg; [apply i64_eqm; auto | injection F as <-; apply u64_eqm].
    - eapply eqm_trans; [apply eqm_sub; eauto|]. apply eqm_sym.
      destruct sg; [apply i64_eqm; auto | injection F as <-; apply u64_eqm].
    - eapply eqm_trans; [apply eqm_mul; eauto|]. apply eqm_sym.
      destruct sg; [apply i64_eqm; auto | injection F as <-; apply u64_eqm].
    - injection F as <-. apply eqm_land; auto; lia.
    - injection F as <-. apply eqm_lor; auto; lia.
  Qed.

  Lemma fold_un : forall o a r, modularUn o = true -> tyUn o t = Some t -> foldUn o t a = Some r ->
    elemUn o t (wrap t a) = Some (wrap t r).
  Proof.
    intros o a r M Ty F. pose proof (widthOK_range _ W).
    pose proof (wrap_eqm sg w a W) as Ea. fold t in Ea.
    unfold elemUn. rewrite Ty. unfold t in *.
    destruct o; try discriminate; cbn -[wrap] in F |- *; f_equal; apply wrap_resp.
    - eapply eqm_trans; [apply eqm_opp; eauto|]. apply eqm_sym.
      destruct sg; [apply i64_eqm; auto | injection F as <-; apply u64_eqm].
    - eapply eqm_trans; [apply eqm_lnot; eauto|]. apply eqm_sym.
      destruct sg; injection F as <-; [apply eqm_refl | apply u64_eqm].
  Qed.
End Elem.
