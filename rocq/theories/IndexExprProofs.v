(** Soundness of index expressions in the lowering pass. *)
From Coq Require Import List ZArith Lia Bool Arith.
From Verif Require Import Util FloatDivModel FloatDivProofs IndexExprModel IndexExprSpec.
Import ListNotations.
Open Scope Z_scope.
Open Scope ie_scope.

Lemma aeval_app a : forall ds ss d s z, aeval ds ss a = Some z -> aeval (ds ++ d) (ss ++ s) a = Some z.
Proof.
  induction a; cbn [aeval]; intros ds ss d s w H; auto;
  try (rewrite nth_error_app1; auto; apply nth_error_Some; congruence);
  destruct (aeval ds ss a1) as [x1|] eqn:E1; cbn [obind] in H; try discriminate;
  destruct (aeval ds ss a2) as [x2|] eqn:E2; cbn [obind] in H; try discriminate;
  rewrite (IHa1 _ _ _ _ _ E1), (IHa2 _ _ _ _ _ E2); cbn [obind]; auto.
Qed.
Lemma mapO_Forall2 {A B} (f : A -> option B) l zs : mapO f l = Some zs <-> Forall2 (fun x y => f x = Some y) l zs.
Proof.
  split.
  - revert zs. induction l; intros zs H; cbn [mapO] in H; [injection H as <-; constructor|].
    destruct (f a) eqn:E; cbn [obind] in H; try discriminate. destruct (mapO f l); cbn [obind] in H; try discriminate.
    injection H as <-. constructor; auto.
  - induction 1; cbn [mapO]; auto. now rewrite H, IHForall2.
Qed.

Lemma Forall2_impl {A B} (P Q : A -> B -> Prop) l m : (forall x y, P x y -> Q x y) -> Forall2 P l m -> Forall2 Q l m.
Proof. intros H. induction 1; constructor; auto. Qed.

Section Proofs.
Variable simp : aexp -> option Z.
Hypothesis simp_sound : forall a c ds ss z, simp a = Some c -> aeval ds ss a = Some z -> z = c.
Variable ndebug : bool.
Variable env : nat -> Z.
Variable isdim : nat -> bool.

Definition ext (s t : scope) : Prop :=
  si t = si s /\ (exists d, dims t = dims s ++ d) /\ (exists d, syms t = syms s ++ d).
Lemma ext_refl s : ext s s.
Proof. split; [auto|]. split; exists []; now rewrite app_nil_r. Qed.
Lemma ext_trans s t u : ext s t -> ext t u -> ext s u.
Proof.
  intros (A1 & (d & A2) & (e & A3)) (B1 & (d' & B2) & (e' & B3)). split; [congruence|].
  rewrite B2, B3, A2, A3, <- !app_assoc. eauto.
Qed.
Definition inv (s : scope) : Prop :=
  si s = false /\ (forall n, In n (dims s) -> isdim n = true) /\ (forall n, In n (syms s) -> isdim n = false).
Definition asem (s : scope) (a : aexp) : option Z := aeval (map env (dims s)) (map env (syms s)) a.
Lemma asem_ext s t a z : ext s t -> asem s a = Some z -> asem t a = Some z.
Proof. intros (_ & (d & E1) & (e & E2)) H. unfold asem. rewrite E1, E2, !map_app. now apply aeval_app. Qed.

Definition vok (v : vexp) : Prop := match v with VBool _ | VInt _ => False | _ => True end.
Record den (s : scope) (p : bool) (e : IE) (z : Z) : Prop := {
  d_pred : isPred e = p;
  d_qm : isQM e = false;
  d_lit : literal e = true -> intLit e = z;
  d_val : exists v, val e = Some v /\ veval env v = Some z /\ (p = false -> vok v) /\
          (forall m ds ss l, v = VMinMax m ds ss l -> (exists d, dims s = ds ++ d) /\ (exists d, syms s = ss ++ d));
  d_aff : forall a, aff e = Some a -> asem s a = Some z;
  d_kind : literal e = false -> match kind e with
     | KAffine => aff e <> None
     | KDim => aff e = None /\ exists n, val e = Some (VLeaf n) /\ isdim n = true
     | KSymbol => aff e = None /\ exists n, val e = Some (VLeaf n) /\ isdim n = false
     | _ => True end;
  d_bool : p = true -> z = 0 \/ z = 1
}.
Lemma den_ext s t p e z : ext s t -> den s p e z -> den t p e z.
Proof.
  intros X []. constructor; auto.
  - destruct d_val0 as (v & E & V & O & MM). exists v. split; [auto|]. split; [auto|]. split; [auto|].
    intros m ds ss l Ev. destruct (MM m ds ss l Ev) as ((d & D1) & (e' & D2)). destruct X as (_ & (d' & X1) & (e2 & X2)).
    rewrite X1, X2, D1, D2, <- !app_assoc. eauto.
  - intros a Ha. eapply asem_ext; eauto.
Qed.

Definition wp {A} (s : scope) (m : M A) (P : scope -> A -> Prop) : Prop :=
  exists t r, m s = Some (t, r) /\ ext s t /\ inv t /\ P t r.
Lemma wp_ret {A} s (a : A) (P : scope -> A -> Prop) : inv s -> P s a -> wp s (ret a) P.
Proof. intros I H. exists s, a. split; [reflexivity|]. split; [apply ext_refl|]. auto. Qed.
Lemma wp_bind {A B} s (m : M A) (f : A -> M B) Q P : wp s m Q ->
  (forall t r, ext s t -> inv t -> Q t r -> wp t (f r) P) -> wp s (bind m f) P.
Proof.
  intros (t & r & E & X & I & H) K. destruct (K t r X I H) as (u & r' & E' & X' & I' & H').
  exists u, r'. split; [unfold bind; now rewrite E|]. split; [eapply ext_trans; eauto|]. auto.
Qed.
Lemma wp_mono {A} s (m : M A) (P Q : scope -> A -> Prop) : wp s m P -> (forall t r, ext s t -> P t r -> Q t r) -> wp s m Q.
Proof. intros (t & r & E & X & I & H) K. exists t, r. auto. Qed.
Lemma wp_isSI {B} s (f : bool -> M B) P : inv s -> wp s (f false) P -> wp s (x <-- isSI ;; f x) P.
Proof. intros I (t & r & E & H). exists t, r. split; auto. unfold bind, isSI. destruct I as (-> & _). exact E. Qed.
Lemma wp_getScope {B} s (f : scope -> M B) P : wp s (f s) P -> wp s (x <-- getScope ;; f x) P.
Proof. intros (t & r & E & H). exists t, r. split; auto. Qed.
Lemma wp_lift {A} s (o : option A) a (P : scope -> A -> Prop) : inv s -> o = Some a -> P s a -> wp s (lift o) P.
Proof. intros I -> H. now apply wp_ret. Qed.

Lemma wp_getValue s p e z : inv s -> den s p e z ->
  wp s (getValue e) (fun t v => t = s /\ val e = Some v /\ veval env v = Some z).
Proof.
  intros I D. destruct (d_val _ _ _ _ D) as (v & E & V & _). unfold getValue.
  eapply wp_bind with (Q := fun t o => t = s /\ o = Some v).
  - unfold getValueOpt. apply wp_isSI; auto. rewrite E. apply wp_ret; auto.
  - intros t r _ It (-> & ->). apply wp_ret; auto.
Qed.
Lemma wp_deepCopy s p e z : inv s -> den s p e z -> wp s (deepCopy e) (fun t r => t = s /\ r = e).
Proof.
  intros I D. destruct (d_val _ _ _ _ D) as (v & E & _). unfold deepCopy, init. rewrite E. apply wp_ret; auto.
  split; auto. rewrite <- E. now destruct e.
Qed.
Lemma wp_copy_den s p e z : inv s -> den s p e z -> wp s (deepCopy e) (fun t r => den t p r z).
Proof. intros I D. eapply wp_mono; [eapply wp_deepCopy; eauto|]. intros t r _ (-> & ->). auto. Qed.

Lemma wp_literal s z k : inv s -> (k = KAffine \/ k = KNonAffine \/ k = KDim \/ k = KSymbol) ->
  wp s (initAsLiteral z k) (fun t r => den t false r z).
Proof.
  intros I K. unfold initAsLiteral, init. apply wp_isSI; auto.
  eapply wp_bind with (Q := fun t o => t = s /\ o = Some (VIdx z)).
  - unfold getValueOpt. apply wp_isSI; auto. cbn [val literal]. apply wp_ret; auto. split; auto.
    unfold isPred. cbn [kind intLit]. destruct K as [->|[->|[->| ->]]]; reflexivity.
  - intros t r _ It (-> & ->). apply wp_ret; auto. constructor; cbn [literal intLit val aff kind]; try discriminate; auto.
    + unfold isPred. cbn [kind]. destruct K as [->|[->|[->| ->]]]; reflexivity.
    + unfold isQM. cbn [kind]. destruct K as [->|[->|[->| ->]]]; reflexivity.
    + exists (VIdx z). split; [auto|]. split; [auto|]. split; [simpl; auto|]. discriminate.
Qed.
Lemma wp_predlit s (b : bool) : inv s -> wp s (initAsLiteral (b2z b) KPred) (fun t r => den t true r (b2z b)).
Proof.
  intros I. unfold initAsLiteral, init. apply wp_isSI; auto.
  eapply wp_bind with (Q := fun t o => t = s /\ o = Some (VBool b)).
  - unfold getValueOpt. apply wp_isSI; auto. cbn [val literal]. apply wp_ret; auto. split; auto. destruct b; reflexivity.
  - intros t r _ It (-> & ->). apply wp_ret; auto. constructor; cbn [literal intLit val aff kind]; try discriminate; auto.
    + exists (VBool b). split; [auto|]. split; [auto|]. split; discriminate.
    + destruct b; auto.
Qed.

Definition mmok (s : scope) (v : vexp) : Prop :=
  forall m ds ss l, v = VMinMax m ds ss l -> (exists d, dims s = ds ++ d) /\ (exists d, syms s = ss ++ d).
(** a value of index type *)
Lemma wp_asKind s v z : inv s -> veval env v = Some z -> vok v -> mmok s v ->
  wp s (initAsKind v KNonAffine) (fun t r => den t false r z).
Proof.
  intros I V O MM. unfold initAsKind. destruct (getIntegerLiteralFromValue v) as [c|] eqn:G.
  - destruct v; try discriminate; try contradiction. injection G as <-. injection V as <-. apply wp_literal; auto.
  - apply wp_isSI; auto. unfold init. apply wp_ret; auto.
    constructor; cbn [literal intLit val aff kind]; try discriminate; auto. exists v. auto.
Qed.
Lemma wp_predKind s v z : inv s -> veval env v = Some z -> (z = 0 \/ z = 1) -> getIntegerLiteralFromValue v = None -> mmok s v ->
  wp s (initAsKind v KPred) (fun t r => den t true r z).
Proof.
  intros I V O G MM. unfold initAsKind. rewrite G. apply wp_isSI; auto. unfold init. apply wp_ret; auto.
  constructor; cbn [literal intLit val aff kind]; try discriminate; auto. exists v. split; [auto|]. split; [auto|]. split; [discriminate|auto].
Qed.
Lemma wp_leaf s n k : inv s -> (k = KNonAffine \/ k = KDim /\ isdim n = true \/ k = KSymbol /\ isdim n = false) ->
  wp s (initAsKind (VLeaf n) k) (fun t r => den t false r (env n)).
Proof.
  intros I K. unfold initAsKind. cbn [getIntegerLiteralFromValue]. apply wp_isSI; auto. unfold init. apply wp_ret; auto.
  constructor; cbn [literal intLit val aff kind]; try discriminate; auto.
  - unfold isPred; cbn [kind]; destruct K as [->|[[-> _]|[-> _]]]; reflexivity.
  - unfold isQM; cbn [kind]; destruct K as [->|[[-> _]|[-> _]]]; reflexivity.
  - exists (VLeaf n). split; [auto|]. split; [auto|]. split; [simpl; auto|]. discriminate.
  - intros _. destruct K as [->|[[-> ?]|[-> ?]]]; auto; split; auto; eauto.
Qed.

Lemma indexInList_spec l v : forall k, match indexInList l v k with
  | Some i => (k <= i)%nat /\ nth_error l (i - k) = Some v
  | None => ~ In v l end.
Proof.
  induction l as [|x l IH]; intros k; cbn [indexInList]; [intros []|].
  destruct (Nat.eqb_spec x v) as [->|N].
  - split; [lia|]. now rewrite Nat.sub_diag.
  - specialize (IH (S k)). destruct (indexInList l v (S k)) as [i|].
    + destruct IH as [L E]. split; [lia|]. replace (i - k)%nat with (S (i - S k)) by lia. exact E.
    + intros [?|?]; auto.
Qed.

Lemma wp_addDim s n : inv s -> isdim n = true -> wp s (addDim n) (fun t i => nth_error (dims t) i = Some n).
Proof.
  intros I D. destruct I as (I1 & I2 & I3). unfold wp, addDim. pose proof (indexInList_spec (syms s) n 0) as S1.
  destruct (indexInList (syms s) n 0) as [i|]. { destruct S1 as [_ S1]. apply nth_error_In, I3 in S1. congruence. }
  pose proof (indexInList_spec (dims s) n 0) as S2. destruct (indexInList (dims s) n 0) as [i|].
  - exists s, i. split; [reflexivity|]. split; [apply ext_refl|]. split; [now split|]. destruct S2 as [_ S2]. now rewrite Nat.sub_0_r in S2.
  - eexists _, _. split; [reflexivity|]. split; [|split].
    + split; [reflexivity|]. split; [eexists; reflexivity|]. exists []. now rewrite app_nil_r.
    + split; [auto|]. split; cbn [dims syms]; auto. intros m Hm. apply in_app_or in Hm as [?|[<-|[]]]; auto.
    + cbn [dims]. rewrite nth_error_app2 by lia. now rewrite Nat.sub_diag.
Qed.
Lemma wp_addSymbol s n : inv s -> isdim n = false -> wp s (addSymbol n) (fun t i => nth_error (syms t) i = Some n).
Proof.
  intros I D. destruct I as (I1 & I2 & I3). unfold wp, addSymbol. pose proof (indexInList_spec (dims s) n 0) as S1.
  destruct (indexInList (dims s) n 0) as [i|]. { destruct S1 as [_ S1]. apply nth_error_In, I2 in S1. congruence. }
  pose proof (indexInList_spec (syms s) n 0) as S2. destruct (indexInList (syms s) n 0) as [i|].
  - exists s, i. split; [reflexivity|]. split; [apply ext_refl|]. split; [now split|]. destruct S2 as [_ S2]. now rewrite Nat.sub_0_r in S2.
  - eexists _, _. split; [reflexivity|]. split; [|split].
    + split; [reflexivity|]. split; [|eexists; reflexivity]. exists []. now rewrite app_nil_r.
    + split; [auto|]. split; cbn [dims syms]; auto. intros m Hm. apply in_app_or in Hm as [?|[<-|[]]]; auto.
    + cbn [syms]. rewrite nth_error_app2 by lia. now rewrite Nat.sub_diag.
Qed.

Lemma wp_getAffine s e z : inv s -> den s false e z -> isAffine e = true ->
  wp s (getAffineExpr e) (fun t a => asem t a = Some z).
Proof.
  intros I D A. unfold getAffineExpr. apply wp_isSI; auto. rewrite (d_pred _ _ _ _ D). cbn [orb].
  destruct (aff e) as [a|] eqn:EA. { apply wp_ret; auto. now apply (d_aff _ _ _ _ D). }
  destruct (literal e) eqn:EL. { apply wp_ret; auto. cbn. now rewrite (d_lit _ _ _ _ D EL). }
  pose proof (d_kind _ _ _ _ D EL) as K. unfold isAffine in A. rewrite EL in A. cbn [orb] in A.
  destruct (d_val _ _ _ _ D) as (v & EV & VV & _).
  destruct (kind e); try discriminate; try congruence.
  - destruct K as (_ & n & En & Dn). rewrite En. eapply wp_bind; [apply wp_addDim; eauto|].
    intros t i X It H. cbv beta in H. apply wp_ret; auto. unfold asem. cbn [aeval]. rewrite nth_error_map, H. cbn.
    rewrite En in EV. injection EV as <-. exact VV.
  - destruct K as (_ & n & En & Dn). rewrite En. eapply wp_bind; [apply wp_addSymbol; eauto|].
    intros t i X It H. cbv beta in H. apply wp_ret; auto. unfold asem. cbn [aeval]. rewrite nth_error_map, H. cbn.
    rewrite En in EV. injection EV as <-. exact VV.
Qed.

Lemma wp_asAffine s a z : inv s -> asem s a = Some z -> wp s (initAsAffineExpr simp a) (fun t r => den t false r z /\ isAffine r = true).
Proof.
  intros I A. unfold initAsAffineExpr. destruct (simp a) as [c|] eqn:ES.
  - rewrite <- (simp_sound a c _ _ z ES A). 
    destruct (wp_literal s z KAffine I ltac:(auto)) as (t & r & E & X & It & D). exists t, r. split; [auto|]. split; [auto|]. split; [auto|].
    split; auto. unfold initAsLiteral, init, isSI, bind, getValueOpt in E. destruct I as (I1 & _). unfold isSI, bind in E. rewrite !I1 in E.
    cbn in E. injection E as <- <-. reflexivity.
  - unfold init. apply wp_isSI; auto.
    eapply wp_bind with (Q := fun t o => t = s /\ o = Some (VApply (dims s) (syms s) a)).
    + unfold getValueOpt. apply wp_isSI; auto. cbn [val literal aff]. apply wp_getScope. apply wp_ret; auto.
    + intros t r _ It (-> & ->). apply wp_ret; auto. split; [|reflexivity].
      constructor; cbn [literal intLit val aff kind]; try discriminate; auto.
      * exists (VApply (dims s) (syms s) a). split; [auto|]. split; [exact A|]. split; [simpl; auto|]. discriminate.
      * congruence.
Qed.

(** *** compare, select, min, max *)
Lemma wp_compare s p q a b x y : inv s -> den s q a x -> den s q b y ->
  wp s (compareOp p a b) (fun t r => den t true r (b2z (cmp_eval p x y))).
Proof.
  intros I A B. unfold compareOp. destruct (literal a && literal b) eqn:L.
  - apply andb_true_iff in L as [L1 L2]. rewrite (d_lit _ _ _ _ A L1), (d_lit _ _ _ _ B L2). now apply wp_predlit.
  - apply wp_isSI; auto. eapply wp_bind; [eapply wp_getValue; eauto|]. intros t v X It (-> & _ & V1).
    eapply wp_bind; [eapply wp_getValue; eauto|]. intros t w X' It' (-> & _ & V2).
    apply wp_predKind; auto.
    + cbn [veval]. now rewrite V1, V2.
    + destruct (cmp_eval p x y); auto.
    + discriminate.
Qed.

Lemma wp_select s c a b k x y : inv s -> den s true c k -> den s false a x -> den s false b y ->
  wp s (select c a b) (fun t r => den t false r (if k =? 0 then y else x)).
Proof.
  intros I C A B. unfold select. destruct (literal c) eqn:L.
  - rewrite (d_lit _ _ _ _ C L). destruct (k =? 0); eapply wp_copy_den; eauto.
  - apply wp_isSI; auto. eapply wp_bind; [eapply wp_getValue; eauto|]. intros t v X It (-> & _ & V1).
    eapply wp_bind; [eapply wp_getValue; eauto|]. intros t w X' It' (-> & _ & V2).
    eapply wp_bind; [eapply wp_getValue; eauto|]. intros t u X2 It2 (-> & _ & V3).
    apply wp_asKind; auto; [|simpl; auto|discriminate].
    cbn [veval]. now rewrite V1, V2, V3.
Qed.

Lemma wp_valueRed isMin s r a x y : inv s -> den s false r x -> den s false a y ->
  wp s (valueRed isMin r a) (fun t e => den t false e (extreme isMin x y)).
Proof.
  intros I R A. unfold valueRed. eapply wp_bind; [eapply wp_compare; eauto|]. intros t c X It C. cbv beta in C.
  eapply wp_bind; [apply (wp_select t c a r (b2z (cmp_eval (if isMin then Slt else Sgt) y x)) y x); eauto using den_ext|]. intros t2 e X2 It2 E. cbv beta in E.
  set (z := if b2z (cmp_eval (if isMin then Slt else Sgt) y x) =? 0 then x else y) in *.
  assert (Ez : z = extreme isMin x y).
  { unfold z, extreme. destruct isMin; cbn [cmp_eval]; [destruct (Z.ltb_spec y x)|destruct (Z.ltb_spec x y)]; cbn; lia. }
  rewrite <- Ez. destruct (d_val _ _ _ _ E) as (v & Ev & V & O & MM).
  eapply wp_bind; [eapply wp_getValue; eauto|]. intros t3 w X3 It3 (-> & Ew & V3).
  rewrite Ev in Ew. injection Ew as <-. apply wp_asKind; auto.
Qed.

Lemma wp_foldRed isMin l zs : forall s r x, inv s -> den s false r x -> Forall2 (den s false) l zs ->
  wp s (foldRed (valueRed isMin) r l) (fun t e => den t false e (fold_left (extreme isMin) zs x)).
Proof.
  revert zs. induction l as [|a l IH]; intros zs s r x I R F; inversion F as [|? y ? zs' Ha Fl]; subst; cbn [foldRed fold_left].
  - apply wp_ret; auto.
  - eapply wp_bind; [eapply wp_valueRed; eauto|]. intros t e X It E. cbv beta in E.
    apply IH; auto. eapply Forall2_impl; [|exact Fl]. intros; eauto using den_ext.
Qed.

Lemma wp_mapM_affine l zs : forall s, inv s -> Forall2 (den s false) l zs -> forallb isAffine l = true ->
  wp s (mapM getAffineExpr l) (fun t affs => Forall2 (fun a z => asem t a = Some z) affs zs).
Proof.
  revert zs. induction l as [|a l IH]; intros zs s I F A; inversion F as [|? y ? zs' Ha Fl]; subst; cbn [mapM forallb] in *.
  - apply wp_ret; auto.
  - apply andb_true_iff in A as [A1 A2]. eapply wp_bind; [eapply wp_getAffine; eauto|]. intros t x X It Ex. cbv beta in Ex.
    eapply wp_bind; [eapply IH with (zs := zs'); eauto|].
    { eapply Forall2_impl; [|exact Fl]. intros; eauto using den_ext. }
    intros t2 xs X2 It2 Exs. cbv beta in Exs. apply wp_ret; auto. constructor; auto. eapply asem_ext; eauto.
Qed.

Lemma litRed_first (isMin : bool) rest : forall e, (forall e', In e' rest -> if isMin then intLit e <= intLit e' else intLit e' <= intLit e) ->
  fold_left (litRed isMin) rest e = e.
Proof.
  induction rest as [|a r IH]; intros e H; cbn [fold_left]; auto.
  assert (litRed isMin e a = e).
  { unfold litRed. pose proof (H a (or_introl eq_refl)). destruct isMin; [destruct (Z.ltb_spec (intLit a) (intLit e))|destruct (Z.ltb_spec (intLit e) (intLit a))]; auto; lia. }
  rewrite H0. apply IH. intros e' H'. apply H. now right.
Qed.
Lemma extreme_first isMin zs : forall z, (forall z', In z' zs -> if isMin : bool then z <= z' else z' <= z) ->
  fold_left (extreme isMin) zs z = z.
Proof.
  induction zs as [|a r IH]; intros e H; cbn [fold_left]; auto.
  assert (E : extreme isMin e a = e).
  { unfold extreme. pose proof (H a (or_introl eq_refl)). destruct isMin; lia. }
  rewrite E. apply IH. intros e' H'. apply H. now right.
Qed.

Lemma Forall2_In_r {A B} (P : A -> B -> Prop) l m : Forall2 P l m -> forall y, In y m -> exists x, In x l /\ P x y.
Proof. induction 1; intros z []; subst; [exists x; split; [now left|auto]|]. destruct (IHForall2 _ H1) as (w & ? & ?). exists w. split; [now right|auto]. Qed.

Lemma wp_minmax isMin s es zs z0 zr : inv s -> Forall2 (den s false) es zs -> zs = z0 :: zr -> fresh isMin es ->
  wp s (minmax isMin es) (fun t r => den t false r (fold_left (extreme isMin) zr z0)).
Proof.
  intros I F -> FR. inversion F as [|e0 ? er ? D0 FT]; subst. clear F.
  destruct er as [|e1 er].
  - inversion FT; subst. cbn [fold_left]. eapply wp_copy_den; eauto.
  - unfold minmax. eapply wp_bind; [eapply wp_deepCopy; eauto|]. intros t r X It (-> & ->).
    destruct (forallb literal (e0 :: e1 :: er)) eqn:FL.
    + apply wp_ret; auto. rewrite forallb_forall in FL.
      destruct FR as [(e & He & Le)|(e & rr & EE & FR)].
      { rewrite (FL e He) in Le. discriminate. }
      injection EE as <- <-. rewrite litRed_first by auto. rewrite extreme_first; auto.
      intros z' Hz. destruct (Forall2_In_r _ _ _ FT z' Hz) as (e' & He' & De').
      pose proof (FR e' He') as H. rewrite (d_lit _ _ _ _ D0), (d_lit _ _ _ _ De') in H; auto; apply FL; [now right|now left].
    + apply wp_isSI; auto. destruct (forallb isAffine (e0 :: e1 :: er)) eqn:FA.
      * eapply wp_bind; [eapply wp_mapM_affine with (zs := z0 :: zr); eauto|].
        intros t affs X2 It2 FF. cbv beta in FF. apply wp_getScope. apply wp_asKind; auto.
        -- cbn [veval]. replace (mapO _ affs) with (Some (z0 :: zr)); [reflexivity|]. symmetry. apply mapO_Forall2. exact FF.
        -- simpl; auto.
        -- intros m ds ss l E. injection E as <- <- <- <-. split; exists []; now rewrite app_nil_r.
      * eapply wp_foldRed; eauto.
Qed.

(** *** binaryOp *)
Lemma wp_binaryOp s a b x y z prop wl hA hB neu lf af vf : inv s -> den s false a x -> den s false b y ->
  (hA = true -> x = neu -> z = y) -> (hB = true -> y = neu -> z = x) ->
  (literal a = true -> literal b = true -> lf x y = Some z) ->
  (isAffine a = true -> isAffine b = true -> (wl = true -> literal b = true) -> (literal a && literal b = false) -> wp s (af a b) (fun t r => den t false r z)) ->
  (forall va vb, val a = Some va -> val b = Some vb -> veval env va = Some x -> veval env vb = Some y ->
     (literal a && literal b = false) -> (isAffine a && isAffine b && (negb wl || literal b) = false) ->
     veval env (vf va vb) = Some z /\ vok (vf va vb) /\ mmok s (vf va vb)) ->
  (prop = true -> forall m ds ss l, val a = Some (VMinMax m ds ss l) -> isAffine b = true -> isAffine a = false ->
      ndebug = false /\ wp s (ts <-- propagated simp af l true b ;; minmax m ts) (fun t r => den t false r z)) ->
  (prop = true -> forall m ds ss l, val b = Some (VMinMax m ds ss l) -> isAffine a = true -> isAffine b = false ->
      ndebug = false /\ wp s (ts <-- propagated simp af l false a ;; minmax m ts) (fun t r => den t false r z)) ->
  (prop = true -> wl = false) ->
  wp s (binaryOp simp ndebug a b prop wl hA hB neu lf af vf) (fun t r => den t false r z).
Proof.
  intros I A B NA NB LF AF VF PA PB PW. unfold binaryOp.
  set (rl := literal a && literal b) in *. set (ra := isAffine a && isAffine b && (negb wl || literal b)) in *.
  destruct ((rl || ra) && hA && isIdentical a neu) eqn:T1.
  { apply andb_true_iff in T1 as [T1 T2]. apply andb_true_iff in T1 as [_ T1]. unfold isIdentical in T2.
    apply andb_true_iff in T2 as [T2 T3]. apply Z.eqb_eq in T3. rewrite (d_lit _ _ _ _ A T2) in T3.
    rewrite (NA T1 T3). eapply wp_copy_den; eauto. }
  destruct (hB && isIdentical b neu) eqn:T2.
  { apply andb_true_iff in T2 as [T2 T3]. unfold isIdentical in T3. apply andb_true_iff in T3 as [T3 T4]. apply Z.eqb_eq in T4.
    rewrite (d_lit _ _ _ _ B T3) in T4. rewrite (NB T2 T4). eapply wp_copy_den; eauto. }
  destruct rl eqn:RL.
  { unfold rl in RL. apply andb_true_iff in RL as [L1 L2].
    eapply wp_bind; [apply wp_lift with (a := z) (P := fun t r => t = s /\ r = z); auto; rewrite (d_lit _ _ _ _ A L1), (d_lit _ _ _ _ B L2); auto|].
    intros t r X It (-> & ->). apply wp_literal; auto. }
  apply wp_isSI; auto. cbn [orb]. destruct ra eqn:RA.
  { unfold ra in RA. apply andb_true_iff in RA as [RA R3]. apply andb_true_iff in RA as [R1 R2].
    apply AF; auto. intros ->. exact R3. }
  destruct (d_val _ _ _ _ A) as (va & Ea & Va & Oa & MMa). destruct (d_val _ _ _ _ B) as (vb & Eb & Vb & Ob & MMb).
  eapply wp_bind; [eapply wp_getValue; eauto|]. intros t v X It (-> & Ev & V1). rewrite Ea in Ev. injection Ev as <-.
  eapply wp_bind; [eapply wp_getValue; eauto|]. intros t v X' It' (-> & Ev & V2). rewrite Eb in Ev. injection Ev as <-.
  destruct (VF va vb Ea Eb V1 V2 eq_refl eq_refl) as (F1 & F2 & F3).
  destruct prop.
  - assert (NAB : isAffine a && isAffine b = false).
    { unfold ra in RA. rewrite (PW eq_refl) in RA. destruct (isAffine a), (isAffine b); auto. }
    destruct (minMaxOf va) as [[m l]|] eqn:M1, (minMaxOf vb) as [[m' l']|] eqn:M2.
    + now apply wp_asKind.
    + destruct (isAffine b) eqn:AB; [|now apply wp_asKind]. rewrite andb_true_r in NAB.
      destruct va; try discriminate. injection M1 as <- <-. destruct (PA eq_refl _ _ _ _ Ea eq_refl NAB) as [-> W]. exact W.
    + destruct (isAffine a) eqn:AA; [|now apply wp_asKind].
      destruct vb; try discriminate. injection M2 as <- <-. destruct (PB eq_refl _ _ _ _ Eb eq_refl NAB) as [-> W]. exact W.
    + now apply wp_asKind.
  - now apply wp_asKind.
Qed.

Lemma wp_affineBin s f a b x y z : inv s -> den s false a x -> den s false b y -> isAffine a = true -> isAffine b = true ->
  (forall t ea eb, asem t ea = Some x -> asem t eb = Some y -> asem t (f ea eb) = Some z) ->
  wp s (affineBin simp f a b) (fun t r => den t false r z).
Proof.
  intros I A B AA AB F. unfold affineBin. eapply wp_bind; [eapply wp_getAffine; eauto|]. intros t ea X It Ea. cbv beta in Ea.
  eapply wp_bind; [eapply wp_getAffine; eauto using den_ext|]. intros t2 eb X2 It2 Eb. cbv beta in Eb.
  eapply wp_mono; [eapply wp_asAffine; eauto; apply F; eauto; eapply asem_ext; eauto|]. intros t3 r _ [H _]. auto.
Qed.

(** pushing an operation into the terms of a min/max *)
Lemma wp_propagated f onA l zs other y g : forall s, inv s -> Forall2 (fun a z => asem s a = Some z) l zs -> den s false other y -> isAffine other = true ->
  (forall t ea eb x, asem t ea = Some x -> asem t eb = Some y -> asem t (if onA : bool then f ea eb else f eb ea) = Some (g x)) ->
  wp s (propagated simp (affineBin simp f) l onA other) (fun t ts => Forall2 (den t false) ts (map g zs)).
Proof.
  revert zs. induction l as [|a l IH]; intros zs s I F D AO G; inversion F as [|? z ? zs' Ha Fl]; subst; unfold propagated; cbn [mapM map].
  - apply wp_ret; auto.
  - eapply wp_bind with (Q := fun t r => den t false r (g z)).
    + eapply wp_bind; [eapply wp_asAffine; eauto|]. intros t old X It (Do & Ao).
      destruct onA.
      * eapply wp_affineBin; eauto using den_ext.
      * eapply wp_affineBin with (x := y) (y := z); eauto using den_ext. 
    + intros t r X It Dr. cbv beta in Dr. eapply wp_bind; [apply (IH zs' t); eauto using den_ext|].
      { eapply Forall2_impl; [|exact Fl]. intros; eapply asem_ext; eauto. }
      intros t2 ts X2 It2 Fts. cbv beta in Fts. apply wp_ret; auto. constructor; eauto using den_ext.
Qed.

Lemma fold_extreme_shift isMin c zr : forall z, fold_left (extreme isMin) (map (fun x => x + c) zr) (z + c) = fold_left (extreme isMin) zr z + c.
Proof.
  induction zr as [|a r IH]; intros z; cbn [fold_left map]; auto.
  replace (extreme isMin (z + c) (a + c)) with (extreme isMin z a + c) by (unfold extreme; destruct isMin; lia). apply IH.
Qed.

Lemma minmax_terms s e m ds ss l z : den s false e z -> val e = Some (VMinMax m ds ss l) ->
  exists z0 zr, Forall2 (fun a z => asem s a = Some z) l (z0 :: zr) /\ z = fold_left (extreme m) zr z0.
Proof.
  intros D E. destruct (d_val _ _ _ _ D) as (v & Ev & V & _ & MM). rewrite E in Ev. injection Ev as <-.
  destruct (MM _ _ _ _ eq_refl) as ((d & Ed) & (e' & Es)). cbn [veval] in V.
  destruct (mapO _ l) as [zs|] eqn:EM; cbn [obind] in V; [|discriminate]. destruct zs as [|z0 zr]; [discriminate|]. injection V as <-.
  exists z0, zr. split; auto. apply mapO_Forall2 in EM. eapply Forall2_impl; [|exact EM]. intros a w Ha.
  unfold asem. rewrite Ed, Es, !map_app. now apply aeval_app.
Qed.

Lemma wp_prop f onA s m ds ss l mm other y z g c : inv s -> den s false mm z -> val mm = Some (VMinMax m ds ss l) ->
  den s false other y -> isAffine other = true ->
  (forall t ea eb x, asem t ea = Some x -> asem t eb = Some y -> asem t (if onA : bool then f ea eb else f eb ea) = Some (g x)) ->
  (forall x, g x = x + c) ->
  (forall sc' ts, propagated simp (affineBin simp f) l onA other s = Some (sc', ts) -> fresh m ts) ->
  wp s (ts <-- propagated simp (affineBin simp f) l onA other ;; minmax m ts) (fun t r => den t false r (g z)).
Proof.
  intros I D E DO AO G GC FR. destruct (minmax_terms _ _ _ _ _ _ _ D E) as (z0 & zr & F & ->).
  destruct (wp_propagated f onA l (z0 :: zr) other y g s I F DO AO G) as (t & ts & ET & X & It & Fts).
  pose proof (FR t ts ET) as Fresh.
  assert (W : wp t (minmax m ts) (fun t r => den t false r (fold_left (extreme m) (map g zr) (g z0)))).
  { eapply wp_minmax; eauto. }
  destruct W as (t2 & r & E2 & X2 & I2 & D2). exists t2, r. split; [unfold bind; now rewrite ET|].
  split; [eapply ext_trans; eauto|]. split; auto. 
  rewrite GC. rewrite <- fold_extreme_shift. rewrite GC in D2.
  replace (map g zr) with (map (fun x => x + c) zr) in D2; auto. apply map_ext. intros; auto.
Qed.

Lemma is_minmax_some e : is_minmax e = false -> forall m ds ss l, val e <> Some (VMinMax m ds ss l).
Proof. unfold is_minmax. intros H m ds ss l E. rewrite E in H. discriminate. Qed.

Lemma wp_add s a b x y : inv s -> den s false a x -> den s false b y -> propagates simp ndebug s AAdd a b ->
  wp s (ieAdd simp ndebug a b) (fun t r => den t false r (x + y)).
Proof.
  intros I A B PR. unfold ieAdd. eapply wp_binaryOp; eauto; try lia.
  - intros AA AB _ _. eapply wp_affineBin; eauto. intros t ea eb Ea Eb. unfold asem in *. cbn [aeval]. now rewrite Ea, Eb.
  - intros va vb _ _ Ea Eb _ _. cbn [veval]. rewrite Ea, Eb. split; [reflexivity|]. split; [simpl; auto|discriminate].
  - intros _ m ds ss l E AB _. destruct PR as [[N _]|[-> FR]]; [exfalso; eapply is_minmax_some; eauto|]. split; auto.
    eapply (wp_prop AAdd true) with (g := fun x => x + y) (c := y); eauto.
    + intros t ea eb w Ea Eb. unfold asem in *. cbn [aeval]. now rewrite Ea, Eb.
    + apply (FR m ds ss l); auto.
  - intros _ m ds ss l E AA _. destruct PR as [[_ N]|[-> FR]]; [exfalso; eapply is_minmax_some; eauto|]. split; auto.
    rewrite Z.add_comm. eapply (wp_prop AAdd false) with (g := fun y => y + x) (c := x); eauto.
    + intros t ea eb w Ea Eb. unfold asem in *. cbn [aeval]. rewrite Ea, Eb. cbn [obind]. f_equal; lia.
    + apply (FR m ds ss l); auto.
Qed.

Lemma wp_sub s a b x y : inv s -> den s false a x -> den s false b y -> propagates simp ndebug s ASub a b ->
  (is_minmax b = false \/ isAffine a = false) ->
  wp s (ieSub simp ndebug a b) (fun t r => den t false r (x - y)).
Proof.
  intros I A B PR NB. unfold ieSub. eapply wp_binaryOp; eauto; try lia.
  - intros AA AB _ _. eapply wp_affineBin; eauto. intros t ea eb Ea Eb. unfold asem in *. cbn [aeval]. now rewrite Ea, Eb.
  - intros va vb _ _ Ea Eb _ _. cbn [veval]. rewrite Ea, Eb. split; [reflexivity|]. split; [simpl; auto|discriminate].
  - intros _ m ds ss l E AB _. destruct PR as [[N _]|[-> FR]]; [exfalso; eapply is_minmax_some; eauto|]. split; auto.
    eapply (wp_prop ASub true) with (g := fun x => x - y) (c := - y); eauto.
    + intros t ea eb w Ea Eb. unfold asem in *. cbn [aeval]. now rewrite Ea, Eb.
    + apply (FR m ds ss l); auto.
  - intros _ m ds ss l E AA _. exfalso. destruct NB as [N|N]; [eapply is_minmax_some; eauto|congruence].
Qed.

Lemma wp_mul s a b x y : inv s -> den s false a x -> den s false b y ->
  wp s (ieMul simp ndebug a b) (fun t r => den t false r (x * y)).
Proof.
  intros I A B. unfold ieMul. destruct (literal a) eqn:L.
  - eapply wp_binaryOp; eauto; try lia; try (intros; discriminate).
    + intros _ _. f_equal. lia.
    + intros AA AB _ _. eapply wp_affineBin; eauto. intros t ea eb Ea Eb. unfold asem in *. cbn [aeval]. rewrite Ea, Eb. cbn [obind]. f_equal; lia.
    + intros va vb _ _ Ea Eb _ _. cbn [veval]. rewrite Ea, Eb. split; [cbn [obind]; f_equal; lia|]. split; [simpl; auto|discriminate].
  - eapply wp_binaryOp; eauto; try lia; try (intros; discriminate).
    + intros AA AB _ _. eapply wp_affineBin; eauto. intros t ea eb Ea Eb. unfold asem in *. cbn [aeval]. now rewrite Ea, Eb.
    + intros va vb _ _ Ea Eb _ _. cbn [veval]. rewrite Ea, Eb. split; [reflexivity|]. split; [simpl; auto|discriminate].
Qed.

Lemma wp_divLike s a b x y z test f g : inv s -> den s false a x -> den s false b y -> isAffine a = true -> literal b = true ->
  (test y = true -> forall t ea, asem t ea = Some x -> asem t (f ea (ACst y)) = Some z) ->
  (test y = false -> forall va vb, veval env va = Some x -> veval env vb = Some y ->
     veval env (g va vb) = Some z /\ vok (g va vb) /\ mmok s (g va vb)) ->
  wp s (affineDivLike simp test f g a b) (fun t r => den t false r z).
Proof.
  intros I A B AA LB F G. unfold affineDivLike. rewrite LB, (d_lit _ _ _ _ B LB). destruct (test y) eqn:T.
  - eapply wp_bind; [eapply wp_getAffine; eauto|]. intros t ea X It Ea. cbv beta in Ea.
    eapply wp_mono; [eapply wp_asAffine; eauto|]. intros t3 r _ [H _]. auto.
  - eapply wp_bind; [eapply wp_getValue; eauto|]. intros t v X It (-> & _ & V1).
    eapply wp_bind; [eapply wp_getValue; eauto|]. intros t w X' It' (-> & _ & V2).
    destruct (G eq_refl v w V1 V2) as (? & ? & ?). now apply wp_asKind.
Qed.

Lemma wp_floor s a b x y : inv s -> den s false a x -> den s false b y -> y <> 0 ->
  (literal a = true -> literal b = true -> Z.abs (intLit a) < 2 ^ 53 /\ Z.abs (intLit b) <= 2 ^ 53) ->
  wp s (ieFloorDiv simp ndebug a b) (fun t r => den t false r (x / y)).
Proof.
  intros I A B NZ LB. unfold ieFloorDiv. eapply wp_binaryOp; eauto; try (intros; discriminate).
  - intros _ ->. apply Z.div_1_r.
  - intros L1 L2. destruct (LB L1 L2) as [H1 H2]. rewrite (d_lit _ _ _ _ A L1) in H1. rewrite (d_lit _ _ _ _ B L2) in H2.
    now apply lit_floorDiv_correct.
  - intros AA AB WL _. eapply wp_divLike; eauto.
    + intros T t ea Ea. apply Z.ltb_lt in T. unfold asem in *. cbn [aeval]. rewrite Ea. cbn [obind]. 
      destruct (Z.ltb_spec 0 y); try lia; auto.
    + intros T va vb Ea Eb. cbn [veval]. rewrite Ea, Eb. cbn [obind]. destruct (Z.eqb_spec y 0); [lia|].
      split; [reflexivity|]. split; [simpl; auto|discriminate].
  - intros va vb _ _ Ea Eb _ _. cbn [veval]. rewrite Ea, Eb. cbn [obind]. destruct (Z.eqb_spec y 0); [lia|].
    split; [reflexivity|]. split; [simpl; auto|discriminate].
Qed.
Lemma wp_ceil s a b x y : inv s -> den s false a x -> den s false b y -> y <> 0 ->
  (literal a = true -> literal b = true -> Z.abs (intLit a) < 2 ^ 53 /\ Z.abs (intLit b) <= 2 ^ 53) ->
  wp s (ieCeilDiv simp ndebug a b) (fun t r => den t false r (- ((- x) / y))).
Proof.
  intros I A B NZ LB. unfold ieCeilDiv. eapply wp_binaryOp; eauto; try (intros; discriminate).
  - intros _ ->. rewrite Z.div_1_r. lia.
  - intros L1 L2. destruct (LB L1 L2) as [H1 H2]. rewrite (d_lit _ _ _ _ A L1) in H1. rewrite (d_lit _ _ _ _ B L2) in H2.
    now apply lit_ceilDiv_correct.
  - intros AA AB WL _. eapply wp_divLike; eauto.
    + intros T t ea Ea. apply Z.ltb_lt in T. unfold asem in *. cbn [aeval]. rewrite Ea. cbn [obind]. 
      destruct (Z.ltb_spec 0 y); try lia; auto.
    + intros T va vb Ea Eb. cbn [veval]. rewrite Ea, Eb. cbn [obind]. destruct (Z.eqb_spec y 0); [lia|].
      split; [reflexivity|]. split; [simpl; auto|discriminate].
  - intros va vb _ _ Ea Eb _ _. cbn [veval]. rewrite Ea, Eb. cbn [obind]. destruct (Z.eqb_spec y 0); [lia|].
    split; [reflexivity|]. split; [simpl; auto|discriminate].
Qed.
Lemma wp_mod s a b x y : inv s -> den s false a x -> den s false b y -> 0 < y ->
  (0 <= x \/ (literal b = true /\ isAffine a = true)) ->
  wp s (ieMod simp ndebug a b) (fun t r => den t false r (x mod y)).
Proof.
  intros I A B NZ LB. unfold ieMod. eapply wp_binaryOp; eauto; try (intros; discriminate).
  - intros L1 L2. unfold lit_mod. destruct (Z.leb_spec 1 y); auto; lia.
  - intros AA AB WL _. eapply wp_divLike; eauto.
    + intros T t ea Ea. unfold asem in *. cbn [aeval]. rewrite Ea. cbn [obind]. 
      destruct (Z.ltb_spec 0 y); try lia; auto.
    + intros T. apply Z.leb_gt in T. lia.
  - intros va vb _ _ Ea Eb NL NA. cbn [veval]. rewrite Ea, Eb. cbn [obind]. destruct (Z.eqb_spec y 0); [lia|].
    split; [|split; [simpl; auto|discriminate]]. destruct LB as [P|[L1 L2]].
    + rewrite Z.rem_mod_nonneg by lia. reflexivity.
    + exfalso. rewrite L1, L2 in NA. unfold isAffine in NA. rewrite L1 in NA. discriminate.
Qed.

Lemma wp_clamp s v lo hi x l h : inv s -> den s false v x -> den s false lo l -> den s false hi h -> l <= h ->
  wp s (ieClamp v lo hi) (fun t r => den t false r (Z.max l (Z.min x h))).
Proof.
  intros I V L H LH. unfold ieClamp. destruct (literal v && literal lo && literal hi) eqn:E.
  - apply andb_true_iff in E as [E E3]. apply andb_true_iff in E as [E1 E2].
    apply wp_ret; auto. rewrite (d_lit _ _ _ _ V E1), (d_lit _ _ _ _ L E2), (d_lit _ _ _ _ H E3).
    destruct (Z.ltb_spec x l); [replace (Z.max l (Z.min x h)) with l by lia; auto|].
    destruct (Z.ltb_spec h x); [replace (Z.max l (Z.min x h)) with h by lia; auto|replace (Z.max l (Z.min x h)) with x by lia; auto].
  - apply wp_isSI; auto.
    eapply wp_bind; [eapply wp_compare; eauto|]. intros t c X It C. cbv beta in C.
    eapply wp_bind; [eapply (wp_select t c lo v); eauto using den_ext|]. intros t2 r1 X2 It2 R1. cbv beta in R1.
    eapply wp_bind; [eapply (wp_compare t2 Sgt false r1 hi); eauto using den_ext|]. intros t3 c2 X3 It3 C2. cbv beta in C2.
    eapply wp_mono; [eapply (wp_select t3 c2 hi r1); eauto using den_ext|]. intros t4 r _ R. cbv beta in R.
    replace (Z.max l (Z.min x h)) with (if b2z (cmp_eval Sgt (if b2z (cmp_eval Slt x l) =? 0 then x else l) h) =? 0
       then if b2z (cmp_eval Slt x l) =? 0 then x else l else h); auto.
    cbn [cmp_eval]. destruct (Z.ltb_spec x l); cbn [b2z Z.eqb].
    + destruct (Z.ltb_spec h l); cbn; lia.
    + destruct (Z.ltb_spec h x); cbn; lia.
Qed.

Lemma wp_and s a b x y : inv s -> den s true a x -> den s true b y ->
  wp s (ieAnd a b) (fun t r => den t true r (truth (negb (x =? 0) && negb (y =? 0)))).
Proof.
  intros I A B. unfold ieAnd. destruct (d_bool _ _ _ _ A eq_refl) as [BA|BA], (d_bool _ _ _ _ B eq_refl) as [BB|BB];
  (destruct (literal a) eqn:LA; [rewrite (d_lit _ _ _ _ A LA)|destruct (literal b) eqn:LB; [rewrite (d_lit _ _ _ _ B LB)|]]);
  try (rewrite BA); try (rewrite BB); cbn [Z.eqb negb andb truth];
  try (apply (wp_predlit s false I));
  try (eapply wp_copy_den; eauto; fail);
  try (rewrite BA in A; eapply wp_copy_den; eauto; fail); try (rewrite BB in B; eapply wp_copy_den; eauto; fail);
  rewrite (d_qm _ _ _ _ A), (d_qm _ _ _ _ B), (d_pred _ _ _ _ A), (d_pred _ _ _ _ B); cbn [orb andb];
  (eapply wp_bind; [eapply wp_getValue; eauto|]; intros t v X It (-> & _ & V1));
  (eapply wp_bind; [eapply wp_getValue; eauto|]; intros t w X' It' (-> & _ & V2));
  apply wp_predKind; auto; try discriminate; cbn [veval]; rewrite V1, V2, BA, BB; reflexivity.
Qed.
Lemma wp_or s a b x y : inv s -> den s true a x -> den s true b y ->
  wp s (ieOr a b) (fun t r => den t true r (truth (negb (x =? 0) || negb (y =? 0)))).
Proof.
  intros I A B. unfold ieOr. destruct (d_bool _ _ _ _ A eq_refl) as [BA|BA], (d_bool _ _ _ _ B eq_refl) as [BB|BB];
  (destruct (literal a) eqn:LA; [rewrite (d_lit _ _ _ _ A LA)|destruct (literal b) eqn:LB; [rewrite (d_lit _ _ _ _ B LB)|]]);
  try (rewrite BA); try (rewrite BB); cbn [Z.eqb negb andb orb truth];
  try (apply (wp_predlit s true I));
  try (eapply wp_copy_den; eauto; fail);
  try (rewrite BA in A; eapply wp_copy_den; eauto; fail); try (rewrite BB in B; eapply wp_copy_den; eauto; fail);
  rewrite (d_qm _ _ _ _ A), (d_qm _ _ _ _ B), (d_pred _ _ _ _ A), (d_pred _ _ _ _ B); cbn [orb andb];
  (eapply wp_bind; [eapply wp_getValue; eauto|]; intros t v X It (-> & _ & V1));
  (eapply wp_bind; [eapply wp_getValue; eauto|]; intros t w X' It' (-> & _ & V2));
  apply wp_predKind; auto; try discriminate; cbn [veval]; rewrite V1, V2, BA, BB; reflexivity.
Qed.
Lemma wp_not s a x : inv s -> den s true a x -> wp s (ieNot a) (fun t r => den t true r (truth (x =? 0))).
Proof.
  intros I A. unfold ieNot. eapply wp_bind; [apply (wp_predlit s false I)|]. intros t f X It F. cbv beta in F.
  eapply wp_mono; [eapply wp_compare; eauto using den_ext|]. intros t2 r _ R. cbv beta in R. exact R.
Qed.

(** *** Registers *)
Definition regs (s : scope) (ts : list bool) (rs : list IE) (zs : list Z) : Prop :=
  length rs = length ts /\ length zs = length ts /\
  forall i p e z, nth_error ts i = Some p -> nth_error rs i = Some e -> nth_error zs i = Some z -> den s p e z.
Lemma regs_ext s t ts rs zs : ext s t -> regs s ts rs zs -> regs t ts rs zs.
Proof. intros X (A & B & C). split; [auto|]. split; [auto|]. intros. eapply den_ext; eauto. Qed.
Lemma regs_snoc s ts rs zs p e z : regs s ts rs zs -> den s p e z -> regs s (ts ++ [p]) (rs ++ [e]) (zs ++ [z]).
Proof.
  intros (A & B & C) D. split; [rewrite !app_length; simpl; lia|]. split; [rewrite !app_length; simpl; lia|].
  intros i p' e' z' H1 H2 H3. destruct (Nat.lt_ge_cases i (length ts)) as [L|L].
  - rewrite nth_error_app1 in H1, H2, H3 by lia. eauto.
  - rewrite nth_error_app2 in H1, H2, H3 by lia. rewrite A in H2. rewrite B in H3.
    destruct (i - length ts)%nat as [|k]; cbn in *; [congruence|destruct k; discriminate].
Qed.
Lemma wp_reg {B} s ts rs zs i p (f : IE -> M B) P z : inv s -> regs s ts rs zs -> nth_error ts i = Some p -> nth_error zs i = Some z ->
  (forall e, nth_error rs i = Some e -> den s p e z -> wp s (f e) P) -> wp s (e <-- reg rs i ;; f e) P.
Proof.
  intros I (A & B' & C) T Z K. destruct (nth_error rs i) as [e|] eqn:E.
  2: { apply nth_error_None in E. assert (i < length ts)%nat by (apply nth_error_Some; congruence). lia. }
  destruct (K e eq_refl (C i p e z T E Z)) as (t & r & H & HH). exists t, r. split; auto.
  unfold reg, bind. rewrite E. exact H.
Qed.
Lemma wp_mapregs s ts rs zs l ws : inv s -> regs s ts rs zs -> Forall (fun i => nth_error ts i = Some false) l ->
  mapO (nth_error zs) l = Some ws ->
  wp s (mapM (reg rs) l) (fun t es => t = s /\ mapO (nth_error rs) l = Some es /\ Forall2 (den s false) es ws).
Proof.
  intros I R. revert ws. induction l as [|i l IH]; intros ws F E; cbn [mapM mapO] in *.
  - injection E as <-. apply wp_ret; auto.
  - inversion F; subst. destruct (nth_error zs i) as [z|] eqn:Ez; cbn [obind] in E; [|discriminate].
    destruct (mapO (nth_error zs) l) as [ws'|]; cbn [obind] in E; [|discriminate]. injection E as <-.
    eapply wp_reg; eauto. intros e Ee De. eapply wp_bind; [apply IH; eauto|].
    intros t es X It (-> & E2 & F2). apply wp_ret; auto. rewrite Ee. cbn [obind]. rewrite E2. auto.
Qed.

(** external values of a command are used consistently *)
Definition cmd_ok (c : cmd) : Prop :=
  match c with CDim n => isdim n = true | CSym n => isdim n = false | _ => True end.

Lemma int_sort ts i : (match nth_error ts i with Some false => true | _ => false end) = true -> nth_error ts i = Some false.
Proof. destruct (nth_error ts i) as [[]|]; auto; discriminate. Qed.
Lemma prd_sort ts i : (match nth_error ts i with Some true => true | _ => false end) = true -> nth_error ts i = Some true.
Proof. destruct (nth_error ts i) as [[]|]; auto; discriminate. Qed.

Ltac splitb := repeat match goal with H : _ && _ = true |- _ => apply andb_true_iff in H; destruct H end;
  repeat match goal with H : match nth_error _ _ with _ => _ end = true |- _ => first [apply int_sort in H|apply prd_sort in H] end.
Ltac getz := unfold bin, znth in *; repeat match goal with
  | H : (_ <- nth_error ?zs ?i ;; _) = Some _ |- _ => let E := fresh "EZ" in destruct (nth_error zs i) eqn:E; cbn [obind] in H; [|discriminate] end.

Lemma extreme_spec m : forall l z, fold_left (extreme m) l z = fold_left (if m : bool then Z.min else Z.max) l z.
Proof. induction l; intros; cbn [fold_left]; auto. rewrite IHl. f_equal. now destruct m. Qed.
Lemma cmp_spec p x y : b2z (cmp_eval p x y) = truth (compares p x y).
Proof. destruct p; cbn; auto; rewrite ?Z.gtb_ltb, ?Z.geb_leb; auto. Qed.

Lemma exec_ok s ts rs zs c p z : inv s -> regs s ts rs zs -> sort_of ts c = Some p -> sem env zs c = Some z -> cmd_ok c ->
  safe simp ndebug s zs rs c -> wp s (exec simp ndebug rs c) (fun t e => den t p e z).
Proof.
  intros I R T S CO SF. destruct c; cbn [sort_of sem exec cmd_ok safe] in *;
   try (match type of T with (if ?b then _ else _) = _ => destruct b eqn:EB; [injection T as <-|discriminate] end; splitb; getz).
  - injection T as <-. injection S as <-. apply wp_literal; auto.
  - injection T as <-. injection S as <-. apply wp_leaf; auto.
  - injection T as <-. injection S as <-. apply wp_leaf; auto.
  - injection T as <-. injection S as <-. apply wp_leaf; auto.
  - injection S as <-. eapply wp_reg; eauto. intros a Ea Da. eapply wp_reg; eauto. intros b Eb Db. apply wp_add; auto.
  - injection S as <-. eapply wp_reg; eauto. intros a Ea Da. eapply wp_reg; eauto. intros b Eb Db.
    destruct (SF a b Ea Eb). apply wp_sub; auto.
  - injection S as <-. eapply wp_reg; eauto. intros a Ea Da. eapply wp_reg; eauto. intros b Eb Db. apply wp_mul; auto.
  - destruct (Z.eqb_spec z1 0); [discriminate|]. injection S as <-.
    eapply wp_reg; eauto. intros a Ea Da. eapply wp_reg; eauto. intros b Eb Db. apply wp_floor; auto.
  - destruct (Z.eqb_spec z1 0); [discriminate|]. injection S as <-.
    eapply wp_reg; eauto. intros a Ea Da. eapply wp_reg; eauto. intros b Eb Db. apply wp_ceil; auto.
  - destruct (Z.ltb_spec 0 z1); [|discriminate]. injection S as <-.
    eapply wp_reg; eauto. intros a Ea Da. eapply wp_reg; eauto. intros b Eb Db. apply wp_mod; eauto.
  - destruct (mapO (nth_error zs) l) as [ws|] eqn:EW; cbn [obind] in S; [|discriminate].
    destruct ws as [|w ws]; [discriminate|]. injection S as <-.
    eapply wp_bind; [eapply wp_mapregs; eauto|].
    { apply Forall_forall. intros i Hi. rewrite forallb_forall in EB. apply int_sort. now apply EB. }
    intros t es X It (-> & E2 & F2). rewrite <- extreme_spec. eapply wp_minmax; eauto.
  - destruct (Z.leb_spec z1 z2); [|discriminate]. injection S as <-.
    eapply wp_reg; eauto. intros a Ea Da. eapply wp_reg; eauto. intros b Eb Db. eapply wp_reg; eauto. intros d Ed Dd.
    apply wp_clamp; auto.
  - injection S as <-. eapply wp_reg; eauto. intros a Ea Da. eapply wp_reg; eauto. intros b Eb Db.
    rewrite <- cmp_spec. eapply wp_compare; eauto.
  - injection S as <-.
    eapply wp_reg; eauto. intros a Ea Da. eapply wp_reg; eauto. intros b Eb Db. eapply wp_reg; eauto. intros d Ed Dd.
    apply wp_select; auto.
  - injection S as <-. eapply wp_reg; eauto. intros a Ea Da. eapply wp_reg; eauto. intros b Eb Db. apply wp_and; auto.
  - injection S as <-. eapply wp_reg; eauto. intros a Ea Da. eapply wp_reg; eauto. intros b Eb Db. apply wp_or; auto.
  - injection S as <-. eapply wp_reg; eauto. intros a Ea Da. apply wp_not; auto.
Qed.

Lemma run_ok cs : forall s ts rs zs ps ws, inv s -> regs s ts rs zs -> sorts ts cs = Some ps -> sems env zs cs = Some ws ->
  Forall cmd_ok cs -> safe_run simp ndebug env s zs rs cs ->
  wp s (runCmds simp ndebug rs cs) (fun t es => regs t ps es ws).
Proof.
  induction cs as [|c cs IH]; intros s ts rs zs ps ws I R T S CO SF; cbn [sorts sems runCmds safe_run] in *.
  - injection T as <-. injection S as <-. apply wp_ret; auto.
  - destruct (sort_of ts c) as [p|] eqn:ET; cbn [obind] in T; [|discriminate].
    destruct (sem env zs c) as [z|] eqn:ES; cbn [obind] in S; [|discriminate].
    inversion CO; subst. destruct SF as [SF SR].
    destruct (exec_ok s ts rs zs c p z I R ET ES H1 SF) as (t & e & E & X & It & D).
    destruct (IH t (ts ++ [p]) (rs ++ [e]) (zs ++ [z]) ps ws It) as (t2 & es & E2 & X2 & It2 & R2); auto.
    { apply regs_snoc; auto. eapply regs_ext; eauto. }
    exists t2, es. split; [unfold bind; now rewrite E|]. split; [eapply ext_trans; eauto|]. auto.
Qed.
End Proofs.
