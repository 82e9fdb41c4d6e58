(** Proofs about scaling in attention. *)
From Coq Require Import ZArith Bool Lia List.
From Verif Require Import AttentionSpec AttentionModel.
Import ListNotations.

Section Numbers.
Variable F : Type.
Variables (zero : F) (add mul : F -> F -> F) (scale : F -> F).
Hypothesis scale_zero : scale zero = zero.
Hypothesis scale_add : forall x y, scale (add x y) = add (scale x) (scale y).
Hypothesis scale_left : forall x y, scale (mul x y) = mul (scale x) y.
Hypothesis scale_right : forall x y, scale (mul x y) = mul x (scale y).

Lemma sum_scale n f : scale (sum F zero add n f) = sum F zero add n (fun k => scale (f k)).
Proof. induction n as [|n IH]; cbn [sum]; [exact scale_zero|]. rewrite scale_add, IH. reflexivity. Qed.
Lemma sum_ext n f g : (forall k, f k = g k) -> sum F zero add n f = sum F zero add n g.
Proof. intros H. induction n as [|n IH]; cbn [sum]; [reflexivity|]. rewrite IH, H. reflexivity. Qed.
Lemma matmul_left a a' b : teq a' (mapT scale a) -> teq (matmul F zero add mul a' b) (mapT scale (matmul F zero add mul a b)).
Proof.
  intros [S H]. cbn [mapT shape] in S. unfold teq, matmul. cbn [mapT shape at_]. rewrite S. split; [reflexivity|]. intros i. rewrite sum_scale. apply sum_ext. intros k. rewrite H. cbn [mapT at_]. symmetry. apply scale_left.
Qed.
Lemma matmul_right a b b' : teq b' (mapT scale b) -> teq (matmul F zero add mul a b') (mapT scale (matmul F zero add mul a b)).
Proof.
  intros [S H]. cbn [mapT shape] in S. unfold teq, matmul. cbn [mapT shape at_]. rewrite S. split; [reflexivity|]. intros i. rewrite sum_scale. apply sum_ext. intros k. rewrite H. cbn [mapT at_]. symmetry. apply scale_right.
Qed.
Lemma plus_scale a a' b b' : teq a' (mapT scale a) -> teq b' (mapT scale b) -> teq (plus F add a' b') (mapT scale (plus F add a b)).
Proof.
  intros [S H] [S' H']. cbn [mapT shape] in S, S'. unfold teq, plus. cbn [mapT shape at_]. rewrite S, S'. split; [reflexivity|]. intros i. rewrite H, H', scale_add. reflexivity.
Qed.
Lemma teq_refl (a : tensor F) : teq a a.
Proof. split; reflexivity. Qed.

Lemma moveInto_spec v : forall v', moveInto scale v = Some v' -> teq (eval F zero add mul v') (mapT scale (eval F zero add mul v)) /\ seen F zero add mul v' = seen F zero add mul v.
Proof.
  induction v as [u t | t | u s g x IH | u x IHx y IHy | u x IHx y IHy | u al be tA tB x IHx y IHy c]; intros v'; cbn [moveInto]; try discriminate.
  - destruct u; [discriminate|]. destruct (moveInto scale x) as [x'|]; [|discriminate]. intros [= <-]. destruct (IH x' eq_refl) as [[S H] E]. split; [|cbn [seen app]; exact E].
    split; [reflexivity|]. intros i. cbn [eval reindex at_ mapT]. apply H.
  - destruct x as [ | | | um x A | | ]; try discriminate. destruct A as [ | A | | | | ]; try discriminate. destruct y as [ | B | | | | ]; try discriminate. destruct u; [discriminate|]. destruct um; [discriminate|]. intros [= <-]. split; [|reflexivity].
    cbn [eval scaleConst]. apply plus_scale; [apply matmul_right; apply teq_refl | apply teq_refl].
  - destruct y as [ | A | | | | ]; try discriminate. destruct u; [discriminate|].
    assert (P : forall i, scale (mul al (sum F zero add (Z.to_nat (col (if tA then [col (shape (eval F zero add mul x)); row (shape (eval F zero add mul x))] else [row (shape (eval F zero add mul x)); col (shape (eval F zero add mul x))])))
                (fun k => mul (at_ (eval F zero add mul x) (gemmIndex tA (row i) k)) (at_ A (gemmIndex tB k (col i)))))) =
              mul al (sum F zero add (Z.to_nat (col (if tA then [col (shape (eval F zero add mul x)); row (shape (eval F zero add mul x))] else [row (shape (eval F zero add mul x)); col (shape (eval F zero add mul x))])))
                (fun k => mul (at_ (eval F zero add mul x) (gemmIndex tA (row i) k)) (scale (at_ A (gemmIndex tB k (col i))))))).
    { intros i. rewrite scale_right, sum_scale. f_equal. apply sum_ext. intros k. apply scale_right. }
    destruct c as [[ | C | | | | ]|]; try discriminate; intros [= <-]; (split; [|reflexivity]); (split; [reflexivity|]); intros i; cbn [eval scaleConst gemm at_ mapT shape].
    + rewrite scale_add, P. f_equal. symmetry. apply scale_right.
    + symmetry. apply P.
Qed.
Lemma propagate_spec used l r e : propagate scale (MatMul used l r) = Some e ->
  teq (eval F zero add mul e) (mapT scale (eval F zero add mul (MatMul used l r))) /\
  seen F zero add mul e = (if used then [eval F zero add mul e] else []) ++ seen F zero add mul l ++ seen F zero add mul r.
Proof.
  cbn [propagate]. destruct (moveInto scale l) as [l'|] eqn:El; [|destruct (moveInto scale r) as [r'|] eqn:Er; [|discriminate]]; intros [= <-].
  - destruct (moveInto_spec l l' El) as [T S]. split; [apply matmul_left, T | cbn [seen]; rewrite S; reflexivity].
  - destruct (moveInto_spec r r' Er) as [T S]. split; [apply matmul_right, T | cbn [seen]; rewrite S; reflexivity].
Qed.
Lemma teqs_refl (l : list (tensor F)) : Forall2 teq l l.
Proof. induction l; constructor; auto. apply teq_refl. Qed.
End Numbers.

(** Orders. *)
Fixpoint orderedR (defs : list nat) (b : block) : Prop :=
  match b with [] => True | (n, args) :: r => (forall a, In a args -> In a defs) /\ orderedR (defs ++ [n]) r end.
Lemma ordered_R b : forall defs, ordered defs b <-> orderedR defs b.
Proof.
  induction b as [|[n args] b IH]; intros defs; cbn [orderedR].
  - split; [auto|]. intros _ [|? ?] name args post E; discriminate.
  - rewrite <- IH. split.
    + intros O. split.
      * intros a Ha. destruct (O [] n args b eq_refl a Ha) as [H | []]. auto.
      * intros pre name args' post E a Ha. destruct (O ((n, args) :: pre) name args' post) with (a := a) as [H | [H | H]]; [rewrite E; reflexivity | auto | left; apply in_or_app; auto | left; apply in_or_app; right; left; exact H | right; exact H].
    + intros [H1 H2] [|[n' args'] pre] name args0 post E a Ha; cbn [app] in E; injection E as <- <- E; subst.
      * left. apply H1, Ha.
      * destruct (H2 pre name args0 post eq_refl a Ha) as [H | H]; [apply in_app_or in H as [H | [<- | []]]; [left; auto | right; left; auto] | right; right; auto].
Qed.
Lemma orderedR_app a : forall defs b, orderedR defs (a ++ b) <-> orderedR defs a /\ orderedR (defs ++ map fst a) b.
Proof.
  induction a as [|[n args] a IH]; intros defs b; cbn [app orderedR map fst]; [rewrite app_nil_r; tauto|]. rewrite IH, <- app_assoc. cbn [app]. tauto.
Qed.
Definition others (k : nat) (b : block) : block := filter (fun o => negb (Nat.eqb (fst o) k)) b.
Lemma ordered_drop k b : forall defs defs', (forall x, In x defs -> x = k \/ In x defs') -> (In k defs' \/ forall n args, In (n, args) b -> ~ In k args) -> orderedR defs b -> orderedR defs' (others k b).
Proof.
  induction b as [|[n args] b IH]; intros defs defs' Sub K O; cbn [others filter]; [exact I|]. destruct O as [O1 O2]. cbn [fst].
  assert (K' : In k defs' \/ forall n args, In (n, args) b -> ~ In k args) by (destruct K as [K | K]; [left; auto | right; intros n' a' H; apply (K n' a'); right; auto]).
  destruct (Nat.eqb_spec n k) as [-> | N]; cbn [negb].
  - apply (IH (defs ++ [k])); auto. intros x Hx. apply in_app_or in Hx as [Hx | [<- | []]]; auto.
  - cbn [orderedR]. split.
    + intros a Ha. destruct (Sub a (O1 a Ha)) as [-> | H]; [|exact H]. destruct K as [K | K]; [exact K|]. exfalso. apply (K n args); [left; auto | auto].
    + apply (IH (defs ++ [n])); auto.
      * intros x Hx. apply in_app_or in Hx as [Hx | [<- | []]]; [destruct (Sub x Hx); [auto | right; apply in_or_app; auto] | right; apply in_or_app; right; left; auto].
      * destruct K' as [K' | K']; [left; apply in_or_app; auto | right; auto].
Qed.
Lemma insert_at m op a am b : ~ In m (map fst a) -> insertBefore m op (a ++ (m, am) :: b) = a ++ op :: (m, am) :: b.
Proof.
  induction a as [|[n args] a IH]; intros N; cbn [app insertBefore fst]; [rewrite Nat.eqb_refl; reflexivity|]. destruct (Nat.eqb_spec n m) as [-> | Q]; [exfalso; apply N; left; auto|].
  fold (insertBefore m op). rewrite IH by (intros H; apply N; right; auto). reflexivity.
Qed.
Lemma move_order params b pre m am post k : ordered params b -> NoDup (map fst b) -> b = pre ++ (m, am) :: post -> In (k, []) b -> k <> m -> (forall n args, In (n, args) pre -> ~ In k args) ->
  ordered params (moveBefore k m b).
Proof.
  intros O ND E Hk Nkm Nu. apply ordered_R. apply ordered_R in O. unfold moveBefore.
  assert (Fd : find (fun o => Nat.eqb (fst o) k) b = Some (k, [])).
  { clear - Hk ND. induction b as [|[n args] b IH]; [contradiction|]. cbn [find fst]. destruct (Nat.eqb_spec n k) as [-> | N].
    - destruct Hk as [[= ->] | Hk]; [reflexivity|]. cbn [map fst] in ND. inversion ND as [|? ? H _]; subst. exfalso. apply H. apply (in_map fst) in Hk. exact Hk.
    - destruct Hk as [[= -> ->] | Hk]; [contradiction|]. cbn [map fst] in ND. inversion ND as [|? ? ? ND']; subst. apply IH; auto. }
  rewrite Fd. fold (others k b). subst b. unfold others. rewrite filter_app. cbn [filter fst]. replace (Nat.eqb m k) with false by (symmetry; apply Nat.eqb_neq; auto). cbn [negb]. fold (others k pre) (others k post).
  assert (NM : ~ In m (map fst (others k pre))).
  { intros H. rewrite map_app in ND. cbn [map fst] in ND. apply NoDup_remove_2 in ND. apply ND. apply in_or_app. left. apply in_map_iff in H as (o & Eo & H). apply filter_In in H as [H _]. rewrite <- Eo. apply in_map, H. }
  rewrite insert_at by exact NM. apply orderedR_app in O as [O1 O2]. cbn [orderedR] in O2. destruct O2 as [O2 O3]. apply orderedR_app. split; [|cbn [orderedR]; split; [intros a []|split]].
  - apply (ordered_drop k pre params); auto.
  - intros a Ha. specialize (O2 a Ha). rewrite !in_app_iff. destruct (Nat.eq_dec a k) as [-> | N]; [right; left; auto|]. left. apply in_app_or in O2 as [H | H]; [left; auto|]. right. apply in_map_iff in H as ([n args] & Eo & H). cbn [fst] in Eo. subst.
    apply (in_map fst (others k pre) (a, args)). apply filter_In. split; [auto|]. cbn [fst]. apply negb_true_iff, Nat.eqb_neq. auto.
  - apply (ordered_drop k post ((params ++ map fst pre) ++ [m])); auto; [|left; rewrite !in_app_iff; left; right; left; auto].
    intros x Hx. destruct (Nat.eq_dec x k) as [-> | N]; [auto|]. right. rewrite !in_app_iff in *. destruct Hx as [[H | H] | H]; [auto | | auto]. left; left; right. apply in_map_iff in H as ([n args] & Eo & H). cbn [fst] in Eo. subst.
    apply (in_map fst (others k pre) (x, args)). apply filter_In. split; [auto|]. cbn [fst]. apply negb_true_iff, Nat.eqb_neq. auto.
Qed.
