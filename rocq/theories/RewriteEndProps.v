(** C52: rewriting always comes to an end.  No assumption on types, on the
    expansion bound or on the order of the rewrites. *)
From Coq Require Import ZArith List Bool Lia.
From Verif Require Import Util TensorSpec FoldSpec FoldModel RewriteSpec RewriteModel RewriteProofs.
Import ListNotations.
Open Scope Z_scope.

(** Number of operators of an expression. *)
Fixpoint ops (e : texpr) : Z :=
  match e with
  | Var _ _ | Const _ _ => 0
  | TUn _ e _ => 1 + ops e
  | TBin _ e1 e2 _ => 1 + ops e1 + ops e2
  end.

(** Sums over the operators: subtractions, operators with exactly one
    constant operand, how much of the expression lies outside those, and
    operators with a constant on the left only. *)
Definition isSub (o : binop) : Z := match o with Sub => 1 | _ => 0 end.
Definition b1 (b : bool) : Z := if b then 1 else 0.

Fixpoint subs (e : texpr) : Z :=
  match e with
  | Var _ _ | Const _ _ => 0
  | TUn _ e _ => subs e
  | TBin o e1 e2 _ => isSub o + subs e1 + subs e2
  end.
Fixpoint mixed (e : texpr) : Z :=
  match e with
  | Var _ _ | Const _ _ => 0
  | TUn _ e _ => mixed e
  | TBin _ e1 e2 _ => b1 (xorb (isConst e1) (isConst e2)) + mixed e1 + mixed e2
  end.
Fixpoint outside (B : Z) (e : texpr) : Z :=
  match e with
  | Var _ _ | Const _ _ => 0
  | TUn _ e _ => outside B e
  | TBin _ e1 e2 _ =>
      b1 (xorb (isConst e1) (isConst e2)) * (B - (1 + ops e1 + ops e2)) + outside B e1 + outside B e2
  end.
Fixpoint lefts (e : texpr) : Z :=
  match e with
  | Var _ _ | Const _ _ => 0
  | TUn _ e _ => lefts e
  | TBin _ e1 e2 _ => b1 (isConst e1 && negb (isConst e2)) + lefts e1 + lefts e2
  end.

Lemma ops_pos e : 0 <= ops e.
Proof. induction e; cbn [ops]; lia. Qed.

Lemma digits e : 0 <= subs e <= ops e /\ 0 <= mixed e <= ops e /\ 0 <= lefts e <= ops e.
Proof.
  induction e; cbn [ops subs mixed lefts]; try lia.
  assert (0 <= isSub o <= 1) by (destruct o; cbn; lia).
  unfold b1. destruct (xorb _ _), (isConst e1 && _); lia.
Qed.

Lemma outside_bound B e : ops e <= B -> 0 <= outside B e <= ops e * B.
Proof.
  induction e; cbn [ops outside]; intros H; try lia.
  - specialize (IHe ltac:(lia)). pose proof (ops_pos e). nia.
  - pose proof (ops_pos e1). pose proof (ops_pos e2). specialize (IHe1 ltac:(lia)). specialize (IHe2 ltac:(lia)).
    unfold b1. destruct (xorb _ _); nia.
Qed.

(** One rewrite: fewer operators, or the same number and a smaller tuple. *)
Definition lower (B : Z) (e' e : texpr) : Prop :=
  ops e' < ops e \/
  (ops e' = ops e /\ isConst e' = isConst e /\
   (subs e' < subs e \/
    (subs e' = subs e /\
     (mixed e' < mixed e \/
      (mixed e' = mixed e /\
       (outside B e' < outside B e \/
        (outside B e' = outside B e /\ lefts e' < lefts e))))))).

Lemma isConst_ops e : isConst e = true -> ops e = 0 /\ subs e = 0 /\ mixed e = 0 /\ lefts e = 0 /\ forall B, outside B e = 0.
Proof. destruct e; cbn; try discriminate. auto. Qed.

Section End_.
  Variables (t : ety) (bound : Z).

  Lemma lower_root B p e e' : ops e <= B -> rewriteRoot t bound p e = Some e' -> lower B e' e.
  Proof.
    intros HB R.
    assert (forall a b, binEqb a b = true -> a = b) as BE
      by (intros a b; unfold binEqb; destruct a, b; cbn; intros; congruence).
    destruct p as [o|o|o|o|o|o|o|o|]; destruct e as [n T|s d|u a T|b a1 a2 T]; try discriminate R.
    - cbn [rewriteRoot] in R. match type of R with (if ?c then _ else _) = _ => destruct c eqn:C end; [|discriminate].
      injection R as <-. apply andb_true_iff in C as [C C2]. apply andb_true_iff in C as [_ C1].
      apply negb_true_iff in C2. right. cbn [ops subs mixed outside lefts isConst]. rewrite C1, C2. cbn [xorb b1 andb negb].
      destruct (isConst_ops _ C1) as (-> & -> & -> & -> & ->). repeat split; try lia.
    - destruct a1 as [| | |o2 x c1 T1]; try discriminate R. cbn [rewriteRoot] in R.
      match type of R with (if ?c then _ else _) = _ => destruct c eqn:C end; [|discriminate].
      injection R as <-. repeat match goal with H : _ && _ = true |- _ => apply andb_true_iff in H as [H ?] end.
      repeat match goal with H : negb _ = true |- _ => apply negb_true_iff in H end.
      right. unfold build. cbn [ops subs mixed outside lefts isConst].
      repeat match goal with H : isConst _ = _ |- _ => rewrite H end. cbn [xorb b1 andb negb].
      repeat match goal with H : isConst _ = true |- _ => destruct (isConst_ops _ H) as (-> & -> & -> & -> & ->); clear H end.
      repeat split; try lia.
    - destruct a1 as [| | |o2 x c1 T1]; try discriminate R. cbn [rewriteRoot] in R.
      match type of R with (if ?c then _ else _) = _ => destruct c eqn:C end; [|discriminate].
      injection R as <-. repeat match goal with H : _ && _ = true |- _ => apply andb_true_iff in H as [H ?] end.
      repeat match goal with H : negb _ = true |- _ => apply negb_true_iff in H end.
      right. unfold build. cbn [ops subs mixed outside lefts isConst].
      repeat match goal with H : isConst _ = _ |- _ => rewrite H end. cbn [xorb b1 andb negb].
      repeat match goal with H : isConst _ = true |- _ => destruct (isConst_ops _ H) as (-> & -> & -> & -> & ->); clear H end.
      pose proof (ops_pos a2).
      repeat split; try lia.
    - destruct a2 as [| | |o2 y c T1]; try discriminate R. cbn [rewriteRoot] in R.
      match type of R with (if ?c then _ else _) = _ => destruct c eqn:C end; [|discriminate].
      injection R as <-. repeat match goal with H : _ && _ = true |- _ => apply andb_true_iff in H as [H ?] end.
      repeat match goal with H : negb _ = true |- _ => apply negb_true_iff in H end.
      right. unfold build. cbn [ops subs mixed outside lefts isConst].
      repeat match goal with H : isConst _ = _ |- _ => rewrite H end. cbn [xorb b1 andb negb].
      repeat match goal with H : isConst _ = true |- _ => destruct (isConst_ops _ H) as (-> & -> & -> & -> & ->); clear H end.
      pose proof (ops_pos a1).
      repeat split; try lia.
    - destruct a1 as [| | |o2 x c1 T1]; try discriminate R. destruct a2 as [| | |o3 y c2 T2]; try discriminate R.
      cbn [rewriteRoot] in R.
      match type of R with (if ?c then _ else _) = _ => destruct c eqn:C end; [|discriminate].
      injection R as <-. repeat match goal with H : _ && _ = true |- _ => apply andb_true_iff in H as [H ?] end.
      repeat match goal with H : negb _ = true |- _ => apply negb_true_iff in H end.
      right. unfold build. cbn [ops subs mixed outside lefts isConst].
      repeat match goal with H : isConst _ = _ |- _ => rewrite H end. cbn [xorb b1 andb negb].
      repeat match goal with H : isConst _ = true |- _ => destruct (isConst_ops _ H) as (-> & -> & -> & -> & ->); clear H end.
      repeat split; try lia.
    - destruct a1 as [|s1 d1| |]; try discriminate R. destruct a2 as [|s2 d2| |]; try discriminate R.
      cbn [rewriteRoot] in R. destruct (binEqb b o) eqn:C; [|discriminate].
      apply obind_some in R as (ok & _ & R). destruct ok; [|discriminate]. unfold combine in R.
      apply obind_some in R as (s & _ & R). apply obind_some in R as (d & _ & R). injection R as <-. left. cbn. lia.
    - destruct a2 as [|s2 d2| |]; try discriminate R. cbn [rewriteRoot] in R.
      match type of R with (if ?c then _ else _) = _ => destruct c eqn:C end; [|discriminate].
      injection R as <-. left. cbn [ops]. lia.
    - destruct a as [|s1 d1| |]; try discriminate R. cbn [rewriteRoot] in R.
      destruct (unEqb u o) eqn:C; [|discriminate]. unfold transform in R.
      apply obind_some in R as (d & _ & R). injection R as <-. left. cbn. lia.
    - destruct a2 as [|s2 d2| |]; try discriminate R. cbn [rewriteRoot] in R.
      match type of R with (if ?c then _ else _) = _ => destruct c eqn:C end; [|discriminate].
      apply obind_some in R as (c & Hc & R). injection R as <-. unfold transform in Hc.
      apply obind_some in Hc as (d & _ & Hc). injection Hc as <-.
      apply andb_true_iff in C as [C _]. apply BE in C. subst b. right. cbn [ops isConst subs isSub]. repeat split; lia.
  Qed.

  Lemma lower_at B : forall path p e e', ops e <= B -> rewriteAt t bound path p e = Some e' -> lower B e' e.
  Proof.
    induction path as [|d path IH]; intros p e e' HB R.
    - cbn in R. eapply lower_root; eauto.
    - cbn in R. destruct e as [n T|s dd|o e1 T|o e1 e2 T], d; try discriminate R;
        apply obind_some in R as (e1' & R1 & R); injection R as <-; cbn [ops] in HB;
        pose proof (ops_pos e1); try pose proof (ops_pos e2);
        apply IH in R1; try lia; unfold lower in R1 |- *; cbn [ops subs mixed outside lefts isConst].
      + lia.
      + destruct R1 as [R1|(N & C & R1)]; [lia|]. right. rewrite N, C. split; [lia|]. split; [auto|]. lia.
      + destruct R1 as [R1|(N & C & R1)]; [lia|]. right. rewrite N, C. split; [lia|]. split; [auto|]. lia.
  Qed.

  (** The tuple as one number, in base [B]. *)
  Definition rankOf (B : Z) (e : texpr) : Z :=
    (((ops e * B + subs e) * B + mixed e) * (B * B) + outside B e) * B + lefts e.

  Lemma horner_lt M a a' b b' : 0 <= b -> 0 <= b' < M -> a' < a -> a' * M + b' < a * M + b.
  Proof. nia. Qed.

  Lemma lower_rank B e e' : ops e < B -> lower B e' e -> rankOf B e' < rankOf B e /\ ops e' <= ops e.
  Proof.
    intros HB L. unfold rankOf.
    assert (ops e' <= ops e) as Le by (destruct L as [L|(L & _)]; lia). split; [|auto].
    pose proof (ops_pos e). pose proof (ops_pos e').
    destruct (digits e) as (Ds & Dm & Dl). destruct (digits e') as (Ds' & Dm' & Dl').
    pose proof (outside_bound B e ltac:(lia)) as Do. pose proof (outside_bound B e' ltac:(lia)) as Do'.
    assert (0 <= outside B e' < B * B) as Do'' by nia.
    destruct L as [L|(E0 & _ & [L|(E1 & [L|(E2 & [L|(E3 & L)])])])].
    - do 4 (apply horner_lt; try lia).
    - rewrite E0. do 3 (apply horner_lt; try lia).
    - rewrite E0, E1. do 2 (apply horner_lt; try lia).
    - rewrite E0, E1, E2. apply horner_lt; lia.
    - rewrite E0, E1, E2, E3. lia.
  Qed.

  Lemma rank_bound B e : ops e < B -> 0 <= rankOf B e < B ^ 6.
  Proof.
    intros HB. unfold rankOf. pose proof (ops_pos e). destruct (digits e) as (Ds & Dm & Dl).
    pose proof (outside_bound B e ltac:(lia)) as Do. assert (outside B e < B * B) by nia.
    replace (B ^ 6) with ((((B * B) * B) * (B * B)) * B) by ring.
    assert (forall a b M, 0 <= a -> 0 <= b < M -> forall K, a < K -> 0 <= a * M + b < K * M) as Hn by (intros; nia).
    pose proof (Hn (ops e) (subs e) B ltac:(lia) ltac:(lia) B ltac:(lia)) as H1.
    pose proof (Hn (ops e * B + subs e) (mixed e) B ltac:(lia) ltac:(lia) (B * B) ltac:(lia)) as H2.
    pose proof (Hn _ (outside B e) (B * B) (proj1 H2) ltac:(lia) (B * B * B) (proj2 H2)) as H3.
    exact (Hn _ (lefts e) B (proj1 H3) ltac:(lia) _ (proj2 H3)).
  Qed.

  Lemma history_rank B : forall h e e', ops e < B -> rewrites t bound h e = Some e' ->
    Z.of_nat (length h) <= rankOf B e - rankOf B e'.
  Proof.
    induction h as [|[path p] h IH]; intros e e' HB R; cbn in R.
    - injection R as <-. cbn. lia.
    - apply obind_some in R as (e1 & R1 & R). apply (lower_at B) in R1; [|lia].
      destruct (lower_rank B e e1 HB R1) as [Lt Le]. specialize (IH e1 e' ltac:(lia) R). cbn [length]. lia.
  Qed.

  (** However the rewrites are chosen, an expression with n operators allows
      at most (n+1)^6 of them. *)
Theorem C52_rewriting_ends : forall h e e', rewrites t bound h e = Some e' ->
    Z.of_nat (length h) <= (ops e + 1) ^ 6.
  Proof.
    intros h e e' R. pose proof (history_rank (ops e + 1) h e e' ltac:(lia) R) as H.
    pose proof (rank_bound (ops e + 1) e ltac:(lia)) as Hb.
    assert (0 <= rankOf (ops e + 1) e').
    { unfold rankOf. pose proof (ops_pos e) as P. pose proof (ops_pos e') as P'.
      assert (ops e' <= ops e) as Le.
      { clear - R. revert e R. induction h as [|[path p] h IH]; intros e R; cbn in R; [injection R as <-; lia|].
        apply obind_some in R as (e1 & R1 & R). apply (lower_at (ops e)) in R1; [|lia]. apply IH in R.
        destruct R1 as [L|(L & _)]; lia. }
      destruct (digits e') as (Ds & Dm & Dl). pose proof (outside_bound (ops e + 1) e' ltac:(lia)) as Do.
      repeat (apply Z.add_nonneg_nonneg || apply Z.mul_nonneg_nonneg); lia. }
    lia.
  Qed.

  (** So no infinite sequence of rewrites exists. *)
Theorem C52_no_infinite_history : forall (f : nat -> texpr) (choice : nat -> list bool * pattern),
    ~ (forall n, rewriteAt t bound (fst (choice n)) (snd (choice n)) (f n) = Some (f (S n))).
  Proof.
    intros f choice H.
    assert (forall n k, rewrites t bound (map choice (seq k n)) (f k) = Some (f (k + n)%nat)) as G.
    { induction n as [|n IH]; intros k; cbn.
      - rewrite Nat.add_0_r. reflexivity.
      - pose proof (H k) as Hk. destruct (choice k) as [path p]. cbn in Hk. rewrite Hk. cbn [obind].
        rewrite IH. do 2 f_equal. lia. }
    pose proof (C52_rewriting_ends _ _ _ (G (Z.to_nat ((ops (f 0%nat) + 1) ^ 6 + 1)) 0%nat)) as L.
    rewrite map_length, seq_length in L.
    assert (0 <= (ops (f 0%nat) + 1) ^ 6) by (apply Z.pow_nonneg; pose proof (ops_pos (f 0%nat)); lia).
    lia.
  Qed.
End End_.

(** Eight rewrites of one expression: ((c1 + (x - c2)) + y) + c3 with a zero
    in the end. *)
Example C52_example :
  let st s := Some (map Some s) in
  let e := TBin Add (TBin Add (TBin Add (Const [1; 2] [1; 2]) (TBin Sub (Var 0 (st [1; 2])) (Const [1; 2] [3; 5]) (st [1; 2])) (st [1; 2]))
             (Var 1 (st [1; 2])) (st [1; 2])) (Const [1; 2] [2; 3]) (st [1; 2]) in
  let h := [([false; false; true], SubConstToNeg); ([false; false], ConstCommutative1 AAdd);
            ([false; false], ConstAssociative1 AAdd); ([false; false; true], ConstProp Add);
            ([false], ConstAssociative2 AAdd); ([], ConstAssociative1 AAdd);
            ([true], ConstProp Add); ([], NeutralOnRhs NAdd)] in
  rewrites (TInt true 8) (-1) h e = Some (TBin Add (Var 0 (st [1; 2])) (Var 1 (st [1; 2])) (st [1; 2])).
Proof. vm_compute. reflexivity. Qed.

Print Assumptions C52_rewriting_ends.
Print Assumptions C52_no_infinite_history.
