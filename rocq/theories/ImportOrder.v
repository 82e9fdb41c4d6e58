(** The meaning of a graph without subgraphs and calls does not depend on the order of its
    nodes, and a sorted one is well-scoped. *)
From Coq Require Import String List Bool Arith Lia Permutation.
From Verif Require Import Util NodeOrderModel NodeOrderSpec NodeOrderProofs ImportModel ImportSpec ImportProofs.
Import ListNotations.
Open Scope string_scope.
Open Scope list_scope.

Section Order.
Context {O D : Type} (sem : O -> list (@value D) -> list (list (@value D) -> option (list (@value D))) -> option (list (@value D))).
Local Notation node := (node O D). Local Notation names := (@names D).
Definition flat (n : node) : Prop := match n with NOp _ _ _ [] => True | _ => False end.

Definition same (E E' : names) : Prop := forall x, E x = E' x.
Definition osame (a b : option names) : Prop := match a, b with Some E, Some E' => same E E' | None, None => True | _, _ => False end.
Lemma osame_trans a b c : osame a b -> osame b c -> osame a c.
Proof. destruct a, b, c; cbn; try tauto. intros H1 H2 x. now rewrite H1. Qed.
Lemma osame_refl a : osame a a.
Proof. destruct a; cbn; auto. intros x; auto. Qed.
Lemma setAll_other outs : forall E vs x, x = "" \/ ~ In x outs -> setAll (D := D) E outs vs x = E x.
Proof.
  induction outs as [|n outs IH]; intros E vs x H; cbn [setAll]; auto. rewrite IH by (destruct H; [auto|right; cbn in *; tauto]). destruct (String.eqb_spec n ""); auto. unfold set. destruct (String.eqb_spec x n) as [->|]; auto.
  exfalso. destruct H as [->|H]; [tauto|apply H; cbn; auto].
Qed.
Lemma setAll_same outs : forall E E' vs x, x <> "" -> In x outs \/ E x = E' x -> setAll (D := D) E outs vs x = setAll E' outs vs x.
Proof.
  induction outs as [|n outs IH]; intros E E' vs x HX H; cbn [setAll]; [destruct H as [[]|H]; auto|]. apply IH; auto. destruct (String.eqb_spec n "") as [->|Q].
  - destruct H as [[<-|H]|H]; [tauto|auto|auto].
  - unfold set. destruct (String.eqb_spec x n); [auto|]. destruct H as [[<-|H]|H]; [tauto|auto|auto].
Qed.
Lemma setAll_ext outs E E' vs : same E E' -> same (setAll E outs vs) (setAll E' outs vs).
Proof. intros H x. destruct (string_dec x "") as [->|Q]; [rewrite !setAll_other; auto|]. apply setAll_same; auto. Qed.
Lemma input_ext E E' ins : (forall x, In x ins -> x <> "" -> E x = E' x) -> allSome (input (D := D) E) ins = allSome (input E') ins.
Proof. intros H. apply allSome_ext. intros x Hx. unfold input. destruct (String.eqb_spec x ""); auto. Qed.
Lemma evalNode_ext n E E' : flat n -> same E E' -> osame (evalNode sem n E) (evalNode sem n E').
Proof.
  destruct n as [o ins outs [|]|]; cbn; try tauto. intros _ H. rewrite (input_ext E E') by auto. destruct (allSome (input E') ins); cbn; auto. destruct (sem o l []); cbn; auto. now apply setAll_ext.
Qed.
Lemma evalNodes_ext l : forall E E', Forall flat l -> same E E' -> osame (evalNodes sem l E) (evalNodes sem l E').
Proof.
  induction l as [|n l IH]; intros E E' HF H; cbn; auto. inversion HF; subst. pose proof (evalNode_ext n E E' H2 H) as Q. destruct (evalNode sem n E), (evalNode sem n E'); cbn in *; try tauto. auto.
Qed.
Lemma swap_nodes m n E : flat m -> flat n ->
  (forall x, In x (nodeIns n) -> x <> "" -> ~ In x (nodeOuts m)) -> (forall x, In x (nodeIns m) -> x <> "" -> ~ In x (nodeOuts n)) -> (forall x, In x (nodeOuts m) -> x <> "" -> ~ In x (nodeOuts n)) ->
  osame (evalNodes sem [m; n] E) (evalNodes sem [n; m] E).
Proof.
  destruct m as [o1 i1 o1s [|]|]; try (cbn; tauto). destruct n as [o2 i2 o2s [|]|]; try (cbn; tauto). intros _ _ H1 H2 H3. cbn [nodeIns nodeOuts evalNodes evalNode map] in *.
  assert (A : forall vs, allSome (input (setAll E o1s vs)) i2 = allSome (input E) i2) by (intros vs; apply input_ext; intros x Hx HQ; apply setAll_other; right; auto).
  assert (B : forall vs, allSome (input (setAll E o2s vs)) i1 = allSome (input E) i1) by (intros vs; apply input_ext; intros x Hx HQ; apply setAll_other; right; auto).
  destruct (allSome (input E) i1) as [v1|] eqn:E1; cbn [obind].
  2:{ destruct (allSome (input E) i2); cbn [obind]; [|exact I]. destruct (sem o2 l []) as [r|]; cbn [obind]; [|exact I]. rewrite B. exact I. }
  destruct (sem o1 v1 []) as [r1|] eqn:S1; cbn [obind].
  2:{ destruct (allSome (input E) i2); cbn [obind]; [|exact I]. destruct (sem o2 l []) as [r|]; cbn [obind]; [|exact I]. rewrite B. cbn [obind]. rewrite S1. exact I. }
  rewrite A. destruct (allSome (input E) i2) as [v2|] eqn:E2; cbn [obind]; [|exact I]. destruct (sem o2 v2 []) as [r2|] eqn:S2; cbn [obind]; [|exact I]. rewrite B. cbn [obind]. rewrite S1. cbn [obind].
  intros x. destruct (string_dec x "") as [->|Q]; [rewrite !setAll_other; auto|]. destruct (in_dec string_dec x o2s) as [I2|I2].
  - rewrite (setAll_other o1s _ r1) by (right; intros I1; now apply (H3 x)). apply setAll_same; auto.
  - rewrite (setAll_other o2s) by auto. destruct (in_dec string_dec x o1s) as [I1|I1]; [apply setAll_same; auto|]. rewrite !setAll_other by auto. auto.
Qed.
Lemma bubble n a : forall b E, Forall flat (a ++ n :: b) ->
  (forall m, In m a -> (forall x, In x (nodeIns n) -> x <> "" -> ~ In x (nodeOuts m)) /\ (forall x, In x (nodeIns m) -> x <> "" -> ~ In x (nodeOuts n)) /\ (forall x, In x (nodeOuts m) -> x <> "" -> ~ In x (nodeOuts n))) ->
  osame (evalNodes sem (a ++ n :: b) E) (evalNodes sem (n :: a ++ b) E).
Proof.
  induction a as [|m a IH]; intros b E HF H; [apply osame_refl|]. cbn [app] in HF. inversion HF as [|? ? F1 F2]; subst.
  assert (F3 : flat n) by (rewrite Forall_forall in F2; apply F2, in_app_iff; cbn; auto). assert (F4 : Forall flat (a ++ b)) by (rewrite Forall_forall in *; intros k Hk; apply F2; apply in_app_iff in Hk as [Hk|Hk]; apply in_app_iff; cbn; auto).
  apply osame_trans with (evalNodes sem (m :: n :: a ++ b) E).
  - cbn [app evalNodes]. destruct (evalNode sem m E); cbn [obind]; [|exact I]. apply (IH b n0 F2). intros k Hk. apply H. cbn; auto.
  - destruct (H m (or_introl eq_refl)) as (H1 & H2 & H3). pose proof (swap_nodes m n E F1 F3 H1 H2 H3) as S. cbn [evalNodes app] in *.
    destruct (evalNode sem m E) as [Em|]; cbn [obind] in *; destruct (evalNode sem n E) as [En|]; cbn [obind] in *; auto.
    + destruct (evalNode sem n Em) as [Emn|]; cbn [obind] in *; destruct (evalNode sem m En) as [Enm|]; cbn [obind] in *; try (cbn in *; tauto). now apply evalNodes_ext.
    + destruct (evalNode sem n Em); cbn in *; tauto.
    + destruct (evalNode sem m En); cbn in *; tauto.
Qed.

Definition outNames (l : list node) : list string := flat_map (fun n => named (nodeOuts n)) l.
Lemma named_in x l : In x (named l) <-> x <> "" /\ In x l.
Proof. unfold named. rewrite filter_In. destruct (String.eqb_spec x ""); cbn; intuition congruence. Qed.
Lemma order_irrelevant k : forall K l E, Permutation l k -> Forall flat k -> NoDup (outNames l) -> (forall x, In x (outNames l) -> ~ In x K) ->
  in_order nodeIns nodeOuts K l -> in_order nodeIns nodeOuts K k -> osame (evalNodes sem l E) (evalNodes sem k E).
Proof.
  induction k as [|n k IH]; intros K l E HP HF ND HK HL Hk.
  - apply Permutation_sym, Permutation_nil in HP as ->. apply osame_refl.
  - inversion HF as [|? ? F1 F2]; subst. assert (HI : In n l) by (eapply Permutation_in; [symmetry; exact HP|cbn; auto]). apply in_split in HI as (a & b & ->).
    assert (HP' : Permutation (a ++ b) k) by (apply (Permutation_cons_inv (a := n)); rewrite Permutation_middle; exact HP).
    assert (FL : Forall flat (a ++ n :: b)) by (eapply Permutation_Forall; [symmetry; exact HP|auto]).
    assert (IN : forall x, In x (nodeIns n) -> In x K) by (intros x Hx; destruct (Hk [] n k eq_refl x Hx) as [|(m & [] & _)]; auto).
    assert (NDP : NoDup (named (nodeOuts n) ++ outNames (a ++ b))).
    { eapply Permutation_NoDup; [|exact ND]. unfold outNames. rewrite !flat_map_app. cbn. apply Permutation_app_swap_app. }
    apply NoDup_app_inv in NDP as (N1 & N2 & N3).
    assert (SUB : forall x, In x (outNames (a ++ b)) \/ In x (named (nodeOuts n)) -> In x (outNames (a ++ n :: b))).
    { unfold outNames. rewrite !flat_map_app. cbn. intros x. rewrite !in_app_iff. tauto. }
    assert (OUTm : forall m x, In m a -> In x (nodeOuts m) -> x <> "" -> In x (outNames (a ++ b))).
    { intros m x Hm Hx Q. apply in_flat_map. exists m. split; [apply in_app_iff; auto|now apply named_in]. }
    apply osame_trans with (evalNodes sem (n :: a ++ b) E).
    + apply bubble; [auto|]. intros m Hm. split; [|split].
      * intros x Hx Q HO. apply (HK x); [apply SUB; left; eapply OUTm; eauto|auto].
      * intros x Hx Q HO. assert (HX : In x K \/ exists m', In m' a /\ In x (nodeOuts m')).
        { apply in_split in Hm as (a1 & a2 & ->). rewrite <- app_assoc in HL. cbn in HL. destruct (HL a1 m (a2 ++ n :: b) eq_refl x Hx) as [|(m' & M1 & M2)]; [auto|]. right. exists m'. split; [apply in_app_iff; auto|auto]. }
        destruct HX as [HX|(m' & M1 & M2)]; [apply (HK x); [apply SUB; right; now apply named_in|auto]|]. apply (N3 x); [now apply named_in|eapply OUTm; eauto].
      * intros x Hx Q HO. apply (N3 x); [now apply named_in|eapply OUTm; eauto].
    + cbn [evalNodes]. destruct (evalNode sem n E) as [E'|]; cbn [obind]; [|exact I]. apply (IH (K ++ nodeOuts n)); auto.
      * intros x Hx HK'. apply in_app_iff in HK' as [HK'|HK']; [apply (HK x); auto|]. apply (N3 x); [apply named_in; split; [|auto]|auto]. apply in_flat_map in Hx as (m & _ & Hx). now apply named_in in Hx.
      * intros before m after EQ x Hx. rewrite in_app_iff.
        assert (G : In x K \/ exists m', In m' (n :: before) /\ In x (nodeOuts m')).
        { assert (SPL : (exists a2, a = before ++ m :: a2) \/ exists b1, before = a ++ b1 /\ b = b1 ++ m :: after).
          { clear - EQ. revert before EQ. induction a as [|y a IH]; intros before EQ; cbn in EQ; [right; exists before; auto|]. destruct before as [|z before]; cbn in EQ; injection EQ as -> EQ; [left; exists a; auto|]. destruct (IH before EQ) as [(a2 & ->)|(b1 & -> & ->)]; [left; exists a2; auto|right; exists b1; auto]. }
          destruct SPL as [(a2 & ->)|(b1 & -> & ->)].
          - rewrite <- app_assoc in HL. cbn in HL. destruct (HL before m (a2 ++ n :: b) eq_refl x Hx) as [|(m' & M1 & M2)]; [auto|]. right. exists m'. cbn; auto.
          - destruct (HL (a ++ n :: b1) m after) with (x := x) as [|(m' & M1 & M2)]; [now rewrite <- app_assoc|auto|auto|]. right. exists m'. split; [|auto]. apply in_app_iff in M1 as [M1|[<-|M1]]; cbn; auto; right; apply in_app_iff; auto. }
        destruct G as [G|(m' & [<-|M1] & M2)]; eauto.
      * intros before m after EQ x Hx. rewrite in_app_iff. destruct (Hk (n :: before) m after) with (x := x) as [|(m' & [<-|M1] & M2)]; [now rewrite EQ|auto|auto|auto|]. eauto.
Qed.
Lemma in_order_scoped (P : list string -> Prop) (l : list node) : forall K vis, Forall flat l -> (forall x, In x K -> x = "" \/ In x vis) -> NoDup (outNames l) -> (forall x, In x (outNames l) -> ~ In x vis) ->
  in_order nodeIns nodeOuts K l -> P (vis ++ outNames l) -> scopedNodes P vis l.
Proof.
  induction l as [|n l IH]; intros K vis HF HK ND HV HO HP; cbn [scopedNodes outNames flat_map] in *; [now rewrite app_nil_r in HP|].
  inversion HF as [|? ? F1 F2]; subst. apply NoDup_app_inv in ND as (N1 & N2 & N3). split.
  - destruct n as [o ins outs [|]|]; cbn [flat] in F1; try tauto. change (Forall (usable vis) ins /\ new vis (named outs) /\ True). split; [|split; [|exact I]].
    + apply Forall_forall. intros x Hx. destruct (HO [] _ l eq_refl x Hx) as [H|(m & [] & _)]. now apply HK.
    + split; [exact N1|]. intros x Hx. split; [now apply named_in in Hx|]. apply HV, in_app_iff. auto.
  - assert (EQ : outsOf n = nodeOuts n) by now destruct n. rewrite EQ. apply (IH (K ++ nodeOuts n)); auto.
    + intros x Hx. rewrite in_app_iff. apply in_app_iff in Hx as [Hx|Hx]; [destruct (HK x Hx); auto|]. destruct (string_dec x ""); [auto|]. right. right. now apply named_in.
    + intros x Hx. rewrite in_app_iff. intros [H|H]; [apply (HV x); [apply in_app_iff; auto|auto]|]. now apply (N3 x).
    + intros before m after -> x Hx. rewrite in_app_iff. destruct (HO (n :: before) m after eq_refl x Hx) as [|(m' & [<-|M1] & M2)]; eauto.
    + rewrite <- app_assoc. exact HP.
Qed.
End Order.
