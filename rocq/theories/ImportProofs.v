(** Proofs about the symbol table and the importer. *)
From Coq Require Import String List Bool Arith Lia.
From Verif Require Import Util ImportModel ImportSpec.
Import ListNotations.
Open Scope string_scope.
Open Scope list_scope.

(** ** The symbol table *)
Section Table.
Context {T : Type}.
Lemma getBy_app (t : table T) s n : getByOnnxName (t ++ [s]) n = match getByOnnxName t n with Some v => Some v | None => scopeGet s n end.
Proof. induction t as [|a t IH]; cbn; [now destruct (scopeGet s n)|]. destruct (scopeGet a n); auto. Qed.
Lemma contains_get (s : scope T) n : scopeContains s n = true <-> scopeGet s n <> None.
Proof.
  unfold scopeContains, scopeGet. induction (sMap s) as [|e l IH]; cbn; [split; congruence|]. destruct (String.eqb (fst e) n); cbn; [split; congruence|]. exact IH.
Qed.
Lemma addMapping_app (t : table T) s n v : addMapping (t ++ [s]) n v = if scopeContains s n then None else Some (t ++ [{| sId := sId s; sMap := (n, v) :: sMap s |}]).
Proof.
  induction t as [|a t IH]; cbn [app addMapping].
  - unfold scopeSet. now destruct (scopeContains s n).
  - rewrite IH. destruct (t ++ [s]) eqn:E; [now destruct t|]. now destruct (scopeContains s n).
Qed.
Lemma popScope_app (t : table T) s id : popScope (t ++ [s]) id = if String.eqb (sId s) id then Some t else None.
Proof.
  induction t as [|a t IH]; cbn [app popScope]; [now destruct (String.eqb (sId s) id)|]. rewrite IH. destruct (t ++ [s]) eqn:E; [now destruct t|]. now destruct (String.eqb (sId s) id).
Qed.
Lemma scopeGet_cons id n v (m : list (string * T)) k : scopeGet {| sId := id; sMap := (n, v) :: m |} k = if String.eqb n k then Some v else scopeGet {| sId := id; sMap := m |} k.
Proof. unfold scopeGet. cbn. now destruct (String.eqb n k). Qed.
Lemma addMapping_new (t : table T) outer s n v : t = outer ++ [s] -> getByOnnxName t n = None ->
  exists t', addMapping t n v = Some t' /\ t' = outer ++ [{| sId := sId s; sMap := (n, v) :: sMap s |}] /\ forall k, getByOnnxName t' k = if String.eqb n k then Some v else getByOnnxName t k.
Proof.
  intros -> H. rewrite getBy_app in H. destruct (getByOnnxName outer n) eqn:E; [discriminate|]. rewrite addMapping_app.
  destruct (scopeContains s n) eqn:C; [apply contains_get in C; congruence|]. eexists. split; [reflexivity|]. split; [auto|]. intros k. rewrite !getBy_app, scopeGet_cons. destruct s as [id m]. cbn [sId sMap].
  destruct (String.eqb_spec n k) as [->|]; [now rewrite E|]. reflexivity.
Qed.
End Table.

Section Import.
Context {O D : Type} (sem : O -> list (@value D) -> list (list (@value D) -> option (list (@value D))) -> option (list (@value D))).
Context (nIn nOut : O -> option nat) (HR : respectful sem) (HT : trailing_optional sem nIn).
Local Notation node := (node O D). Local Notation graph := (graph O D). Local Notation operation := (operation O D).
Local Notation value := (@value D). Local Notation names := (@names D). Local Notation values := (@values D).

Fixpoint importNodes (l : list node) (st : state) : option (list operation * state) :=
  match l with [] => Some ([], st) | n :: r => p <- importNode nIn nOut n st ;; q <- importNodes r (snd p) ;; Some (fst p ++ fst q, snd q) end.
Fixpoint importSubs (l : list graph) (st : state) : option (list (region O D) * state) :=
  match l with [] => Some ([], st) | g :: r => p <- importGraph nIn nOut g st ;; q <- importSubs r (snd p) ;; Some (fst p :: fst q, snd q) end.
Fixpoint evalNodes (l : list node) (e : names) : option names := match l with [] => Some e | n :: r => e' <- evalNode sem n e ;; evalNodes r e' end.
Fixpoint runOps (l : list operation) (e : values) : option values := match l with [] => Some e | o :: r => e' <- runOp sem o e ;; runOps r e' end.
Definition scopedNodes (P : list string -> Prop) := fix all (vis : list string) (l : list node) : Prop :=
  match l with [] => P vis | n :: r => scopedNode vis n /\ all (vis ++ named (outsOf n)) r end.
Definition scopedSubs (vis : list string) := fix all (l : list graph) : Prop := match l with [] => True | g :: r => scopedGraph vis g /\ all r end.

Lemma node_graph_ind (P : node -> Prop) (Q : graph -> Prop) :
  (forall o ins outs subs, Forall Q subs -> P (NOp o ins outs subs)) ->
  (forall id ins outs fins fouts body, Forall P body -> P (NCall id ins outs fins fouts body)) ->
  (forall id inits inputs nodes outputs, Forall P nodes -> Q (Graph id inits inputs nodes outputs)) ->
  (forall n, P n) /\ (forall g, Q g).
Proof.
  intros H1 H2 H3.
  assert (PN : forall n, P n).
  { fix F 1 with (G (g : graph) : Q g).
    - intros [o ins outs subs|id ins outs fins fouts body].
      + apply H1. induction subs as [|g r IH]; constructor; [apply G|exact IH].
      + apply H2. induction body as [|n r IH]; constructor; [apply F|exact IH].
    - destruct g as [id inits inputs nodes outputs]. apply H3. induction nodes as [|n r IH]; constructor; [apply F|exact IH]. }
  split; [exact PN|]. intros [id inits inputs nodes outputs]. apply H3. apply Forall_forall. auto.
Qed.

Lemma runOps_app a b e : runOps (a ++ b) e = obind (runOps a e) (runOps b).
Proof. revert e. induction a as [|o a IH]; intros e; cbn; auto. destruct (runOp sem o e); cbn; auto. Qed.
Lemma allSome_ext {A B} (f g : A -> option B) l : (forall x, In x l -> f x = g x) -> allSome f l = allSome g l.
Proof. induction l as [|x l IH]; cbn; intros H; auto. rewrite H, IH; auto. Qed.
Lemma allSome_app {A B} (f : A -> option B) l m xs ys : allSome f l = Some xs -> allSome f m = Some ys -> allSome f (l ++ m) = Some (xs ++ ys).
Proof.
  revert xs. induction l as [|x l IH]; cbn; intros xs H1 H2; [injection H1 as <-; auto|]. destruct (f x); [|discriminate]. cbn in *. destruct (allSome f l) eqn:E; [|discriminate]. cbn in *. injection H1 as <-.
  now rewrite (IH l0 eq_refl H2).
Qed.
Lemma allSome_length {A B} (f : A -> option B) l xs : allSome f l = Some xs -> length xs = length l.
Proof. revert xs. induction l as [|x l IH]; cbn; intros xs H; [injection H as <-; auto|]. destruct (f x); [|discriminate]. cbn in H. destruct (allSome f l); [|discriminate]. injection H as <-. cbn. now rewrite (IH l0). Qed.
Lemma allSome_nth {A B} (f : A -> option B) l xs i x : allSome f l = Some xs -> nth_error l i = Some x -> f x = nth_error xs i.
Proof.
  revert xs i. induction l as [|y l IH]; intros xs [|i] H1 H2; cbn in *; try discriminate; destruct (f y) eqn:E; try discriminate; cbn in H1; destruct (allSome f l); try discriminate; injection H1 as <-; [congruence|]. cbn. now apply IH.
Qed.

(** ** Invariants *)
Definition Dom (st : state) (vis : list string) : Prop := forall n, In n vis <-> getByOnnxName (tab st) n <> None.
Definition Rel (st : state) (E : names) (S : values) : Prop :=
  forall n, match getByOnnxName (tab st) n with Some v => (v < next st)%nat /\ S v = E n /\ E n <> None | None => E n = None end.
Definition shaped (t t' : table nat) : Prop := exists outer id m m', t = outer ++ [{| sId := id; sMap := m |}] /\ t' = outer ++ [{| sId := id; sMap := m' |}].
Definition open_table (t : table nat) : Prop := shaped t t.

Lemma shaped_trans a b c : shaped a b -> shaped b c -> shaped a c.
Proof.
  intros (o & i & m & m' & -> & E) (o2 & i2 & m2 & m2' & E2 & ->). rewrite E in E2. apply app_inj_tail in E2 as [<- E2]. injection E2 as <- <-. exists o, i, m, m2'. auto.
Qed.
Lemma shaped_open a b : shaped a b -> open_table a /\ open_table b.
Proof. intros (o & i & m & m' & -> & ->). split; repeat eexists. Qed.
Lemma Rel_frame st st' E S S' : Rel st E S -> tab st' = tab st -> (next st <= next st')%nat -> (forall v, (v < next st)%nat -> S' v = S v) -> Rel st' E S'.
Proof. intros H HT1 HN HF n. specialize (H n). rewrite HT1. destruct (getByOnnxName (tab st) n); auto. destruct H as (H1 & H2 & H3). split; [lia|]. rewrite HF; auto. Qed.
Lemma Dom_tab st st' vis : Dom st vis -> tab st' = tab st -> Dom st' vis.
Proof. intros H E n. rewrite E. apply H. Qed.

Lemma bindName_ok st vis n v : Dom st vis -> open_table (tab st) -> ~ In n vis ->
  exists st', bindName st n v = Some st' /\ next st' = next st /\ shaped (tab st) (tab st') /\ Dom st' (vis ++ [n]) /\
    forall E S x, Rel st E S -> (v < next st)%nat -> S v = Some x -> Rel st' (set E n x) S.
Proof.
  intros HD (o & i & m & m0 & E & _) HN. assert (G : getByOnnxName (tab st) n = None) by (destruct (getByOnnxName (tab st) n) eqn:Q; auto; destruct HN; apply HD; congruence).
  destruct (addMapping_new (tab st) o _ n v E G) as (t' & E1 & E2 & E3). unfold bindName. rewrite E1. cbn [obind]. eexists. split; [reflexivity|]. cbn [tab next]. split; [auto|]. split; [|split].
  - rewrite E, E2. cbn. repeat eexists.
  - intros k. cbn [tab]. rewrite in_app_iff, E3, (HD k). cbn [In]. destruct (String.eqb_spec n k) as [->|Q]; [intuition congruence|]. intuition.
  - intros F S x HRel Hv HS k. cbn [tab next]. rewrite E3. unfold set. specialize (HRel k). rewrite (String.eqb_sym k n). destruct (String.eqb_spec n k) as [->|Q]; [split; [auto|]; split; congruence|]. exact HRel.
Qed.

Lemma named_nonempty l : (forall n, In n l -> n <> "") -> named l = l.
Proof. unfold named. induction l as [|n l IH]; cbn; intros H; auto. destruct (String.eqb_spec n "") as [E|E]; [destruct (H n); auto|]. cbn. now rewrite IH by auto. Qed.

Lemma bindOutputs_ok outs : forall st vis vs, Dom st vis -> open_table (tab st) -> new vis (named outs) -> (length outs <= length vs)%nat ->
  exists st', bindOutputs st outs vs = Some st' /\ next st' = next st /\ shaped (tab st) (tab st') /\ Dom st' (vis ++ named outs) /\
    forall E S xs, Rel st E S -> (forall i v, nth_error vs i = Some v -> (i < length outs)%nat -> (v < next st)%nat /\ S v = Some (nth i xs None)) -> Rel st' (setAll E outs xs) S.
Proof.
  induction outs as [|n outs IH]; intros st vis vs HD HO HN HL; cbn [bindOutputs].
  - exists st. split; [auto|]. split; [auto|]. split; [exact HO|]. split; [cbn; now rewrite app_nil_r|]. intros; auto.
  - destruct vs as [|v vs]; [cbn in HL; lia|]. unfold named in HN |- *. cbn [filter] in *. fold (named outs) in *. destruct (String.eqb_spec n "") as [->|Q]; cbn [negb] in *.
    + destruct (IH st vis vs HD HO HN ltac:(cbn in HL; lia)) as (st' & E1 & E2 & E3 & E4 & E5). exists st'. split; [auto|]. split; [auto|]. split; [auto|]. split; [auto|].
      intros F S xs HRel HV. cbn [setAll]. cbn [String.eqb]. apply E5; [auto|]. intros i w Hi Hl. specialize (HV (Datatypes.S i) w Hi ltac:(cbn; lia)). destruct xs; cbn in *; [destruct i; auto|auto].
    + destruct HN as [ND HN]. inversion ND as [|? ? ND1 ND2]; subst. destruct (bindName_ok st vis n v HD HO) as (st1 & B1 & B2 & B3 & B4 & B5); [apply HN; cbn; auto|].
      rewrite B1. cbn [obind]. destruct (IH st1 (vis ++ [n]) vs B4 (proj2 (shaped_open _ _ B3))) as (st' & E1 & E2 & E3 & E4 & E5); [|cbn in HL; lia|].
      { split; [auto|]. intros k Hk. split; [apply HN; cbn; auto|]. rewrite in_app_iff. intros [Q1|[<-|[]]]; [apply (HN k); cbn; auto|auto]. }
      exists st'. split; [auto|]. split; [congruence|]. split; [eapply shaped_trans; eauto|]. split; [rewrite <- app_assoc in E4; exact E4|].
      intros F S xs HRel HV. cbn [setAll]. destruct (String.eqb_spec n ""); [tauto|]. apply E5.
      * destruct (HV 0%nat v eq_refl ltac:(cbn; lia)) as [V1 V2]. apply B5; auto. destruct xs; exact V2.
      * intros i w Hi Hl. specialize (HV (Datatypes.S i) w Hi ltac:(cbn; lia)). rewrite B2. destruct xs; cbn in *; [destruct i; auto|auto].
Qed.
Lemma bindAll_eq ns : forall st vs, (forall n, In n ns -> n <> "") -> length ns = length vs -> bindAll st (combine ns vs) = bindOutputs st ns vs.
Proof.
  induction ns as [|n ns IH]; intros st [|v vs] H HL; cbn in *; try discriminate; auto. destruct (String.eqb_spec n "") as [E|E]; [destruct (H n); auto|]. destruct (bindName st n v); cbn; auto.
Qed.
Lemma bindCallOutputs_eq ns : forall st vs, (forall n, In n ns -> n <> "") -> length ns = length vs -> bindCallOutputs st ns vs = bindOutputs st ns vs.
Proof.
  induction ns as [|n ns IH]; intros st [|v vs] H HL; cbn in *; try discriminate; auto. destruct (String.eqb_spec n "") as [E|E]; [destruct (H n); auto|]. destruct (bindName st n v); cbn; auto.
Qed.

Lemma nth_error_seq a k i v : nth_error (seq a k) i = Some v -> v = (a + i)%nat /\ (i < k)%nat.
Proof. revert a i. induction k as [|k IH]; intros a [|i] H; cbn in H; try discriminate; [injection H as <-; lia|]. apply IH in H. lia. Qed.

Lemma NoDup_app_inv {A} (l m : list A) : NoDup (l ++ m) -> NoDup l /\ NoDup m /\ forall x, In x l -> ~ In x m.
Proof.
  induction l as [|y l IH]; cbn; intros H; [repeat split; auto; constructor|]. inversion H as [|? ? H1 H2]; subst. destruct (IH H2) as (A1 & A2 & A3). rewrite in_app_iff in H1.
  split; [constructor; tauto|]. split; [auto|]. intros x [<-|Hx]; [tauto|auto].
Qed.

(** ** Inputs *)
Lemma getNodeInputs_ok ins : forall st vis, Dom st vis -> Forall (usable vis) ins ->
  exists vs ops st', getNodeInputs st ins = (vs, ops, st') /\ length vs = length ins /\ tab st' = tab st /\ (next st <= next st')%nat /\
    forall E S, Rel st E S -> exists S' xs, allSome (input E) ins = Some xs /\ runOps ops S = Some S' /\ (forall v, (v < next st)%nat -> S' v = S v) /\ allSome S' vs = Some xs /\ (forall v, In v vs -> (v < next st')%nat).
Proof.
  induction ins as [|n ins IH]; intros st vis HD HU; cbn [getNodeInputs].
  - exists [], [], st. repeat split; auto. intros E S _. exists S, []. repeat split; auto. intros v [].
  - inversion HU as [|? ? U1 U2]; subst. destruct (String.eqb_spec n "") as [->|Q].
    + destruct (IH {| tab := tab st; next := Datatypes.S (next st) |} vis HD U2) as (vs & ops & st' & E1 & E2 & E3 & E4 & E5). rewrite E1. cbn [tab next] in *. eexists _, _, _. split; [reflexivity|]. split; [cbn; congruence|]. split; [auto|]. split; [lia|].
      intros E S HRel. destruct (E5 E (setv S (next st) None)) as (S' & xs & X1 & X2 & X3 & X4 & X5).
      { apply (Rel_frame st _ E S); auto; cbn; [lia|]. intros v Hv. unfold setv. destruct (Nat.eqb_spec v (next st)); [lia|auto]. }
      exists S', (None :: xs). split; [cbn [allSome]; unfold input at 1; cbn; now rewrite X1|]. split; [cbn; exact X2|]. split.
      { intros v Hv. rewrite X3 by lia. unfold setv. destruct (Nat.eqb_spec v (next st)); [lia|auto]. }
      split; [cbn [allSome]; rewrite X3 by lia; unfold setv; rewrite Nat.eqb_refl; cbn; now rewrite X4|]. intros v [<-|Hv]; [lia|auto].
    + destruct (IH st vis HD U2) as (vs & ops & st' & E1 & E2 & E3 & E4 & E5). rewrite E1. destruct U1 as [U1|U1]; [tauto|]. apply HD in U1. destruct (getByOnnxName (tab st) n) as [v|] eqn:G; [|congruence].
      eexists _, _, _. split; [reflexivity|]. split; [cbn; congruence|]. split; [auto|]. split; [auto|]. intros E S HRel. destruct (E5 E S HRel) as (S' & xs & X1 & X2 & X3 & X4 & X5).
      pose proof (HRel n) as Hn. rewrite G in Hn. destruct Hn as (V1 & V2 & V3). destruct (E n) as [x|] eqn:EN; [|congruence]. exists S', (x :: xs). split.
      { cbn [allSome]. unfold input at 1. destruct (String.eqb_spec n ""); [tauto|]. rewrite EN. cbn. now rewrite X1. }
      split; [auto|]. split; [auto|]. split; [cbn [allSome]; rewrite X3, V2 by auto; cbn; now rewrite X4|]. intros w [<-|Hw]; [lia|auto].
Qed.
Lemma getCallInputs_eq ins : forall st vis, Dom st vis -> Forall (usable vis) ins -> @getCallInputs O D st ins = Some (getNodeInputs st ins).
Proof.
  induction ins as [|n ins IH]; intros st vis HD HU; cbn [getNodeInputs getCallInputs]; auto. inversion HU as [|? ? U1 U2]; subst. destruct (String.eqb_spec n "") as [->|Q].
  - rewrite (IH {| tab := tab st; next := Datatypes.S (next st) |} vis HD U2). cbn [obind]. now destruct (getNodeInputs _ _) as [[? ?] ?].
  - destruct U1 as [U1|U1]; [tauto|]. apply HD in U1. destruct (getByOnnxName (tab st) n); [|congruence]. cbn [obind]. rewrite (IH st vis HD U2). cbn [obind]. now destruct (getNodeInputs _ _) as [[? ?] ?].
Qed.
Lemma noneOps_ok a k S : exists S', runOps (noneOps (seq a k)) S = Some S' /\ (forall v, (v < a)%nat -> S' v = S v) /\ (forall v, (a <= v < a + k)%nat -> S' v = Some None).
Proof.
  revert a S. induction k as [|k IH]; intros a S; cbn [seq noneOps map runOps]; [exists S; repeat split; auto; lia|]. cbn [runOp obind].
  destruct (IH (Datatypes.S a) (setv S a None)) as (S' & E1 & E2 & E3). exists S'. split; [exact E1|]. split.
  - intros v Hv. rewrite E2 by lia. unfold setv. destruct (Nat.eqb_spec v a); [lia|auto].
  - intros v Hv. destruct (Nat.eq_dec v a) as [->|]; [rewrite E2 by lia; unfold setv; now rewrite Nat.eqb_refl|]. apply E3. lia.
Qed.
Lemma allSome_none S a k : (forall v, (a <= v < a + k)%nat -> S v = Some None) -> allSome (S : values) (seq a k) = Some (repeat None k).
Proof. revert a. induction k as [|k IH]; intros a H; cbn; auto. rewrite H by lia. cbn. rewrite IH; auto. intros v Hv. apply H. lia. Qed.
Lemma setvAll_seq a k (xs : list value) : forall S v, setvAll S (seq a k) xs v = if (a <=? v)%nat && (v <? a + k)%nat then Some (nth (v - a) xs None) else S v.
Proof.
  revert a xs. induction k as [|k IH]; intros a xs S v; cbn [seq setvAll].
  - destruct (Nat.leb_spec a v), (Nat.ltb_spec v (a + 0)); cbn; auto; lia.
  - rewrite IH. unfold setv. destruct (Nat.leb_spec (Datatypes.S a) v), (Nat.ltb_spec v (Datatypes.S a + k)), (Nat.leb_spec a v), (Nat.ltb_spec v (a + Datatypes.S k)), (Nat.eqb_spec v a); cbn [andb]; try lia; auto.
    + f_equal. replace (v - a) with (Datatypes.S (v - Datatypes.S a)) by lia. destruct xs; cbn; [now destruct (v - Datatypes.S a)|reflexivity].
    + subst. rewrite Nat.sub_diag. now destruct xs.
Qed.
Lemma sem_pad o xs k fs : (nIn o <> None \/ k = 0%nat) -> sem o (xs ++ repeat None k) fs = sem o xs fs.
Proof.
  intros [H| ->]; [|cbn; now rewrite app_nil_r]. induction k as [|k IH]; [cbn; now rewrite app_nil_r|]. replace (repeat None (Datatypes.S k)) with (repeat (@None D) k ++ [None]) by (clear; induction k; cbn; auto; now rewrite IHk).
  rewrite app_assoc, HT; auto.
Qed.

(** ** Initializers *)
Lemma importInits_ok inits : forall st vis, Dom st vis -> open_table (tab st) -> new vis (map fst inits) ->
  exists ops st', importInits (O := O) st inits = Some (ops, st') /\ (next st <= next st')%nat /\ shaped (tab st) (tab st') /\ Dom st' (vis ++ map fst inits) /\
    forall E S, Rel st E S -> exists S', runOps ops S = Some S' /\ (forall v, (v < next st)%nat \/ (next st' <= v)%nat -> S' v = S v) /\ Rel st' (setAll E (map fst inits) (map (fun i => Some (snd i)) inits)) S'.
Proof.
  induction inits as [|[n d] inits IH]; intros st vis HD HO [ND HN]; cbn [importInits].
  - exists [], st. split; [auto|]. split; [auto|]. split; [exact HO|]. split; [cbn; now rewrite app_nil_r|]. intros E S HRel. exists S. repeat split; auto.
  - cbn [map fst] in *. inversion ND as [|? ? ND1 ND2]; subst. set (st0 := {| tab := tab st; next := Datatypes.S (next st) |}).
    destruct (bindName_ok st0 vis n (next st) HD HO) as (st1 & B1 & B2 & B3 & B4 & B5); [apply HN; cbn; auto|]. rewrite B1. cbn [obind].
    destruct (IH st1 (vis ++ [n]) B4 (proj2 (shaped_open _ _ B3))) as (ops & st' & E1 & E2 & E3 & E4 & E5).
    { split; [auto|]. intros k Hk. split; [apply HN; cbn; auto|]. rewrite in_app_iff. intros [Q1|[<-|[]]]; [apply (HN k); cbn; auto|auto]. }
    rewrite E1. cbn [obind fst snd]. eexists _, _. split; [reflexivity|]. rewrite B2 in E2. cbn [next] in E2. split; [unfold st0 in E2; cbn in E2; lia|]. split; [eapply shaped_trans; eauto|]. split; [rewrite <- app_assoc in E4; exact E4|].
    intros E S HRel. destruct (E5 (set E n (Some d)) (setv S (next st) (Some d))) as (S' & X1 & X2 & X3).
    { apply B5; [|unfold st0; cbn; lia|unfold setv; now rewrite Nat.eqb_refl]. apply (Rel_frame st _ E S); unfold st0; cbn; auto. intros v Hv. unfold setv. destruct (Nat.eqb_spec v (next st)); [lia|auto]. }
    exists S'. split; [cbn; exact X1|]. split.
    + intros v Hv. unfold st0 in *. cbn in *. rewrite X2 by lia. unfold setv. destruct (Nat.eqb_spec v (next st)); [lia|auto].
    + cbn [setAll map]. destruct (String.eqb_spec n "") as [Q|Q]; [destruct (HN n); cbn; auto; tauto|]. exact X3.
Qed.

Lemma findAll_ok t (vis : list string) ns : (forall n, In n vis <-> getByOnnxName t n <> None) -> Forall (fun n => In n vis) ns ->
  exists vs, findAll t ns = Some vs /\ findSome t ns = vs /\ length vs = length ns /\ forall i v, nth_error vs i = Some v -> exists n, nth_error ns i = Some n /\ getByOnnxName t n = Some v.
Proof.
  intros HD HF. induction HF as [|n ns H HF (vs & E1 & E2 & E3 & E4)]; cbn [findAll findSome].
  - exists []. repeat split; auto. intros [|i] v H; discriminate.
  - apply HD in H. destruct (getByOnnxName t n) as [v|] eqn:G; [|congruence]. cbn [obind]. rewrite E1. cbn [obind]. exists (v :: vs). split; [auto|]. split; [congruence|]. split; [cbn; congruence|].
    intros [|i] w Hw; cbn in *; [injection Hw as <-; eauto|]. apply E4. exact Hw.
Qed.

(** ** Nodes and graphs *)
Definition simulated (st st' : state) (vis' : list string) (ops : list operation) (ev : names -> option names) : Prop :=
  (next st <= next st')%nat /\ shaped (tab st) (tab st') /\ Dom st' vis' /\
  forall E S, Rel st E S ->
    match ev E with
    | None => runOps ops S = None
    | Some E' => exists S', runOps ops S = Some S' /\ Rel st' E' S' /\ forall v, (v < next st)%nat -> S' v = S v
    end.
Definition PN (n : node) : Prop := forall vis st, Dom st vis -> open_table (tab st) -> scopedNode vis n ->
  exists ops st', importNode nIn nOut n st = Some (ops, st') /\ simulated st st' (vis ++ named (outsOf n)) ops (evalNode sem n).
Definition QG (g : graph) : Prop := forall vis st, Dom st vis -> scopedGraph vis g ->
  exists r st', importGraph nIn nOut g st = Some (r, st') /\ tab st' = tab st /\ (next st <= next st')%nat /\
    forall E S, Rel st E S -> forall vals, runRegion sem r S vals = evalGraph sem g E vals.

Lemma nodes_ok P l : Forall PN l -> forall vis st, Dom st vis -> open_table (tab st) -> scopedNodes P vis l ->
  exists ops st' vis', importNodes l st = Some (ops, st') /\ P vis' /\ simulated st st' vis' ops (evalNodes l).
Proof.
  induction 1 as [|n l Hn HF IH]; intros vis st HD HO HS; cbn [importNodes scopedNodes] in *.
  - exists [], st, vis. split; [auto|]. split; [auto|]. split; [auto|]. split; [exact HO|]. split; [auto|]. intros E S HRel. cbn. exists S. auto.
  - destruct HS as [H1 H2]. destruct (Hn vis st HD HO H1) as (ops1 & st1 & E1 & N1 & S1 & D1 & R1). rewrite E1. cbn [obind fst snd].
    destruct (IH _ st1 D1 (proj2 (shaped_open _ _ S1)) H2) as (ops2 & st2 & vis2 & E2 & P2 & N2 & S2 & D2 & R2). rewrite E2. cbn [obind fst snd].
    eexists _, _, vis2. split; [reflexivity|]. split; [auto|]. split; [lia|]. split; [eapply shaped_trans; eauto|]. split; [auto|].
    intros E S HRel. cbn [evalNodes]. specialize (R1 E S HRel). rewrite runOps_app. destruct (evalNode sem n E) as [E'|]; cbn [obind]; [|now rewrite R1].
    destruct R1 as (S' & X1 & X2 & X3). rewrite X1. cbn [obind]. specialize (R2 E' S' X2). destruct (evalNodes l E') as [E''|]; [|exact R2]. destruct R2 as (S'' & Y1 & Y2 & Y3). exists S''. split; [auto|]. split; [auto|].
    intros v Hv. rewrite Y3 by lia. auto.
Qed.
Lemma subs_ok l : Forall QG l -> forall vis st, Dom st vis -> scopedSubs vis l ->
  exists rs st', importSubs l st = Some (rs, st') /\ tab st' = tab st /\ (next st <= next st')%nat /\
    forall E S, Rel st E S -> Forall2 (fun f g => forall vals, f vals = g vals) (map (fun g vals => runRegion sem g S vals) rs) (map (fun g vals => evalGraph sem g E vals) l).
Proof.
  induction 1 as [|g l Hg HF IH]; intros vis st HD HS; cbn [importSubs scopedSubs] in *.
  - exists [], st. repeat split; auto. intros; constructor.
  - destruct HS as [H1 H2]. destruct (Hg vis st HD H1) as (r & st1 & E1 & T1 & N1 & R1). rewrite E1. cbn [obind fst snd].
    destruct (IH vis st1 (Dom_tab _ _ _ HD T1) H2) as (rs & st2 & E2 & T2 & N2 & R2). rewrite E2. cbn [obind fst snd]. eexists _, _. split; [reflexivity|]. split; [congruence|]. split; [lia|].
    intros E S HRel. cbn [map]. constructor; [now apply R1|]. apply R2. apply (Rel_frame st _ E S); auto.
Qed.

Lemma importNode_NOp o ins outs subs st : importNode nIn nOut (NOp o ins outs subs) st =
  let '(vs, ops1, st1) := getNodeInputs st ins in
  let '(pads, st2) := fresh st1 (padInputs (nIn o) (length vs)) in
  let '(res, st3) := fresh st2 (length outs + padInputs (nOut o) (length outs)) in
  p <- importSubs subs st3 ;;
  st5 <- bindOutputs (snd p) outs res ;;
  Some (ops1 ++ noneOps pads ++ [OpGen o (vs ++ pads) res (fst p)], st5).
Proof. reflexivity. Qed.
Lemma importNode_NCall id ins outs fins fouts body st : importNode nIn nOut (NCall id ins outs fins fouts body) st =
  (p <- getCallInputs st ins ;;
  let '(vs, ops1, st1) := p in
  if (length ins <=? length fins)%nat && (length outs <=? length fouts)%nat then
    let '(pads, st2) := fresh st1 (length fins - length ins) in
    st3 <- bindAll {| tab := pushScope [] id; next := next st2 |} (combine fins (vs ++ pads)) ;;
    q <- importNodes body st3 ;;
    let outputs := findSome (tab (snd q)) fouts in
    _ <- popScope (tab (snd q)) id ;;
    st5 <- bindCallOutputs {| tab := tab st1; next := next (snd q) |} outs outputs ;;
    Some (ops1 ++ noneOps pads ++ fst q, st5)
  else None).
Proof. reflexivity. Qed.
Lemma importGraph_eq id inits inputs nodes outputs st : importGraph nIn nOut (Graph id inits inputs nodes outputs) st =
  (p <- importInits {| tab := pushScope (tab st) id; next := next st |} inits ;;
  let free := uninitialized inits inputs in
  let '(args, st2) := fresh (snd p) (length free) in
  st3 <- bindAll st2 (combine free args) ;;
  q <- importNodes nodes st3 ;;
  yields <- findAll (tab (snd q)) outputs ;;
  t <- popScope (tab (snd q)) id ;;
  Some (Region args (fst p ++ fst q) yields, {| tab := t; next := next (snd q) |})).
Proof. reflexivity. Qed.

Lemma node_ok o ins outs subs : Forall QG subs -> PN (NOp o ins outs subs).
Proof.
  intros HQ vis st HD HO HS. change (Forall (usable vis) ins /\ new vis (named outs) /\ scopedSubs vis subs) in HS. destruct HS as (HU & HN & HSub).
  rewrite importNode_NOp. destruct (getNodeInputs_ok ins st vis HD HU) as (vs & ops1 & st1 & E1 & L1 & T1 & N1 & R1). rewrite E1. unfold fresh. cbn [tab next].
  set (k := padInputs (nIn o) (length vs)). set (j := (length outs + padInputs (nOut o) (length outs))%nat). set (a := next st1). set (b := (a + k)%nat).
  destruct (subs_ok subs HQ vis {| tab := tab st1; next := b + j |} (Dom_tab _ _ _ HD T1) HSub) as (rs & st4 & E4 & T4 & N4 & R4). rewrite E4. cbn [obind fst snd tab next] in *.
  assert (T4' : tab st4 = tab st) by congruence.
  destruct (bindOutputs_ok outs st4 vis (seq b j) (Dom_tab _ _ _ HD T4')) as (st5 & E5 & N5 & S5 & D5 & R5); [now rewrite T4'|exact HN|rewrite seq_length; unfold j; lia|]. rewrite E5. cbn [obind].
  eexists _, _. split; [reflexivity|]. split; [lia|]. split; [rewrite <- T4'; exact S5|]. split; [exact D5|].
  intros E S HRel. destruct (R1 E S HRel) as (S1 & xs & X1 & X2 & X3 & X4 & X5). destruct (noneOps_ok a k S1) as (S2 & Y1 & Y2 & Y3).
  rewrite !runOps_app, X2. cbn [obind]. rewrite runOps_app, Y1. cbn [obind]. cbn [runOps runOp].
  assert (A : allSome S2 (vs ++ seq a k) = Some (xs ++ repeat None k)).
  { apply allSome_app; [|now apply allSome_none]. rewrite <- X4. apply allSome_ext. intros v Hv. apply Y2. auto. }
  rewrite A. cbn [obind].
  assert (F : forall v, (v < next st)%nat -> S2 v = S v) by (intros v Hv; rewrite Y2 by (unfold a; lia); auto).
  change (evalNode sem (NOp o ins outs subs) E) with (vs <- allSome (input E) ins ;; rs <- sem o vs (map (fun g vals => evalGraph sem g E vals) subs) ;; Some (setAll E outs rs)). rewrite X1. cbn [obind].
  rewrite (HR o _ (map (fun g vals => runRegion sem g S2 vals) rs) (map (fun g vals => evalGraph sem g E vals) subs)).
  2:{ apply R4. apply (Rel_frame st _ E S); cbn; auto. unfold b, a. lia. }
  rewrite sem_pad. 2:{ unfold k, padInputs. destruct (nIn o); [left; congruence|right; auto]. }
  destruct (sem o xs (map (fun g vals => evalGraph sem g E vals) subs)) as [ys|]; cbn [obind]; [|reflexivity].
  eexists. split; [reflexivity|]. split.
  - apply R5.
    + apply (Rel_frame st _ E S); auto; [unfold b, a in N4; lia|]. intros v Hv. rewrite setvAll_seq. destruct (Nat.leb_spec b v); [unfold b, a in *; lia|]. cbn [andb]. auto.
    + intros i v Hi Hl. apply nth_error_seq in Hi as [-> Hij]. split; [lia|]. rewrite setvAll_seq.
      destruct (Nat.leb_spec b (b + i)), (Nat.ltb_spec (b + i) (b + j)); try lia. cbn [andb]. do 2 f_equal. lia.
  - intros v Hv. rewrite setvAll_seq. destruct (Nat.leb_spec b v); [unfold b, a in *; lia|]. cbn [andb]. auto.
Qed.

Lemma call_ok id ins outs fins fouts body : Forall PN body -> PN (NCall id ins outs fins fouts body).
Proof.
  intros HP vis st HD HO HS. change (Forall (usable vis) ins /\ new vis outs /\ (length ins <= length fins)%nat /\ length outs = length fouts /\ new [] fins /\ scopedNodes (fun vis => Forall (fun n => In n vis) fouts) fins body) in HS.
  destruct HS as (HU & HN & HL1 & HL2 & HF & HB). rewrite importNode_NCall, (getCallInputs_eq ins st vis HD HU). cbn [obind].
  destruct (getNodeInputs_ok ins st vis HD HU) as (vs & ops1 & st1 & E1 & L1 & T1 & N1 & R1). rewrite E1.
  destruct (Nat.leb_spec (length ins) (length fins)); [|lia]. destruct (Nat.leb_spec (length outs) (length fouts)); [|lia]. cbn [andb]. unfold fresh. cbn [tab next].
  set (k := (length fins - length ins)%nat). set (a := next st1). rewrite bindAll_eq; [|intros n Hn; now apply HF|rewrite app_length, seq_length; unfold k; lia].
  set (st2 := {| tab := pushScope [] id; next := a + k |}).
  assert (D2 : Dom st2 []) by (intros n; cbn; split; [intros []|congruence]). assert (O2 : open_table (tab st2)) by (exists [], id, [], []; auto).
  destruct (bindOutputs_ok fins st2 [] (vs ++ seq a k) D2 O2) as (st3 & E3 & N3 & S3 & D3 & R3); [rewrite named_nonempty; [exact HF|intros n Hn; now apply HF]|rewrite app_length, seq_length; unfold k; lia|]. rewrite E3. cbn [obind].
  rewrite named_nonempty in D3 by (intros n Hn; now apply HF). cbn [app] in D3.
  destruct (nodes_ok _ body HP fins st3 D3 (proj2 (shaped_open _ _ S3)) HB) as (ops4 & st4 & vis4 & E4 & P4 & N4 & S4 & D4 & R4). rewrite E4. cbn [obind fst snd].
  destruct (findAll_ok (tab st4) vis4 fouts D4 P4) as (ws & _ & F2 & F3 & F4). rewrite F2.
  assert (PS : popScope (tab st4) id = Some []).
  { pose proof (shaped_trans _ _ _ S3 S4) as (o & i & m & m' & Q1 & Q2). unfold st2, pushScope in Q1. cbn in Q1. destruct o as [|x [|y o]]; cbn in Q1; try discriminate. injection Q1 as <- <-. rewrite Q2. cbn. now rewrite String.eqb_refl. }
  rewrite PS. cbn [obind]. rewrite bindCallOutputs_eq; [|intros n Hn; now apply HN|lia].
  destruct (bindOutputs_ok outs {| tab := tab st1; next := next st4 |} vis ws (Dom_tab _ _ _ HD T1)) as (st5 & E5 & N5 & S5 & D5 & R5); [cbn; now rewrite T1|rewrite named_nonempty; [exact HN|intros n Hn; now apply HN]|lia|]. rewrite E5. cbn [obind].
  cbn [next tab] in *. assert (NN : (next st <= next st4)%nat) by (unfold st2, a in *; cbn in *; lia).
  eexists _, _. split; [reflexivity|]. split; [lia|]. split; [rewrite <- T1; exact S5|]. split; [exact D5|].
  intros E S HRel. destruct (R1 E S HRel) as (S1 & xs & X1 & X2 & X3 & X4 & X5). destruct (noneOps_ok a k S1) as (S2 & Y1 & Y2 & Y3).
  rewrite !runOps_app, X2. cbn [obind]. rewrite runOps_app, Y1. cbn [obind].
  change (evalNode sem (NCall id ins outs fins fouts body) E) with (vs <- allSome (input E) ins ;; e' <- evalNodes body (setAll (fun _ => None) fins vs) ;; Some (setAll E outs (map (outputOf e') fouts))). rewrite X1. cbn [obind].
  pose proof (allSome_length _ _ _ X4) as LX.
  assert (R3' : Rel st3 (setAll (fun _ => None) fins xs) S2).
  { apply R3; [intros n; cbn; auto|]. intros i v Hi Hl. destruct (Nat.lt_ge_cases i (length vs)) as [Q|Q].
    - rewrite nth_error_app1 in Hi by auto. split; [unfold st2; cbn; assert (v < next st1)%nat by (apply X5; eapply nth_error_In; eauto); unfold a; lia|]. assert (v < a)%nat by (apply X5; eapply nth_error_In; eauto).
      rewrite Y2 by auto. rewrite (allSome_nth S1 vs xs i v X4 Hi). apply nth_error_nth'. change (i < @length value xs)%nat. rewrite LX. lia.
    - rewrite nth_error_app2 in Hi by auto. apply nth_error_seq in Hi as [-> Hik].
      split; [unfold st2; cbn; lia|]. rewrite Y3 by lia. rewrite nth_overflow by (change (@length value xs <= i)%nat; lia). reflexivity. }
  specialize (R4 _ S2 R3'). destruct (evalNodes body (setAll (fun _ => None) fins xs)) as [E'|]; cbn [obind]; [|exact R4].
  destruct R4 as (S4' & Z1 & Z2 & Z3). exists S4'. split; [exact Z1|]. split.
  - apply R5.
    + apply (Rel_frame st _ E S); cbn; auto. intros v Hv. rewrite Z3 by (rewrite N3; unfold st2, a; cbn; lia). rewrite Y2 by (unfold a; lia). auto.
    + intros i v Hi Hl. cbn [next]. destruct (F4 i v Hi) as (n & Hn & G). pose proof (Z2 n) as Q. rewrite G in Q. destruct Q as (Q1 & Q2 & Q3). split; [auto|]. rewrite Q2. assert (NE : nth i (map (outputOf E') fouts) None = outputOf E' n) by (apply nth_error_nth; now apply map_nth_error).
      etransitivity; [|symmetry; exact (f_equal Some NE)]. unfold outputOf. destruct (E' n); [reflexivity|congruence].
  - intros v Hv. rewrite Z3 by (rewrite N3; unfold st2, a; cbn; lia). rewrite Y2 by (unfold a; lia). auto.
Qed.

Lemma graph_ok id inits inputs nodes outputs : Forall PN nodes -> QG (Graph id inits inputs nodes outputs).
Proof.
  intros HP vis st HD HS. set (free := uninitialized inits inputs).
  change (new vis (map fst inits ++ free) /\ scopedNodes (fun vis => Forall (fun n => In n vis) outputs) (vis ++ map fst inits ++ free) nodes) in HS. destruct HS as (HN & HB).
  rewrite importGraph_eq. set (st0 := {| tab := pushScope (tab st) id; next := next st |}).
  assert (G0 : forall n, getByOnnxName (tab st0) n = getByOnnxName (tab st) n) by (intros n; unfold st0, pushScope; cbn [tab]; rewrite getBy_app; now destruct (getByOnnxName (tab st) n)).
  assert (D0 : Dom st0 vis) by (intros n; rewrite G0; apply HD). assert (O0 : open_table (tab st0)) by (repeat eexists).
  assert (NI : new vis (map fst inits)). { destruct HN as [N1 N2]. split; [now apply NoDup_app_inv in N1|]. intros n Hn. apply N2, in_app_iff; auto. }
  assert (NF : new (vis ++ map fst inits) free).
  { destruct HN as [N1 N2]. apply NoDup_app_inv in N1 as (A1 & A2 & A3). split; [exact A2|]. intros n Hn. split; [apply N2, in_app_iff; auto|]. rewrite in_app_iff. intros [Q|Q]; [apply (N2 n); [apply in_app_iff; auto|auto]|]. now apply (A3 n). }
  destruct (importInits_ok inits st0 vis D0 O0 NI) as (ops1 & st1 & E1 & N1 & S1 & D1 & R1). rewrite E1. cbn [obind fst snd]. fold free. unfold fresh. cbn [tab next].
  set (a := next st1). set (k := length free). rewrite bindAll_eq; [|intros n Hn; now apply NF|now rewrite seq_length].
  set (st2 := {| tab := tab st1; next := a + k |}).
  assert (NE : named free = free) by (apply named_nonempty; intros n Hn; now apply NF).
  destruct (bindOutputs_ok free st2 (vis ++ map fst inits) (seq a k) D1 (proj2 (shaped_open _ _ S1))) as (st3 & E3 & N3 & S3 & D3 & R3); [now rewrite NE|rewrite seq_length; auto|]. rewrite E3. cbn [obind]. rewrite NE, <- app_assoc in D3.
  destruct (nodes_ok _ nodes HP _ st3 D3 (proj2 (shaped_open _ _ S3)) HB) as (ops4 & st4 & vis4 & E4 & P4 & N4 & S4 & D4 & R4). rewrite E4. cbn [obind fst snd].
  destruct (findAll_ok (tab st4) vis4 outputs D4 P4) as (ws & F1 & _ & F3 & F4). rewrite F1. cbn [obind].
  assert (PS : popScope (tab st4) id = Some (tab st)).
  { pose proof (shaped_trans _ _ _ S1 (shaped_trans _ _ _ S3 S4)) as (o & i & m & m' & Q1 & Q2). unfold st0, pushScope in Q1. cbn in Q1. apply app_inj_tail in Q1 as [<- Q1]. injection Q1 as <- <-. rewrite Q2, popScope_app. cbn. now rewrite String.eqb_refl. }
  rewrite PS. cbn [obind]. eexists _, _. split; [reflexivity|]. cbn [tab next]. split; [auto|]. split; [unfold st2, st0, a in *; cbn in *; lia|].
  intros E S HRel vals.
  change (runRegion sem (Region (seq a k) (ops1 ++ ops4) ws) S vals) with (if (length vals =? length (seq a k))%nat then e' <- runOps (ops1 ++ ops4) (setvAll S (seq a k) vals) ;; allSome e' ws else None).
  change (evalGraph sem (Graph id inits inputs nodes outputs) E vals) with (if (length vals =? length free)%nat then e' <- evalNodes nodes (setAll (setAll E (map fst inits) (map (fun i => Some (snd i)) inits)) free vals) ;; allSome e' outputs else None).
  rewrite seq_length. fold k. destruct (Nat.eqb_spec (length vals) k) as [HL|]; [|reflexivity].
  assert (B0 : forall n v, getByOnnxName (tab st) n = Some v -> (v < next st)%nat) by (intros n v G; pose proof (HRel n) as Q; rewrite G in Q; tauto).
  assert (LE : (next st <= a)%nat) by (unfold a; unfold st0 in N1; cbn in N1; lia).
  assert (Rel0 : Rel st0 E (setvAll S (seq a k) vals)).
  { intros n. rewrite G0. pose proof (HRel n) as Q. destruct (getByOnnxName (tab st) n) as [v|]; [|auto]. destruct Q as (Q1 & Q2 & Q3). split; [exact Q1|]. rewrite setvAll_seq. destruct (Nat.leb_spec a v); [lia|]. cbn [andb]. auto. }
  destruct (R1 E _ Rel0) as (S' & X1 & X2 & X3). rewrite runOps_app, X1. cbn [obind].
  assert (Rel3 : Rel st3 (setAll (setAll E (map fst inits) (map (fun i => Some (snd i)) inits)) free vals) S').
  { apply R3; [apply (Rel_frame st1 _ _ S'); auto; unfold st2; cbn; unfold a; lia|]. intros i v Hi Hl. fold k in Hl. apply nth_error_seq in Hi as [-> Hik].
    split; [unfold st2; cbn; lia|]. rewrite X2 by (right; unfold a; lia). rewrite setvAll_seq. destruct (Nat.leb_spec a (a + i)), (Nat.ltb_spec (a + i) (a + k)); try lia. cbn [andb]. do 2 f_equal. lia. }
  specialize (R4 _ S' Rel3). destruct (evalNodes nodes _) as [E'|]; cbn [obind]; [|now rewrite R4]. destruct R4 as (S4' & Z1 & Z2 & Z3). rewrite Z1. cbn [obind].
  clear - Z2 F1. revert ws F1. induction outputs as [|n ns IH]; cbn [findAll allSome]; intros ws F1; [injection F1 as <-; auto|]. pose proof (Z2 n) as Q. destruct (getByOnnxName (tab st4) n) as [v|]; [|discriminate]. cbn [obind] in F1.
  destruct (findAll (tab st4) ns) as [vs|]; [|discriminate]. cbn [obind] in F1. injection F1 as <-. cbn [allSome]. destruct Q as (_ & Q2 & _). rewrite Q2. destruct (E' n); cbn [obind]; auto. now rewrite (IH vs eq_refl).
Qed.

Theorem import_ok : (forall n, PN n) /\ (forall g, QG g).
Proof. apply node_graph_ind; [apply node_ok|apply call_ok|apply graph_ok]. Qed.
End Import.
