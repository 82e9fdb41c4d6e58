(** Without permutation, the tiled nest runs its body in the order of the original nest. *)
From Coq Require Import List ZArith Bool Lia Permutation Sorting.Sorted.
From Verif Require Import Util ScheduleSpec ScheduleModel ScheduleProofs ScheduleInv ScheduleRun.
Import ListNotations.
Open Scope Z_scope.

Lemma sorted_eq : forall l m, StronglySorted Z.lt l -> StronglySorted Z.lt m -> (forall x, In x l <-> In x m) -> l = m.
Proof.
  induction l as [|a l IH]; intros [|b m] Hl Hm H; auto.
  - exfalso. apply (proj2 (H b)). cbn; auto.
  - exfalso. apply (proj1 (H a)). cbn; auto.
  - inversion Hl as [|? ? Hl' Fl]; subst. inversion Hm as [|? ? Hm' Fm]; subst. rewrite Forall_forall in Fl, Fm.
    assert (a = b).
    { destruct (proj1 (H a)) as [|Ha]; [cbn; auto | auto |]. destruct (proj2 (H b)) as [|Hb]; [cbn; auto | auto |].
      apply Fm in Ha. apply Fl in Hb. lia. }
    subst b. f_equal. apply IH; auto. intros x. split; intros Hx.
    + destruct (proj1 (H x)) as [<- | ?]; cbn; auto. apply Fl in Hx. lia.
    + destruct (proj2 (H x)) as [<- | ?]; cbn; auto. apply Fm in Hx. lia.
Qed.
Lemma sorted_iters lo hi st : 0 < st -> StronglySorted Z.lt (iters lo hi st).
Proof.
  intros Hs. unfold iters, zrange. generalize (Z.to_nat ((hi - lo + st - 1) / st)). intros n.
  enough (G : forall n a, StronglySorted Z.lt (map (fun k => lo + k * st) (zseq a n)) /\ forall x, In x (map (fun k => lo + k * st) (zseq a n)) -> lo + a * st <= x) by apply G.
  clear n. induction n as [|n IH]; intros a; cbn [zseq map]; [split; [constructor | intros x []]|]. destruct (IH (a + 1)) as [H1 H2]. split.
  - constructor; auto. apply Forall_forall. intros x Hx. apply H2 in Hx. nia.
  - intros x [<- | Hx]; [lia|]. apply H2 in Hx. nia.
Qed.
Lemma sorted_app l m : StronglySorted Z.lt l -> StronglySorted Z.lt m -> (forall x y, In x l -> In y m -> x < y) -> StronglySorted Z.lt (l ++ m).
Proof.
  intros Hl Hm H. induction Hl as [|a l Hl IH Fl]; cbn [app]; auto. constructor.
  - apply IH. intros x y Hx. apply H. cbn; auto.
  - apply Forall_app. split; auto. apply Forall_forall. intros y Hy. apply H; cbn; auto.
Qed.
Lemma sorted_flat_map (f : Z -> list Z) l : StronglySorted Z.lt l -> (forall t, In t l -> StronglySorted Z.lt (f t)) ->
  (forall t t' x y, In t l -> In t' l -> t < t' -> In x (f t) -> In y (f t') -> x < y) -> StronglySorted Z.lt (flat_map f l).
Proof.
  intros Hl Hf H. induction Hl as [|a l Hl IH Fl]; cbn [flat_map]; [constructor|]. apply sorted_app.
  - apply Hf. cbn; auto.
  - apply IH.
    + intros t Ht. apply Hf. cbn; auto.
    + intros t t' x y Ht Ht'. apply H; cbn; auto.
  - intros x y Hx Hy. apply in_flat_map in Hy as (t' & Ht & Hy). rewrite Forall_forall in Fl. apply (H a t'); cbn; auto.
Qed.
Lemma iters_tiles lo hi st s : 0 < st -> 0 < s ->
  flat_map (fun t => iters t (Z.min (t + s * st) hi) st) (iters lo hi (s * st)) = iters lo hi st.
Proof.
  intros Hst Hs. assert (0 < s * st) by nia. apply sorted_eq.
  - apply sorted_flat_map; [apply sorted_iters; auto | intros; apply sorted_iters; auto |].
    intros t t' x y Ht Ht' Hlt Hx Hy. apply In_iters in Ht as [_ Et]; auto. apply In_iters in Ht' as [_ Et']; auto.
    apply In_iters in Hx as [Hx _]; auto. apply In_iters in Hy as [Hy _]; auto.
    apply Z.mod_divide in Et as [k Ek]; [|lia]. apply Z.mod_divide in Et' as [k' Ek']; [|lia]. assert (k < k') by nia. nia.
  - apply sorted_iters; auto.
  - intros x. rewrite in_flat_map. split.
    + intros (t & Ht & Hx). eapply (tile_arith_back lo hi st s t x); auto.
    + intros Hx. apply tile_arith with (s := s) in Hx; auto. cbv zeta in Hx. destruct Hx. eexists. split; eauto.
Qed.

Lemma map_flat_map {A B C} (g : B -> C) (f : A -> list B) l : map g (flat_map f l) = flat_map (fun x => map g (f x)) l.
Proof. induction l as [|a l IH]; cbn [flat_map map]; auto. now rewrite map_app, IH. Qed.
Lemma flat_map_flat_map {A B C} (g : B -> list C) (f : A -> list B) l : flat_map g (flat_map f l) = flat_map (fun x => flat_map g (f x)) l.
Proof. induction l as [|a l IH]; cbn [flat_map]; auto. now rewrite flat_map_app, IH. Qed.

Definition proj (qs : list Z) (e : env) : list Z := map (look e) qs.

Section Tile.
Variables (r r1 r2 s : Z).
Hypothesis H12 : r1 <> r2.
Definition agree (e' e : env) : Prop := forall q, q <> r1 -> q <> r2 -> look e' (rn r r2 q) = look e q.

Lemma trace_ren qs : ~ In r1 qs -> ~ In r2 qs -> forall ls e' e,
  (forall l, In l ls -> ref l <> r /\ ref l <> r1 /\ ref l <> r2 /\ ~ In r1 (reads l) /\ ~ In r2 (reads l)) -> agree e' e ->
  map (proj (map (rn r r2) qs)) (trace (map (renL r r2) ls) e') = map (proj qs) (trace ls e).
Proof.
  intros Q1 Q2. induction ls as [|l ls IH]; intros e' e Hl A; cbn [map trace].
  - f_equal. unfold proj. rewrite map_map. apply map_ext_in. intros q Hq. apply A; intros ->; auto.
  - destruct (Hl l) as (N & N1 & N2 & R1 & R2); [cbn; auto|].
    assert (X : forall x, In x (reads l) -> look e' (rn r r2 x) = look e x) by (intros x Hx; apply A; intros ->; auto).
    rewrite evMin_ren. cbn [renL lb ref step]. rewrite evB_ren.
    rewrite (evMin_ext _ (look e)) by auto. rewrite (ev_ext _ (look e)) by (intros x Hx; apply X; rewrite reads_eq, !in_app_iff; auto).
    rewrite !map_flat_map. apply flat_map_ext. intros v. apply IH.
    + intros m Hm. apply Hl. cbn; auto.
    + intros q X1 X2. rewrite !look_cons. unfold rn. destruct (Z.eqb_spec q r) as [-> | Nq].
      * destruct (Z.eqb_spec (ref l) r2); [congruence|]. destruct (Z.eqb_spec (ref l) r); [congruence|]. specialize (A r X1 X2). now rewrite rn_same in A.
      * destruct (ref l =? q); auto. specialize (A q X1 X2). now rewrite rn_other in A.
Qed.

Lemma trace_tile qs l post : ~ In r1 qs -> ~ In r2 qs -> ref l = r -> 0 < step l -> 0 < s ->
  r1 <> r -> r2 <> r -> ~ In r (reads l) -> ~ In r1 (reads l) -> ~ In r2 (reads l) -> forall pre e' e,
  (forall m, In m (pre ++ post) -> ref m <> r /\ ref m <> r1 /\ ref m <> r2 /\ ~ In r1 (reads m) /\ ~ In r2 (reads m)) -> agree e' e ->
  (forall x, In x (reads l) -> ~ In x (map ref pre) -> look e' x = look e x) ->
  map (proj (map (rn r r2) qs)) (trace (map (renL r r2) pre ++ fst (tile l s r1 r2) :: snd (tile l s r1 r2) :: map (renL r r2) post) e')
  = map (proj qs) (trace (pre ++ l :: post) e).
Proof.
  intros Q1 Q2 El Hst Hs N1 N2 Rr R1 R2. induction pre as [|a pre IH]; intros e' e Hm A Hx.
  - cbn [map app]. set (l1 := fst (tile l s r1 r2)). set (l2 := snd (tile l s r1 r2)). cbn [trace].
    change (evMin (look e') l1) with (evMin (look e') l). change (lb l1) with (lb l). change (step l1) with (s * step l). change (ref l1) with r1.
    change (lb l2) with (Iv r1 0). change (step l2) with (step l). change (ref l2) with r2. cbn [ev].
    assert (Ev : ev (look e') (lb l) = ev (look e) (lb l)) by (apply ev_ext; intros x Xx; apply Hx; [rewrite reads_eq, !in_app_iff; auto | intros []]).
    assert (Em : evMin (look e') l = evMin (look e) l) by (apply evMin_ext; intros x Xx; apply Hx; auto; intros []).
    rewrite Ev, Em. rewrite <- (iters_tiles _ _ (step l) s) by auto.
    rewrite flat_map_flat_map, !map_flat_map. apply flat_map_ext. intros t. rewrite map_flat_map. rewrite map_flat_map. rewrite look_cons, Z.eqb_refl, Z.add_0_r.
    replace (evMin (look ((r1, t) :: e')) l2) with (Z.min (t + s * step l) (evMin (look e) l)).
    2:{ unfold l2. rewrite evMin_tile, look_cons, Z.eqb_refl. f_equal. rewrite <- Em. apply evMin_ext. intros x Xx. rewrite look_cons.
        destruct (Z.eqb_spec r1 x); [subst; tauto | auto]. }
    apply flat_map_ext. intros v. apply trace_ren; auto.
    intros q X1 X2. rewrite !look_cons, El. unfold rn. destruct (Z.eqb_spec q r) as [-> | Nq].
    + now rewrite !Z.eqb_refl.
    + destruct (Z.eqb_spec r2 q); [congruence|]. destruct (Z.eqb_spec r1 q); [congruence|]. destruct (Z.eqb_spec r q); [congruence|].
      specialize (A q X1 X2). now rewrite rn_other in A.
  - destruct (Hm a) as (M & M1 & M2 & MR1 & MR2); [cbn; auto|]. cbn [map app trace].
    assert (X : forall x, In x (reads a) -> look e' (rn r r2 x) = look e x) by (intros x Xx; apply A; intros ->; auto).
    rewrite evMin_ren. cbn [renL lb ref step]. rewrite evB_ren.
    rewrite (evMin_ext _ (look e)) by auto. rewrite (ev_ext _ (look e)) by (intros x Xx; apply X; rewrite reads_eq, !in_app_iff; auto).
    rewrite !map_flat_map. apply flat_map_ext. intros v. apply IH.
    + intros m Hm'. apply Hm. cbn; auto.
    + intros q X1 X2. rewrite !look_cons. unfold rn. destruct (Z.eqb_spec q r) as [-> | Nq].
      * destruct (Z.eqb_spec (ref a) r2); [congruence|]. destruct (Z.eqb_spec (ref a) r); [congruence|]. specialize (A r X1 X2). now rewrite rn_same in A.
      * destruct (ref a =? q); auto. specialize (A q X1 X2). now rewrite rn_other in A.
    + intros x Xx Xn. rewrite !look_cons. destruct (Z.eqb_spec (ref a) x); auto. apply Hx; auto. cbn [map In]. tauto.
Qed.
End Tile.

Lemma trace_init ds : NoDup (map fst ds) ->
  map (proj (map fst ds)) (trace (map (fun d => {| ref := fst d; lb := Cst (fst (snd d)); ub := Cst (snd (snd d)); ubs := []; step := 1 |}) ds) [])
  = grid (map (fun d => points (fst (snd d)) (snd (snd d))) ds).
Proof.
  intros Hd.
  enough (G : forall ds e, NoDup (map fst ds) ->
    map (proj (map fst ds)) (trace (map (fun d => {| ref := fst d; lb := Cst (fst (snd d)); ub := Cst (snd (snd d)); ubs := []; step := 1 |}) ds) e)
    = grid (map (fun d => points (fst (snd d)) (snd (snd d))) ds)) by auto.
  clear. induction ds as [|d ds IH]; intros e Hd; cbn [map trace grid]; auto.
  cbn [map] in Hd. inversion Hd as [|? ? Hn Hd']; subst.
  unfold evMin. cbn [lb ub ubs ev step ref map fold_left].
  replace (iters (fst (snd d)) (snd (snd d)) 1) with (points (fst (snd d)) (snd (snd d))).
  2:{ unfold points, iters. replace (snd (snd d) - fst (snd d) + 1 - 1) with (snd (snd d) - fst (snd d)) by lia. rewrite Z.div_1_r.
      apply map_ext. intros; lia. }
  rewrite !flat_map_concat_map, concat_map, map_map. f_equal. apply map_ext. intros v.
  rewrite <- (IH ((fst d, v) :: e) Hd'). rewrite map_map. apply map_ext_in. intros x Hx. unfold proj. cbn [map]. f_equal.
  rewrite (look_trace_old _ _ _ (fst d) Hx), look_cons, Z.eqb_refl; auto.
  rewrite map_map. cbn [ref]. exact Hn.
Qed.

Section Run2.
Variable p : program.
Hypothesis Ssa : NoDup (map fst (dims p) ++ outers (directives p) ++ locals (directives p)).
Hypothesis Hsz : sizesOK p.
Hypothesis Hnp : forall rs to, ~ In (Permute rs to) (directives p).
Hypothesis Hit : forall r, notIterated p r = false.

Lemma eff_all ls : eff p ls = ls.
Proof. unfold eff. induction ls as [|l ls IH]; cbn [filter]; auto. rewrite Hit. cbn [negb]. now rewrite IH. Qed.
Lemma bf : forall ds, (forall rs to, ~ In (Permute rs to) ds) -> blocksFirst ds.
Proof.
  induction ds as [|d ds IH]; intros H; cbn [blocksFirst]; auto.
  destruct d; try (apply IH; intros rs to X; apply (H rs to); cbn; auto). exfalso. eapply H. cbn; eauto.
Qed.

Lemma order_interpret : forall later done st st' qs, directives p = done ++ later ->
  interpret p later st = Some st' -> SI p done st qs -> incl (args st) (known p done) ->
  exists qs', foldM (stepPlan (notIterated p)) later qs = Some qs' /\
  map (proj (args st')) (trace (nest st') []) = map (proj (args st)) (trace (nest st) []).
Proof.
  induction later as [|d later IH]; intros done st st' qs Ed Hi H Ha; cbn [interpret foldM] in Hi |- *.
  - inversion Hi; subst. eauto.
  - match type of Hi with obind ?e _ = _ => destruct e as [s1|] eqn:E2; [|discriminate] end. cbn [obind] in Hi.
    assert (Ed' : directives p = (done ++ [d]) ++ later) by (rewrite <- app_assoc; exact Ed).
    assert (Hin : In d (directives p)) by (rewrite Ed; apply in_app_iff; cbn; auto).
    destruct d as [r r1 r2 s | rs to | r | r]; [| exfalso; eapply Hnp; eauto | |].
    + assert (Eq : exists q1, stepPlan (notIterated p) (Block r r1 r2 s) qs = Some q1) by (cbn [stepPlan]; rewrite Hit; eauto).
      destruct Eq as [q1 Eq]. rewrite Eq. cbn [obind].
      destruct (fresh p Ssa _ _ _ _ _ _ Ed) as (F1 & F2 & F12 & _ & _).
      assert (H1 : SI p (done ++ [Block r r1 r2 s]) s1 q1) by (eapply SI_block; eauto; apply bf; auto).
      assert (Hs : 0 < s < 2 ^ 32) by (eapply Hsz; eauto).
      assert (Ha1 : args s1 = map (rn r r2) (args st)).
      { unfold doBlock in E2. destruct (_ || _); [discriminate|]. inversion E2; reflexivity. }
      edestruct (IH _ _ _ _ Ed' Hi H1) as (qs' & E3 & E4).
      { rewrite Ha1. intros x Hx. apply in_map_iff in Hx as (y & <- & Hy). unfold rn. destruct (y =? r); [|apply known_app; auto].
        unfold known, locals. rewrite flat_map_app, !in_app_iff. cbn. tauto. }
      exists qs'. split; auto. rewrite E4. clear E4 E3 IH Hi.
      assert (Er : erased st = false).
      { destruct (erased st) eqn:X; auto. destruct (s_er _ _ _ _ H X) as (rs & to & Y). exfalso. apply (Hnp rs to). rewrite Ed, in_app_iff. auto. }
      assert (Nr1 : ~ In r1 (map ref (nest st))) by (intros X; apply (s_refs _ _ _ _ H) in X; auto).
      assert (Nr2 : ~ In r2 (map ref (nest st))) by (intros X; apply (s_refs _ _ _ _ H) in X; auto).
      pose proof (s_ci _ _ _ _ H) as C. rewrite eff_all in C.
      unfold doBlock in E2. rewrite Z.mod_small in E2 by lia. destruct (_ || _) eqn:Eg; [discriminate|].
      apply orb_false_iff in Eg as [Eg _]. apply orb_false_iff in Eg as [_ Eg]. apply negb_false_iff, memb_In in Eg.
      apply in_map_iff in Eg as (l & El & Hl). apply in_split in Hl as (pre & post & En).
      assert (Nd : NoDup (map ref (nest st))) by apply H.
      assert (Ne : forall m, In m (pre ++ post) -> ref m <> r).
      { intros m Hm Em. rewrite En, map_app in Nd. cbn [map] in Nd. apply NoDup_remove_2 in Nd. apply Nd.
        rewrite El, <- map_app, <- Em. now apply in_map. }
      assert (Ue : useEmpty p later (erased st) r2 = false).
      { assert (F2L : In r2 (locals (directives p))) by (rewrite Ed; unfold locals; rewrite flat_map_app, in_app_iff; cbn; auto).
        destruct (useEmpty p later (erased st) r2) eqn:X; auto. unfold useEmpty in X. rewrite Er in X. cbn [orb] in X.
        rewrite !andb_true_iff, !negb_true_iff, !memb_not in X. destruct X as ((((X1 & X2) & X3) & X4) & X5).
        destruct (skip_false p _ (Hit r2) F2L) as [Y | [Y | [Y | Y]]]; try tauto. exfalso. rewrite Ed, flat_map_app, in_app_iff in Y.
        cbn [flat_map operands app In] in Y. destruct Y as [Y | [<- | Y]]; auto.
        - apply (s_ops _ _ _ _ H) in Y. tauto.
        - apply F2, (s_refs _ _ _ _ H). rewrite En, map_app, in_app_iff. cbn; auto. }
      rewrite Ue in E2. inversion E2; subst s1. cbn [nest args]. rewrite En.
      rewrite tileNest_split by auto. cbn [app].
      assert (Hread : forall m, In m (nest st) -> ~ In r1 (reads m) /\ ~ In r2 (reads m)).
      { intros m Hm. split; intros X; apply (c_closed _ _ _ C) in X; auto. }
      assert (Hl : In l (nest st)) by (rewrite En; apply in_mid; auto).
      assert (Hm : forall m, In m (pre ++ post) -> In m (nest st)) by (intros m X; rewrite En; apply in_mid; auto).
      replace (let (a, b) := tile l s r1 r2 in (a, b)) with (tile l s r1 r2) by (destruct (tile l s r1 r2); reflexivity).
      apply trace_tile; auto; try lia.
      * apply (c_step _ _ _ C); auto.
      * intros X. apply Nr1. rewrite X, <- El. now apply in_map.
      * intros X. apply Nr2. rewrite X, <- El. now apply in_map.
      * rewrite <- El. apply (c_irr _ _ _ C); auto.
      * apply (Hread l); auto.
      * apply (Hread l); auto.
      * intros m X. pose proof (Hm _ X) as Y. destruct (Hread _ Y). repeat split; auto.
        -- intros Z. apply Nr1. rewrite <- Z. now apply in_map.
        -- intros Z. apply Nr2. rewrite <- Z. now apply in_map.
      * intros q _ _. reflexivity.
    + cbn [stepPlan obind]. unfold doParallel in E2. destruct (_ || _) eqn:Eg; [discriminate|].
      apply orb_false_iff in Eg as [Eg _]. apply negb_false_iff, memb_In in Eg. inversion E2; subst s1.
      edestruct (IH (done ++ [Parallel r])) as (qs' & E3 & E4); [exact Ed' | exact Hi | | |].
      * eapply SI_same with (st := st); cbn [nest args erased]; auto; try discriminate. intros x [<- | []]. now apply (s_refs _ _ _ _ H).
        exact H.
      * cbn [args]. intros x Hx. apply known_app. auto.
      * exists qs'. split; eauto.
    + cbn [stepPlan obind]. destruct (memb r _) eqn:Eg; [|discriminate]. apply memb_In in Eg. inversion E2; subst s1.
      edestruct (IH (done ++ [Unroll r])) as (qs' & E3 & E4); [exact Ed' | exact Hi | | |].
      * eapply SI_same with (st := st); auto; try discriminate. intros x [<- | []]. now apply (s_refs _ _ _ _ H).
        exact H.
      * intros x Hx. apply known_app. auto.
      * exists qs'. split; eauto.
Qed.

Lemma order_ok outer ar : carriedOK p -> lower p = Some (outer, [], ar) -> kernel p = [] ->
  map (proj ar) (trace outer []) = grid (map (fun d => points (fst (snd d)) (snd (snd d))) (dims p)).
Proof.
  intros Hc Hlow Hk. unfold lower in Hlow. destruct (negb _) eqn:E0; [discriminate|]. clear E0.
  destruct (interpret p (directives p) (lowerIterate p)) as [s1|] eqn:E1; [|discriminate]. cbn [obind] in Hlow.
  destruct (foldM _ (nested p) s1) as [s2|] eqn:E2; [|discriminate]. cbn [obind] in Hlow.
  destruct (negb (scoped [] (nest s2))) eqn:E3; [discriminate|].
  destruct (bodyLoop p) as [r|]; [|discriminate]. cbn [obind] in Hlow.
  destruct (splitAfter r (nest s2)) as [[a b]|] eqn:E4; [|discriminate]. cbn [obind fst snd] in Hlow.
  destruct (existsb _ a); [discriminate|]. rewrite Hk in Hlow.
  assert (filter (fun l => negb (memb (ref l) [])) b = b) as Ef.
  { clear. induction b as [|l b IH]; cbn [filter memb existsb negb]; auto. f_equal. exact IH. }
  rewrite Ef in Hlow. inversion Hlow; subst outer b ar. apply splitAfter_spec in E4. rewrite app_nil_r in E4. subst a.
  destruct (order_interpret (directives p) [] _ _ _ eq_refl E1 (SI_init p Ssa)) as (qs' & E5 & E6).
  { intros x Hx. unfold known. rewrite in_app_iff. auto. }
  assert (H : SI p (directives p) s1 qs') by (eapply (SI_interpret p Ssa Hsz (bf _ Hnp) (directives p) []); eauto; apply SI_init; auto).
  destruct (recreate_id p Hc (nested p) s1 s2) as [En Ea]; auto; [apply incl_refl | apply H |].
  rewrite En, Ea, E6. cbn [lowerIterate nest args]. apply trace_init. eapply NoDup_app_remove_r; eauto.
Qed.
End Run2.
