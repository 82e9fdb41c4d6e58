(** The invariant along the directives, and the iterations of the lowered nest. *)
From Coq Require Import List ZArith Bool Lia Permutation.
From Verif Require Import Util ScheduleSpec ScheduleModel ScheduleProofs ScheduleInv.
Import ListNotations.
Open Scope Z_scope.

Lemma Permutation_filter {A} (f : A -> bool) l m : Permutation l m -> Permutation (filter f l) (filter f m).
Proof.
  induction 1; cbn [filter]; auto.
  - destruct (f x); auto.
  - destruct (f x), (f y); auto. constructor.
  - etransitivity; eauto.
Qed.
Lemma flat_map_app' {A B} (f : A -> list B) l m : flat_map f (l ++ m) = flat_map f l ++ flat_map f m.
Proof. apply flat_map_app. Qed.

Lemma NoDup_app_remove_r {A} (l m : list A) : NoDup (l ++ m) -> NoDup l.
Proof.
  induction l as [|a l IH]; cbn [app]; intros H; constructor; inversion H; subst; auto. rewrite in_app_iff in *. tauto.
Qed.

Section Run.
Variable p : program.
Notation skip := (notIterated p).
Definition eff (ls : list loop) : list loop := filter (fun l => negb (skip (ref l))) ls.
Definition known (done : list directive) : list Z := map fst (dims p) ++ outers done ++ locals done.
Definition unitsOf (done : list directive) : list Z :=
  fold_left (fun u d => match d with
    | Block r r1 r2 s => if memb r u then r2 :: (if s =? 1 then r1 :: u else u) else u
    | _ => u end) done (map fst (dims p)).

Record SI (done : list directive) (st : state) (qs : list plan) : Prop := {
  s_ci : CI (dims p) (eff (nest st)) qs;
  s_nd : NoDup (map ref (nest st));
  s_refs : incl (map ref (nest st)) (known done);
  s_ops : incl (flat_map operands done) (known done);
  s_skip : forall l, In l (nest st) -> skip (ref l) = true -> In (ref l) (kernel p) \/ l = trivialised l;
  s_unit : forall l, In l (nest st) -> In (ref l) (unitsOf done) -> step l = 1;
  s_units : incl (unitsOf done) (known done);
  s_alen : length (args st) = length qs;
  s_args : forall i a q, nth_error (args st) i = Some a -> nth_error qs i = Some q -> snd q = None -> a = handle q;
  s_er : erased st = true -> exists rs to, In (Permute rs to) done
}.

Lemma known_app a b : incl (known a) (known (a ++ b)).
Proof.
  intros x. unfold known, outers, locals. rewrite !flat_map_app', !in_app_iff. tauto.
Qed.
Lemma unitsOf_snoc done d : unitsOf (done ++ [d]) = match d with
    | Block r r1 r2 s => if memb r (unitsOf done) then r2 :: (if s =? 1 then r1 :: unitsOf done else unitsOf done) else unitsOf done
    | _ => unitsOf done end.
Proof. unfold unitsOf. rewrite fold_left_app. destruct d; reflexivity. Qed.

Lemma eff_ren r r2 ls : eff (map (renL r r2) ls) = map (renL r r2) (eff ls).
Proof. unfold eff. induction ls as [|l ls IH]; cbn [map filter]; auto. cbn [renL ref]. destruct (negb (skip (ref l))); cbn [map]; now rewrite IH. Qed.
Lemma eff_app a b : eff (a ++ b) = eff a ++ eff b.
Proof. unfold eff. apply filter_app. Qed.

Lemma tileNest_split pre l post r r1 r2 mk : (forall m, In m (pre ++ post) -> ref m <> r) -> ref l = r ->
  tileNest (pre ++ l :: post) r r1 r2 mk = map (renL r r2) pre ++ [fst (mk l); snd (mk l)] ++ map (renL r r2) post.
Proof.
  intros Ne E. assert (G : forall ls, (forall m, In m ls -> ref m <> r) -> tileNest ls r r1 r2 mk = map (renL r r2) ls).
  { induction ls as [|a ls IH]; intros H; [reflexivity|]. unfold tileNest in *. cbn [flat_map map].
    destruct (Z.eqb_spec (ref a) r) as [X|X]; [exfalso; apply (H a); cbn; auto|]. cbn [app]. f_equal. apply IH. intros m Hm. apply H. cbn. auto. }
  unfold tileNest. rewrite flat_map_app. cbn [flat_map]. rewrite E, Z.eqb_refl. destruct (mk l) as [a b]. cbn [fst snd].
  f_equal; [|f_equal]; apply G; intros m Hm; apply Ne; rewrite in_app_iff; auto.
Qed.

Lemma blocksFirst_app d1 rs to d2 : blocksFirst (d1 ++ Permute rs to :: d2) -> locals d2 = [].
Proof. induction d1 as [|[] d1 IH]; cbn [app blocksFirst]; tauto. Qed.

Lemma skip_true r : skip r = true -> In r (locals (directives p)) /\ ~ In r (optimized p) /\ ~ In r (flat_map fst (nested p)) /\ ~ In r (indices p)
  /\ ~ In r (flat_map (fun d => match d with Permute _ _ => [] | _ => operands d end) (directives p))
  /\ (In r (kernel p) \/ ~ In r (flat_map operands (directives p))).
Proof.
  unfold notIterated. rewrite !andb_true_iff, orb_true_iff, !negb_true_iff, !memb_In, !memb_not. tauto.
Qed.
Lemma skip_false r : skip r = false -> In r (locals (directives p)) -> In r (optimized p) \/ In r (flat_map fst (nested p)) \/ In r (indices p)
  \/ In r (flat_map operands (directives p)).
Proof.
  intros H HL. unfold notIterated in H. apply memb_In in HL. rewrite HL in H. cbn [andb] in H.
  destruct (memb r (optimized p)) eqn:E1; [apply memb_In in E1; auto|].
  destruct (memb r (flat_map fst (nested p))) eqn:E2; [apply memb_In in E2; auto|].
  destruct (memb r (indices p)) eqn:E3; [apply memb_In in E3; auto|].
  destruct (memb r (flat_map operands (directives p))) eqn:E5; [apply memb_In in E5; auto|].
  destruct (memb r (flat_map (fun d => match d with Permute _ _ => [] | _ => operands d end) (directives p))) eqn:E4.
  - exfalso. apply memb_In in E4. apply memb_not in E5. apply E5. apply in_flat_map in E4 as (d & Hd & Hr). apply in_flat_map. exists d. split; auto. destruct d; auto. destruct Hr.
  - cbn [negb andb] in H. rewrite orb_true_r in H. discriminate.
Qed.

Hypothesis Ssa : NoDup (map fst (dims p) ++ outers (directives p) ++ locals (directives p)).
Hypothesis Hsz : sizesOK p.
Hypothesis Hbf : blocksFirst (directives p).

Lemma fresh done r r1 r2 s later : directives p = done ++ Block r r1 r2 s :: later ->
  ~ In r1 (known done) /\ ~ In r2 (known done) /\ r1 <> r2 /\ ~ In r1 (locals (directives p)) /\ In r2 (locals (directives p)).
Proof.
  intros E.
  assert (Eo : outers (directives p) = outers done ++ r1 :: outers later) by (rewrite E; unfold outers; rewrite flat_map_app; reflexivity).
  assert (Elo : locals (directives p) = locals done ++ r2 :: locals later) by (rewrite E; unfold locals; rewrite flat_map_app; reflexivity).
  clear Hbf Hsz. rewrite Eo, Elo in Ssa. rewrite Elo. unfold known. revert Ssa. clear. generalize (map fst (dims p)) (outers done) (outers later) (locals done) (locals later).
  intros A B B' C C' Ssa.
  assert (Ssa2 : NoDup (r1 :: r2 :: A ++ B ++ B' ++ C ++ C')).
  { eapply Permutation_NoDup; [|exact Ssa].
    transitivity (r1 :: (A ++ B) ++ B' ++ C ++ r2 :: C').
    { rewrite <- !app_assoc. cbn [app]. rewrite !(app_assoc A B). symmetry. apply Permutation_middle. }
    constructor. replace ((A ++ B) ++ B' ++ C ++ r2 :: C') with ((A ++ B ++ B' ++ C) ++ r2 :: C') by (rewrite <- !app_assoc; reflexivity).
    replace (A ++ B ++ B' ++ C ++ C') with ((A ++ B ++ B' ++ C) ++ C') by (rewrite <- !app_assoc; reflexivity).
    symmetry. apply Permutation_middle. }
  inversion Ssa2 as [|? ? N1 N2']; subst. inversion N2' as [|? ? N2 N3]; subst. cbn [In] in N1. rewrite !in_app_iff in *. cbn [In].
  repeat split; intuition congruence.
Qed.

Lemma SI_block done r r1 r2 s later st st' qs qs' :
  directives p = done ++ Block r r1 r2 s :: later ->
  doBlock p later r r1 r2 s st = Some st' -> stepPlan skip (Block r r1 r2 s) qs = Some qs' ->
  SI done st qs -> SI (done ++ [Block r r1 r2 s]) st' qs'.
Proof.
  intros Ed Hb Hq H. destruct (fresh _ _ _ _ _ _ Ed) as (F1 & F2 & F12 & F1L & F2L).
  assert (Hs : 0 < s < 2 ^ 32). { apply (Hsz r r1 r2). rewrite Ed. apply in_app_iff. right. now left. }
  unfold doBlock in Hb. rewrite Z.mod_small in Hb by lia.
  destruct ((s =? 0) || negb (memb r (map ref (nest st))) || memb r (par st)) eqn:Eg; [discriminate|].
  apply orb_false_iff in Eg as [Eg _]. apply orb_false_iff in Eg as [_ Eg]. apply negb_false_iff, memb_In in Eg.
  apply in_map_iff in Eg as (l & El & Hl). apply in_split in Hl as (pre & post & En).
  assert (Nd : NoDup (map ref (nest st))) by apply H.
  assert (Ne : forall m, In m (pre ++ post) -> ref m <> r).
  { intros m Hm Em. rewrite En, map_app in Nd. cbn [map] in Nd. apply NoDup_remove_2 in Nd. apply Nd.
    rewrite El, <- map_app, <- Em. now apply in_map. }
  assert (Nr1 : ~ In r1 (map ref (nest st))) by (intros X; apply (s_refs _ _ _ H) in X; auto).
  assert (Nr2 : ~ In r2 (map ref (nest st))) by (intros X; apply (s_refs _ _ _ H) in X; auto).
  assert (Hr : In r (map ref (nest st))) by (rewrite En, map_app, in_app_iff; cbn; auto).
  assert (Sr : skip r = false).
  { destruct (skip r) eqn:X; auto. apply skip_true in X as (_ & _ & _ & _ & X & _). exfalso. apply X.
    rewrite Ed, flat_map_app, in_app_iff. right. cbn. auto. }
  assert (Sr1 : skip r1 = false).
  { destruct (skip r1) eqn:X; auto. apply skip_true in X as (X & _). tauto. }
  assert (Ee : eff (nest st) = eff pre ++ l :: eff post).
  { rewrite En, eff_app. f_equal. unfold eff. cbn [filter]. now rewrite El, Sr. }
  set (mk := fun l => let (a, b) := tile l s r1 r2 in (a, if useEmpty p later (erased st) r2 then trivialised b else b)) in *.
  assert (Emk1 : fst (mk l) = fst (tile l s r1 r2)) by reflexivity.
  assert (Emk2 : snd (mk l) = if useEmpty p later (erased st) r2 then trivialised (snd (tile l s r1 r2)) else snd (tile l s r1 r2)) by reflexivity.
  assert (Er2 : ref (snd (mk l)) = r2) by (rewrite Emk2; destruct (useEmpty _ _ _ _); reflexivity).
  assert (Enest : nest st' = map (renL r r2) pre ++ [fst (mk l); snd (mk l)] ++ map (renL r r2) post).
  { inversion Hb; subst st'. cbn [nest]. rewrite En. apply tileNest_split; auto. }
  assert (Hargs : args st' = map (rn r r2) (args st)) by (inversion Hb; reflexivity).
  assert (Her : erased st' = erased st) by (inversion Hb; reflexivity).
  assert (InN : forall m', In m' (nest st') <-> m' = fst (mk l) \/ m' = snd (mk l) \/ exists m, In m (pre ++ post) /\ m' = renL r r2 m).
  { intros m'. rewrite Enest, !in_app_iff. cbn [In]. rewrite !in_map_iff. split.
    - intros [(m & <- & Hm) | [[<- | [<- | []]] | (m & <- & Hm)]]; auto; right; right; exists m; rewrite in_app_iff; auto.
    - intros [-> | [-> | (m & Hm & ->)]]; auto. apply in_app_iff in Hm as [Hm | Hm]; eauto. }
  assert (Epp : forall m, In m (pre ++ post) -> In m (nest st)) by (intros m Hm; rewrite En; apply in_mid; auto).
  assert (Er : erased st = false).
  { destruct (erased st) eqn:X; auto. destruct (s_er _ _ _ H X) as (rs & to & Hp). apply in_split in Hp as (d1 & d2 & Hp).
    pose proof Hbf as B. rewrite Ed, Hp, <- app_assoc in B. cbn [app] in B. apply blocksFirst_app in B.
    unfold locals in B. rewrite flat_map_app in B. cbn [flat_map app] in B. destruct (flat_map _ d2); discriminate. }
  assert (Fe1 : ~ In r1 (map ref (eff (nest st)))) by (intros X; apply in_map_iff in X as (m & Em & Hm); apply filter_In in Hm; apply Nr1; rewrite <- Em; apply in_map; tauto).
  assert (Fe2 : ~ In r2 (map ref (eff (nest st)))) by (intros X; apply in_map_iff in X as (m & Em & Hm); apply filter_In in Hm; apply Nr2; rewrite <- Em; apply in_map; tauto).
  pose proof (s_ci _ _ _ H) as C. rewrite Ee in C, Fe1, Fe2.
  assert (Core : CI (dims p) (eff (nest st')) qs' /\ (skip r2 = true -> In r2 (kernel p) \/ snd (mk l) = trivialised (snd (mk l)))
     /\ length qs' = length qs /\
     (forall i q q', nth_error qs i = Some q -> nth_error qs' i = Some q' -> snd q' = None -> snd q = None /\ handle q' = rn r r2 (handle q))).
  { rewrite Enest, eff_app, eff_app, !eff_ren. unfold eff at 2. cbn [filter]. rewrite Er2. change (ref (fst (mk l))) with r1. rewrite Sr1. cbn [negb].
    cbn [stepPlan] in Hq. destruct (skip r2) eqn:S2; cbn [negb].
    - destruct (existsb _ qs) eqn:Ex; [|discriminate]. apply existsb_exists in Ex as (q0 & Hq0 & Eq0).
      apply andb_prop in Eq0 as [Eh En0]. apply Z.eqb_eq in Eh. assert (snd q0 = None) as Hn0 by (destruct (snd q0); [discriminate|auto]).
      assert (Eqs : qs' = map (skipPlan r r1 s) qs) by (inversion Hq; reflexivity).
      assert (Id : forall ls, incl ls (eff (nest st)) -> map (renL r r2) ls = ls).
      { intros ls Hls. rewrite <- (map_id ls) at 2. apply map_ext_in. intros m Hm. apply renL_id. rewrite <- Eh.
        eapply (c_unread _ _ _ (s_ci _ _ _ H)); eauto. }
      split; [|split; [|split]].
      + rewrite !Id by (rewrite Ee; intros x Hx; apply in_app_iff; cbn; auto). cbn [app]. rewrite Emk1, Eqs.
        rewrite <- El in Eh |- *. eapply CI_skip with (q0 := q0); eauto. lia.
      + intros _. apply skip_true in S2 as (_ & Y1 & Y2 & Y3 & _ & Y5). destruct (memb r2 (kernel p)) eqn:Ek; [left; now apply memb_In|]. right.
        rewrite Emk2. replace (useEmpty p later (erased st) r2) with true; [reflexivity|]. symmetry.
        destruct Y5 as [Y5 | Y5]; [apply memb_not in Ek; tauto|].
        unfold useEmpty. rewrite !andb_true_iff, orb_true_iff, !negb_true_iff, !memb_not. repeat split; auto; [|now apply memb_not].
        intros X. apply Y5. rewrite Ed, flat_map_app, in_app_iff. cbn [flat_map]. rewrite in_app_iff. auto.
      + rewrite Eqs. apply map_length.
      + intros i q q' E1 E2 E3. rewrite Eqs, nth_error_map, E1 in E2. inversion E2; subst q'. rewrite handle_skip.
        destruct q as [[h c] o]. unfold skipPlan, handle in *. cbn [fst snd] in *. unfold rn. destruct (h =? r); [discriminate|]. auto.
    - assert (Eqs : qs' = map (obsPlan r r2 s) qs) by (inversion Hq; reflexivity).
      assert (Ue : useEmpty p later (erased st) r2 = false).
      { destruct (useEmpty p later (erased st) r2) eqn:X; auto. unfold useEmpty in X. rewrite Er in X. cbn [orb] in X.
        rewrite !andb_true_iff, !negb_true_iff, !memb_not in X. destruct X as ((((X1 & X2) & X3) & X4) & X5).
        destruct (skip_false _ S2 F2L) as [Y | [Y | [Y | Y]]]; try tauto. exfalso. rewrite Ed, flat_map_app, in_app_iff in Y.
        cbn [flat_map operands app In] in Y. destruct Y as [Y | [<- | Y]]; auto. apply (s_ops _ _ _ H) in Y. tauto. }
      rewrite Emk1, Emk2, Ue, Eqs. split; [|split; [|split]].
      + rewrite <- El in *. apply CI_block; auto. lia.
      + discriminate.
      + apply map_length.
      + intros i q q' E1 E2 E3. rewrite nth_error_map, E1 in E2. inversion E2; subst q'. rewrite handle_obs.
        destruct q as [[h c] o]. unfold obsPlan in E3. cbn [fst snd] in *. destruct (h =? r); auto. }
  destruct Core as (C1 & C2 & C3 & C4).
  assert (K : forall x, In x (known done) -> In x (known (done ++ [Block r r1 r2 s]))) by (apply known_app).
  assert (K1 : In r1 (known (done ++ [Block r r1 r2 s]))).
  { unfold known, outers, locals. rewrite !flat_map_app, !in_app_iff. cbn. tauto. }
  assert (K2 : In r2 (known (done ++ [Block r r1 r2 s]))).
  { unfold known, outers, locals. rewrite !flat_map_app, !in_app_iff. cbn. tauto. }
  constructor; auto.
  - rewrite Enest, !map_app. cbn [map app]. rewrite !map_map.
    replace (map (fun x => ref (renL r r2 x)) pre) with (map ref pre) by (apply map_ext; reflexivity).
    replace (map (fun x => ref (renL r r2 x)) post) with (map ref post) by (apply map_ext; reflexivity).
    rewrite Er2. change (ref (fst (mk l))) with r1. rewrite En, map_app in Nd, Nr1, Nr2. cbn [map] in Nd, Nr1, Nr2.
    pose proof (NoDup_remove_1 _ _ _ Nd) as Nd2. rewrite in_app_iff in Nr1, Nr2. cbn [In] in Nr1, Nr2.
    eapply Permutation_NoDup; [apply Permutation_middle|]. constructor; [rewrite in_app_iff; cbn [In]; intuition congruence|].
    eapply Permutation_NoDup; [apply Permutation_middle|]. constructor; [rewrite in_app_iff; tauto|]. auto.
  - intros x Hx. apply in_map_iff in Hx as (m' & <- & Hm). apply InN in Hm as [-> | [-> | (m & Hm & ->)]]; auto; [now rewrite Er2|].
    apply K, (s_refs _ _ _ H). change (ref (renL r r2 m)) with (ref m). apply in_map. auto.
  - intros x. rewrite flat_map_app, in_app_iff. cbn [flat_map operands app In]. intros [Hx | [<- | []]]; apply K; [apply (s_ops _ _ _ H); auto|].
    apply (s_refs _ _ _ H); auto.
  - intros m' Hm Sm. apply InN in Hm as [-> | [-> | (m & Hm & ->)]].
    + change (ref (fst (mk l))) with r1 in Sm. congruence.
    + rewrite Er2 in *. auto.
    + change (ref (renL r r2 m)) with (ref m) in *. destruct (s_skip _ _ _ H m) as [? | ->]; auto.
  - intros m' Hm. rewrite unitsOf_snoc. pose proof (s_units _ _ _ H) as Us.
    assert (U1 : ~ In r1 (unitsOf done)) by (intros X; apply Us in X; auto).
    assert (U2 : ~ In r2 (unitsOf done)) by (intros X; apply Us in X; auto).
    assert (Lu : In r (unitsOf done) -> step l = 1).
    { intros X. apply (s_unit _ _ _ H); [rewrite En; apply in_mid; auto | now rewrite El]. }
    apply InN in Hm as [-> | [-> | (m & Hm & ->)]].
    + change (ref (fst (mk l))) with r1. change (step (fst (mk l))) with (s * step l). destruct (memb r (unitsOf done)) eqn:Mu; [|tauto].
      apply memb_In in Mu. destruct (Z.eqb_spec s 1); cbn [In]; [|intuition congruence]. intros _. rewrite Lu by auto. lia.
    + rewrite Er2. destruct (memb r (unitsOf done)) eqn:Mu; [|tauto]. apply memb_In in Mu. intros _. rewrite Emk2.
      destruct (useEmpty _ _ _ _); [reflexivity|]. exact (Lu Mu).
    + change (ref (renL r r2 m)) with (ref m). change (step (renL r r2 m)) with (step m).
      assert (ref m <> r1) by (intros X; apply Nr1; rewrite <- X; apply in_map; auto).
      assert (ref m <> r2) by (intros X; apply Nr2; rewrite <- X; apply in_map; auto).
      intros X. apply (s_unit _ _ _ H); auto. destruct (memb r (unitsOf done)); auto. destruct (s =? 1); cbn [In] in X; intuition congruence.
  - rewrite unitsOf_snoc. intros x. pose proof (s_units _ _ _ H) as Us. destruct (memb r (unitsOf done)); [|intros X; auto].
    destruct (s =? 1); cbn [In]; intros X; repeat (destruct X as [<- | X]; auto).
  - rewrite Hargs, map_length, C3. apply H.
  - intros i a q' E1 E2 E3. rewrite Hargs, nth_error_map in E1. destruct (nth_error (args st) i) as [a0|] eqn:Ea; [|discriminate]. inversion E1; subst a.
    destruct (nth_error qs i) as [q|] eqn:Eq.
    + destruct (C4 i q q' Eq E2 E3) as [X1 ->]. f_equal. eapply (s_args _ _ _ H); eauto.
    + apply nth_error_None in Eq. assert (i < length qs')%nat by (apply nth_error_Some; congruence). lia.
  - rewrite Her. congruence.
Qed.

Lemma SI_same done st st' qs d : (forall r r1 r2 s, d <> Block r r1 r2 s) -> incl (operands d) (known done) ->
  Permutation (nest st') (nest st) -> args st' = args st -> (erased st' = true -> erased st = true \/ exists rs to, d = Permute rs to) ->
  SI done st qs -> SI (done ++ [d]) st' qs.
Proof.
  intros Hd Ho P Ea Ee H.
  assert (Ek : known (done ++ [d]) = known done).
  { unfold known, outers, locals. rewrite !flat_map_app. destruct d; cbn [flat_map]; rewrite ?app_nil_r; auto. exfalso; eapply Hd; eauto. }
  assert (Eu : unitsOf (done ++ [d]) = unitsOf done).
  { rewrite unitsOf_snoc. destruct d; auto. exfalso; eapply Hd; eauto. }
  assert (I1 : forall l, In l (nest st') -> In l (nest st)) by (intros; eapply Permutation_in; eauto).
  constructor; rewrite ?Ek, ?Eu, ?Ea; try apply H.
  - eapply CI_perm; [|apply H]. symmetry. now apply Permutation_filter.
  - eapply Permutation_NoDup; [|apply (s_nd _ _ _ H)]. symmetry. now apply Permutation_map.
  - intros x Hx. apply (s_refs _ _ _ H). eapply Permutation_in; [|exact Hx]. now apply Permutation_map.
  - intros x. rewrite flat_map_app, in_app_iff. cbn [flat_map]. rewrite app_nil_r. intros [Hx | Hx]; auto. now apply (s_ops _ _ _ H).
  - intros l Hl. apply H; auto.
  - intros l Hl. apply (s_unit _ _ _ H); auto.
  - intros X. destruct (Ee X) as [Y | (rs & to & ->)]; [destruct (s_er _ _ _ H Y) as (rs & to & Z); exists rs, to; apply in_app_iff; auto|].
    exists rs, to. apply in_app_iff. right. cbn. auto.
Qed.

Lemma SI_interpret : forall later done st st' qs qs', directives p = done ++ later ->
  interpret p later st = Some st' -> foldM (stepPlan skip) later qs = Some qs' -> SI done st qs -> SI (directives p) st' qs'.
Proof.
  induction later as [|d later IH]; intros done st st' qs qs' Ed Hi Hq H; cbn [interpret foldM] in Hi, Hq.
  - inversion Hi; inversion Hq; subst. rewrite Ed, app_nil_r. auto.
  - destruct (stepPlan skip d qs) as [q1|] eqn:E1; [|discriminate]. cbn [obind] in Hq.
    match type of Hi with obind ?e _ = _ => destruct e as [s1|] eqn:E2; [|discriminate] end. cbn [obind] in Hi.
    assert (Ed' : directives p = (done ++ [d]) ++ later) by (rewrite <- app_assoc; exact Ed).
    eapply IH; eauto. destruct d as [r r1 r2 s | rs to | r | r].
    + eapply SI_block; eauto.
    + cbn [stepPlan] in E1. inversion E1; subst q1. unfold doPermute in E2. destruct (existsb _ rs); [discriminate|].
      destruct (negb _) eqn:Eg; [discriminate|]. apply negb_false_iff, andb_prop in Eg as [Eg Ef]. apply andb_prop in Eg as [_ Eg].
      destruct (segment rs (nest st)) as [[[a b] c]|] eqn:Es; [|discriminate]. cbn [obind] in E2. inversion E2; subst s1.
      apply segment_spec in Es as [En Eb]. apply Nat.eqb_eq in Eg. rewrite <- Eb, map_length in Eg, Ef.
      apply SI_same with st; cbn [nest args erased]; auto; try discriminate.
      * cbn [operands]. rewrite <- Eb. intros x Hx. apply (s_refs _ _ _ H). rewrite En, !map_app, !in_app_iff. auto.
      * rewrite En. apply Permutation_app_head, Permutation_app_tail. apply permuted_perm; auto.
        intros j Hj. rewrite forallb_forall in Ef. specialize (Ef j Hj). lia.
      * eauto.
    + cbn [stepPlan] in E1. inversion E1; subst q1. unfold doParallel in E2. destruct (_ || _) eqn:Eg; [discriminate|].
      apply orb_false_iff in Eg as [Eg _]. apply negb_false_iff, memb_In in Eg. inversion E2; subst s1.
      apply SI_same with st; cbn [nest args erased]; auto; try discriminate. intros x [<- | []]. now apply (s_refs _ _ _ H).
    + cbn [stepPlan] in E1. inversion E1; subst q1. destruct (memb r _) eqn:Eg; [|discriminate]. apply memb_In in Eg. inversion E2; subst s1.
      apply SI_same with st; auto; try discriminate. intros x [<- | []]. now apply (s_refs _ _ _ H).
Qed.

Lemma SI_init : SI [] (lowerIterate p) (map (fun d => (fst d, [], None)) (dims p)).
Proof.
  assert (Nd : NoDup (map fst (dims p))) by (eapply NoDup_app_remove_r; eauto).
  assert (R : map ref (nest (lowerIterate p)) = map fst (dims p)) by (cbn [lowerIterate nest]; rewrite map_map; reflexivity).
  assert (Sk : forall l, In l (nest (lowerIterate p)) -> skip (ref l) = false).
  { intros l Hl. destruct (skip (ref l)) eqn:X; auto. apply skip_true in X as (X & _). exfalso.
    apply (in_map ref) in Hl. rewrite R in Hl. revert X Hl. clear -Ssa. induction (map fst (dims p)) as [|a m IH]; intros X Hl; [destruct Hl|].
    inversion Ssa as [|? ? Hn Hd]; subst. destruct Hl as [E | Hl]; auto. apply Hn. rewrite E, !in_app_iff. auto. }
  assert (Ef : eff (nest (lowerIterate p)) = nest (lowerIterate p)).
  { enough (G : forall ls, (forall l, In l ls -> skip (ref l) = false) -> eff ls = ls) by auto. clear. unfold eff.
    induction ls as [|l ls IH]; intros Sk; cbn [filter]; auto.
    rewrite Sk by (cbn; auto). cbn [negb]. f_equal. apply IH. intros m Hm. apply Sk. cbn; auto. }
  constructor.
  - rewrite Ef. apply CI_init. auto.
  - now rewrite R.
  - rewrite R. intros x Hx. unfold known. rewrite in_app_iff. auto.
  - intros x [].
  - intros l Hl X. rewrite Sk in X by auto. discriminate.
  - intros l Hl _. cbn [lowerIterate nest] in Hl. apply in_map_iff in Hl as (d & <- & _). reflexivity.
  - intros x Hx. unfold known. rewrite in_app_iff. auto.
  - cbn [lowerIterate args]. now rewrite !map_length.
  - intros i a q E1 E2 _. cbn [lowerIterate args] in E1. rewrite nth_error_map in E1, E2. destruct (nth_error (dims p) i); inversion E1; inversion E2; reflexivity.
  - discriminate.
Qed.

Lemma recreate_id : carriedOK p -> forall ns st st', incl ns (nested p) ->
  (forall l, In l (nest st) -> In (ref l) (unitsOf (directives p)) -> step l = 1) ->
  foldM (fun n st => recreate st n) ns st = Some st' -> nest st' = nest st /\ args st' = args st.
Proof.
  intros Hc. induction ns as [|[rs c] ns IH]; intros st st' Hi Hu; cbn [foldM]; [intros E; inversion E; auto|].
  destruct (recreate st (rs, c)) as [s1|] eqn:Er; [|discriminate]. cbn [obind]. intros E.
  assert (nest s1 = nest st /\ args s1 = args st) as [E1 E2].
  { unfold recreate in Er. destruct c; [|destruct rs as [|? [|]]; inversion Er; auto].
    destruct rs as [|r [|]]; [discriminate | | discriminate]. destruct (_ || _); [discriminate|]. inversion Er; subst s1. cbn [nest args]. split; auto.
    rewrite <- (map_id (nest st)) at 2. apply map_ext_in. intros l Hl. destruct (Z.eqb_spec (ref l) r) as [X|]; auto.
    assert (S1 : step l = 1).
    { apply Hu; auto. rewrite X. apply (Hc [r]); [apply Hi; cbn; auto | cbn; auto]. }
    destruct l; cbn in *; subst; reflexivity. }
  destruct (IH s1 st') as [E3 E4]; auto.
  - intros x Hx. apply Hi. cbn. auto.
  - rewrite E1. auto.
  - split; congruence.
Qed.

Lemma splitAfter_spec r : forall ls a b, splitAfter r ls = Some (a, b) -> ls = a ++ b.
Proof.
  induction ls as [|l ls IH]; intros a b; cbn [splitAfter]; [discriminate|]. destruct (ref l =? r); [intros E; inversion E; auto|].
  destruct (splitAfter r ls) as [[x y]|] eqn:G; [|discriminate]. cbn [obind fst snd]. intros E; inversion E; subst. cbn [app]. f_equal. auto.
Qed.
Lemma scoped_app a : forall sc b, scoped sc (a ++ b) = true -> scoped sc a = true.
Proof.
  induction a as [|l a IH]; intros sc b; cbn [scoped app]; auto. intros H. apply andb_prop in H as [H1 H2]. rewrite H1. cbn [andb]. eauto.
Qed.

Lemma triv_ok f l : l = trivialised l -> (ok f l <-> f (ref l) = 0).
Proof.
  intros E. unfold ok. rewrite E. cbn [trivialised ref lb step ev evMin ubs ub map fold_left]. unfold evMin. cbn [ubs ub map fold_left ev].
  rewrite In_iters, Z.mod_1_r by lia. lia.
Qed.

Lemma iterations_ok outer inner ar qs : carriedOK p ->
  lower p = Some (outer, inner, ar) -> plans p = Some qs ->
  (forall r, In r (kernel p) -> skip r = true) -> (forall l, In l inner -> skip (ref l) = true) ->
  Permutation (map (fun e => map (fun q => look e (handle q)) qs) (trace outer [])) (iterations p qs) /\
  (forall i a q, nth_error ar i = Some a -> nth_error qs i = Some q -> snd q = None -> a = handle q) /\ length ar = length qs /\
  NoDup (map ref outer) /\ (forall q, In q qs -> In (handle q) (map ref outer)).
Proof.
  intros Hc Hlow Hpl Hk Hin. unfold lower in Hlow. destruct (negb _) eqn:E0; [discriminate|]. clear E0.
  destruct (interpret p (directives p) (lowerIterate p)) as [s1|] eqn:E1; [|discriminate]. cbn [obind] in Hlow.
  destruct (foldM _ (nested p) s1) as [s2|] eqn:E2; [|discriminate]. cbn [obind] in Hlow.
  destruct (negb (scoped [] (nest s2))) eqn:E3; [discriminate|]. apply negb_false_iff in E3.
  destruct (bodyLoop p) as [r|]; [|discriminate]. cbn [obind] in Hlow.
  destruct (splitAfter r (nest s2)) as [[a b]|] eqn:E4; [|discriminate]. cbn [obind fst snd] in Hlow.
  destruct (existsb _ a) eqn:E5; [discriminate|]. inversion Hlow; subst outer inner ar. clear Hlow.
  assert (H : SI (directives p) s1 qs) by (eapply (SI_interpret (directives p) []); eauto; apply SI_init).
  destruct (recreate_id Hc (nested p) s1 s2) as [En Ea]; auto; [apply incl_refl | apply H |].
  apply splitAfter_spec in E4. pose proof E4 as Es. rewrite En in Es.
  assert (Sb : forall l, In l b -> skip (ref l) = true).
  { intros l Hl. destruct (memb (ref l) (kernel p)) eqn:X; [apply Hk, memb_In; auto|]. apply Hin. apply filter_In. rewrite X. auto. }
  assert (Eff : eff (nest s1) = eff a).
  { rewrite Es, eff_app. replace (eff b) with (@nil loop); [apply app_nil_r|]. unfold eff. clear -Sb. induction b as [|l b IH]; auto.
    cbn [filter]. rewrite Sb by (cbn; auto). cbn [negb]. apply IH. intros m Hm. apply Sb. cbn; auto. }
  assert (Tr : forall l, In l a -> skip (ref l) = true -> l = trivialised l).
  { intros l Hl Sl. destruct (s_skip _ _ _ H l) as [X|X]; auto; [rewrite Es; apply in_app_iff; auto|].
    exfalso. apply memb_In in X. assert (existsb (fun l => memb (ref l) (kernel p)) a = true) by (apply existsb_exists; eauto). congruence. }
  assert (Nd : NoDup (map ref a)).
  { pose proof (s_nd _ _ _ H) as N. rewrite Es, map_app in N. eapply NoDup_app_remove_r; eauto. }
  assert (Sc : scoped [] a = true) by (rewrite E4 in E3; eapply scoped_app; eauto).
  pose proof (s_ci _ _ _ H) as C. rewrite Eff in C.
  assert (Sol : forall f, sol a f <-> sol (eff a) f /\ forall l, In l a -> skip (ref l) = true -> f (ref l) = 0).
  { intros f. split.
    - intros Hf. split; [intros l Hl; apply filter_In in Hl; apply Hf; tauto|]. intros l Hl Sl. apply triv_ok; auto.
    - intros [H1 H2] l Hl. destruct (skip (ref l)) eqn:Sl; [apply triv_ok; auto|]. apply H1. apply filter_In. rewrite Sl. auto. }
  assert (St : forall l, In l a -> 0 < step l).
  { intros l Hl. destruct (skip (ref l)) eqn:Sl; [rewrite (Tr l); auto; cbn; lia|]. apply (c_step _ _ _ C). apply filter_In. rewrite Sl. auto. }
  assert (Hh : forall q, In q qs -> In (handle q) (map ref (eff a))) by apply C.
  assert (He : forall x, In x (map ref (eff a)) -> In x (map ref a) /\ skip x = false).
  { intros x Hx. apply in_map_iff in Hx as (l & <- & Hl). apply filter_In in Hl as [Hl Sl]. apply negb_true_iff in Sl. split; auto. now apply in_map. }
  assert (Tsol : forall x, In x (trace a []) -> sol a (look x)) by (intros x Hx; eapply trace_sol; eauto; intros r0 []).
  split; [|split; [|split; [|split; auto]]].
  - apply NoDup_Permutation.
    + apply NoDup_map_inj; [|apply trace_NoDup; auto]. intros x y Hx Hy Exy. apply (trace_ext a); auto.
      intros r0 Hr0. apply in_map_iff in Hr0 as (l & <- & Hl).
      pose proof (proj1 (Sol _) (Tsol _ Hx)) as [Sx Zx]. pose proof (proj1 (Sol _) (Tsol _ Hy)) as [Sy Zy].
      destruct (skip (ref l)) eqn:Sl; [rewrite Zx, Zy; auto|]. apply (c_c _ _ _ C); auto. apply in_map, filter_In. rewrite Sl. auto.
    + apply NoDup_grid. intros l Hl. assert (exists d q, l = vis d q) as (d & q & ->).
      { clear -Hl. revert Hl. generalize (dims p) at 1. intros ds. revert qs. induction ds as [|d ds IH]; intros [|q qs]; cbn [map2]; try (intros []; fail).
        intros [<- | Hl]; [exists d, q; reflexivity | eauto]. }
      apply NoDup_visited.
    + intros v. rewrite in_map_iff. split.
      * intros (x & <- & Hx). apply Tsol, Sol in Hx as [Hx _]. apply (c_a _ _ _ C) in Hx. exact Hx.
      * intros Hv. destruct (c_b _ _ _ C v Hv) as (f0 & Hf0 & Ev).
        set (f := fun q => if skip q then 0 else f0 q).
        assert (Ef : forall x, In x (map ref (eff a)) -> f x = f0 x) by (intros x Hx; apply He in Hx as [_ Hx]; unfold f; now rewrite Hx).
        assert (Hf : sol a f).
        { apply Sol. split; [|intros l _ Sl; unfold f; now rewrite Sl]. intros l Hl. apply ok_ext with f0; [| |apply Hf0; auto].
          - symmetry. apply Ef. now apply in_map.
          - intros x Hx. symmetry. apply Ef. eapply (c_closed _ _ _ C); eauto. }
        destruct (sol_trace a [] [] f Sc Nd) as (x & Hx & Hl); auto; try (intros ? []).
        exists x. split; auto. rewrite <- Ev. apply map_ext_in. intros q Hq. rewrite Hl by (left; apply He; auto). apply Ef; auto.
  - rewrite Ea. apply H.
  - rewrite Ea. apply H.
  - intros q Hq. apply He. auto.
Qed.
End Run.
