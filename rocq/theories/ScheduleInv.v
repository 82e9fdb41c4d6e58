(** The invariant of the loop schedule: the iterations asked for are the solutions of the bounds. *)
From Coq Require Import List ZArith Bool Lia Permutation.
From Verif Require Import Util ScheduleSpec ScheduleModel ScheduleProofs.
Import ListNotations.
Open Scope Z_scope.

Lemma tileStart_app c : forall lo s x, tileStart lo (c ++ [s]) x = tileStart lo c x + (x - tileStart lo c x) / s * s.
Proof. induction c as [|a c IH]; intros lo s x; cbn [app tileStart]; auto. Qed.

Section Core.
Variable ds : list (Z * (Z * Z)).
Definition vis (d : Z * (Z * Z)) (q : plan) : list Z := visited (fst (snd d)) (snd (snd d)) (snd (fst q)) (snd q).
Definition G (qs : list plan) : list (list Z) := grid (map2 vis ds qs).

Lemma G_spec qs v : length qs = length ds ->
  (In v (G qs) <-> length v = length qs /\ forall i d q x, nth_error ds i = Some d -> nth_error qs i = Some q -> nth_error v i = Some x -> In x (vis d q)).
Proof.
  intros L. unfold G. rewrite In_grid. revert qs v L. induction ds as [|d ds' IH]; intros [|q qs] v L; try discriminate; cbn [map2].
  - split.
    + intros H. inversion H. split; auto. intros [|i]; discriminate.
    + intros [H _]. destruct v; [constructor | discriminate].
  - split.
    + intros H. inversion H as [|x ? w ? Hx Hw]; subst. apply IH in Hw; [|cbn in L; lia]. destruct Hw as [Hl Hw]. split; [cbn; lia|].
      intros [|i] d0 q0 x0; cbn [nth_error]; [intros E1 E2 E3; inversion E1; inversion E2; inversion E3; subst; auto|]. apply Hw.
    + intros [Hl H]. destruct v as [|x v]; [discriminate|]. constructor.
      * apply (H O); reflexivity.
      * apply IH; [cbn in L; lia|]. split; [cbn in Hl; lia|]. intros i. apply (H (S i)).
Qed.

Record CI (E : list loop) (qs : list plan) : Prop := {
  c_nd : NoDup (map ref E);
  c_step : forall l, In l E -> 0 < step l;
  c_closed : forall l r, In l E -> In r (reads l) -> In r (map ref E);
  c_irr : forall l, In l E -> ~ In (ref l) (reads l);
  c_len : length qs = length ds;
  c_h : forall q, In q qs -> In (handle q) (map ref E);
  c_hnd : NoDup (map handle qs);
  c_unread : forall q l, In q qs -> In l E -> ~ In (handle q) (reads l);
  c_a : forall f, sol E f -> In (map (fun q => f (handle q)) qs) (G qs);
  c_b : forall v, In v (G qs) -> exists f, sol E f /\ map (fun q => f (handle q)) qs = v;
  c_c : forall f g, sol E f -> sol E g -> map (fun q => f (handle q)) qs = map (fun q => g (handle q)) qs ->
        forall r, In r (map ref E) -> f r = g r;
  c_s : forall i d q l, nth_error ds i = Some d -> nth_error qs i = Some q -> snd q = None -> In l E -> ref l = handle q ->
        step l = 1 /\ forall f, sol E f -> ev f (lb l) = tileStart (fst (snd d)) (snd (fst q)) (f (handle q))
}.

Lemma CI_perm E E' qs : Permutation E E' -> CI E qs -> CI E' qs.
Proof.
  intros P H. assert (I1 : forall l, In l E' -> In l E) by (intros; eapply Permutation_in; [symmetry; eauto | auto]).
  assert (I2 : forall l, In l E -> In l E') by (intros; eapply Permutation_in; eauto).
  assert (P' : Permutation (map ref E) (map ref E')) by now apply Permutation_map.
  assert (S1 : forall f, sol E' f -> sol E f) by (intros f Hf l Hl; auto).
  assert (S2 : forall f, sol E f -> sol E' f) by (intros f Hf l Hl; auto).
  destruct H. constructor; auto.
  - eapply Permutation_NoDup; eauto.
  - intros l r Hl Hr. eapply Permutation_in; eauto.
  - intros q Hq. eapply Permutation_in; eauto.
  - intros v Hv. destruct (c_b0 v Hv) as (f & Hf & Ev). eauto.
  - intros f g Hf Hg Ev r Hr. apply c_c0; auto. eapply Permutation_in; [symmetry; eauto | auto].
  - intros i d q l E1 E2 Hn Hl Hr. destruct (c_s0 i d q l) as [? ?]; auto.
Qed.

(** The start. *)
Lemma CI_init : NoDup (map fst ds) ->
  CI (map (fun d => {| ref := fst d; lb := Cst (fst (snd d)); ub := Cst (snd (snd d)); ubs := []; step := 1 |}) ds)
     (map (fun d => (fst d, [], None)) ds).
Proof.
  intros Hd. set (mk := fun d => _). set (qd := fun d : Z * (Z * Z) => (fst d, @nil Z, @None Z)).
  assert (R : map ref (map mk ds) = map fst ds) by (rewrite map_map; reflexivity).
  assert (Q : map handle (map qd ds) = map fst ds) by (rewrite map_map; reflexivity).
  assert (Ok : forall f d, ok f (mk d) <-> In (f (fst d)) (points (fst (snd d)) (snd (snd d)))).
  { intros f d. unfold ok, mk, evMin. cbn [ref lb ub ubs step ev map fold_left]. rewrite In_iters, In_points by lia.
    rewrite Z.mod_1_r. tauto. }
  assert (LL : length (map qd ds) = length ds) by apply map_length.
  assert (Sol : forall f, sol (map mk ds) f <-> In (map (fun q => f (handle q)) (map qd ds)) (G (map qd ds))).
  { intros f. rewrite G_spec by auto. rewrite !map_length. split.
    - intros H. split; auto. intros i d q x E1 E2 E3. rewrite !nth_error_map, E1 in E3. rewrite nth_error_map, E1 in E2.
      cbn in E2, E3. inversion E2; inversion E3; subst. unfold vis, qd, handle. cbn [fst snd visited]. apply Ok, H.
      apply in_map. eapply nth_error_In; eauto.
    - intros [_ H] l Hl. apply in_map_iff in Hl as (d & <- & Hd'). apply Ok. apply In_nth_error in Hd' as [i Ei].
      specialize (H i d (qd d) (f (fst d)) Ei). rewrite !nth_error_map, Ei in H. apply H; reflexivity. }
  constructor; auto.
  - now rewrite R.
  - intros l Hl. apply in_map_iff in Hl as (d & <- & _). cbn. lia.
  - intros l r Hl Hr. apply in_map_iff in Hl as (d & <- & _). destruct Hr.
  - intros l Hl Hr. apply in_map_iff in Hl as (d & <- & _). destruct Hr.
  - intros q Hq. rewrite R. rewrite <- Q. now apply in_map.
  - now rewrite Q.
  - intros q l _ Hl Hr. apply in_map_iff in Hl as (d & <- & _). destruct Hr.
  - intros f Hf. now apply Sol.
  - intros v Hv. exists (fun r => look (combine (map fst ds) v) r).
    assert (E : map (fun q => look (combine (map fst ds) v) (handle q)) (map qd ds) = v).
    { apply G_spec in Hv as [Hl _]; auto. rewrite map_length in Hl. rewrite map_map. unfold qd, handle. cbn [fst].
      rewrite <- (map_map fst (fun r => look (combine (map fst ds) v) r)). rewrite <- (map_length fst) in Hl.
      clear -Hd Hl. revert v Hl. induction Hd as [|a l Hn Hd IH]; intros [|x v] Hl; try discriminate; auto.
      cbn [map combine]. f_equal.
      - rewrite look_cons, Z.eqb_refl. reflexivity.
      - etransitivity; [|apply (IH v); cbn in Hl; lia]. apply map_ext_in. intros b Hb. rewrite look_cons.
        destruct (Z.eqb_spec a b); [now subst|auto]. }
    split; auto. apply Sol. rewrite E. auto.
  - intros f g _ _ E r Hr. rewrite R in Hr. rewrite !map_map in E. unfold qd, handle in E. cbn [fst] in E.
    apply in_map_iff in Hr as (d & <- & Hd'). clear -E Hd'. induction ds as [|a l IH]; [destruct Hd'|]. cbn [map] in E.
    inversion E as [[E1 E2]]. destruct Hd' as [<- | Hd']; auto.
  - intros i d q l E1 E2 _ Hl Hr. rewrite nth_error_map, E1 in E2. inversion E2; subst. cbn [qd fst snd handle] in *.
    apply in_map_iff in Hl as (d' & <- & Hd'). cbn [mk ref step lb] in *.
    split; auto. intros f _. cbn [mk lb ev tileStart].
    apply nth_error_In in E1. clear -Hd E1 Hd' Hr. unfold handle in Hr. cbn in Hr.
    enough (d' = d) by now subst. induction ds as [|a l IH]; [destruct Hd'|]. cbn [map] in Hd. inversion Hd; subst.
    destruct Hd' as [-> | Hd'], E1 as [-> | E1]; auto.
    + exfalso. apply H1. rewrite Hr. now apply in_map.
    + exfalso. apply H1. rewrite <- Hr. now apply in_map.
Qed.

Lemma rn_same r r2 : rn r r2 r = r2.
Proof. unfold rn. now rewrite Z.eqb_refl. Qed.
Lemma rn_other r r2 q : q <> r -> rn r r2 q = q.
Proof. intros H. unfold rn. destruct (Z.eqb_spec q r); congruence. Qed.

(** Blocking a loop. *)
Definition obsPlan (r r2 s : Z) (q : plan) : plan :=
  let '(h, c, l) := q in if h =? r then (r2, match l with None => c ++ [s] | _ => c end, l) else (h, c, l).
Lemma handle_obs r r2 s q : handle (obsPlan r r2 s q) = rn r r2 (handle q).
Proof. destruct q as [[h c] l]. unfold obsPlan, handle, rn. cbn. destruct (h =? r); reflexivity. Qed.
Lemma vis_obs d r r2 s q : vis d (obsPlan r r2 s q) = vis d q.
Proof. destruct q as [[h c] [x|]]; unfold obsPlan, vis; destruct (h =? r); reflexivity. Qed.
Lemma G_obs r r2 s qs : G (map (obsPlan r r2 s) qs) = G qs.
Proof.
  unfold G. f_equal. revert qs. induction ds as [|d l IH]; intros [|q qs]; cbn [map map2]; auto. now rewrite vis_obs, IH.
Qed.

Lemma in_mid {A} (x : A) pre l post : In x (pre ++ l :: post) <-> x = l \/ In x (pre ++ post).
Proof. rewrite !in_app_iff. cbn [In]. intuition congruence. Qed.

Lemma CI_block pre l post qs r1 r2 s : 0 < s ->
  let r := ref l in let E := pre ++ l :: post in
  ~ In r1 (map ref E) -> ~ In r2 (map ref E) -> r1 <> r2 ->
  CI E qs ->
  CI (map (renL r r2) pre ++ [fst (tile l s r1 r2); snd (tile l s r1 r2)] ++ map (renL r r2) post) (map (obsPlan r r2 s) qs).
Proof.
  intros Hs r E F1 F2 F12 H. set (l1 := fst (tile l s r1 r2)). set (l2 := snd (tile l s r1 r2)). set (E' := _ ++ _).
  assert (InE : forall m, In m E <-> m = l \/ In m (pre ++ post)) by (intros; apply in_mid).
  assert (InE' : forall m', In m' E' <-> m' = l1 \/ m' = l2 \/ exists m, In m (pre ++ post) /\ m' = renL r r2 m).
  { intros m'. unfold E'. rewrite !in_app_iff. cbn [In]. rewrite !in_map_iff. split.
    - intros [(m & <- & Hm) | [[<- | [<- | []]] | (m & <- & Hm)]]; auto; right; right; exists m; rewrite in_app_iff; auto.
    - intros [-> | [-> | (m & Hm & ->)]]; auto. apply in_app_iff in Hm as [Hm | Hm]; eauto. }
  assert (Hl : In l E) by (apply InE; auto).
  assert (Lst : 0 < step l) by (apply (c_step _ _ H); auto).
  assert (Lirr : ~ In r (reads l)) by (apply (c_irr _ _ H); auto).
  assert (Nd : NoDup (map ref E)) by apply H.
  assert (Ne : forall m, In m (pre ++ post) -> ref m <> r).
  { intros m Hm Em. unfold E in Nd. rewrite map_app in Nd. cbn [map] in Nd. apply NoDup_remove_2 in Nd. apply Nd.
    fold r. rewrite <- map_app, <- Em. now apply in_map. }
  assert (InR : forall x, In x (map ref E) <-> x = r \/ In x (map ref (pre ++ post))).
  { intros x. rewrite !in_map_iff. split.
    - intros (m & <- & Hm). apply InE in Hm as [-> | Hm]; eauto.
    - intros [-> | (m & <- & Hm)]; [exists l | exists m]; rewrite InE; auto. }
  assert (InR' : forall x, In x (map ref E') <-> x = r1 \/ x = r2 \/ In x (map ref (pre ++ post))).
  { intros x. rewrite !in_map_iff. split.
    - intros (m' & <- & Hm). apply InE' in Hm as [-> | [-> | (m & Hm & ->)]]; auto. right. right. exists m. auto.
    - intros [-> | [-> | (m & <- & Hm)]]; [exists l1 | exists l2 | exists (renL r r2 m)]; rewrite InE'; split; eauto. }
  assert (S : forall f, sol E' f <-> sol E (fun q => f (rn r r2 q)) /\
     f r1 = ev (fun q => f (rn r r2 q)) (lb l) + (f r2 - ev (fun q => f (rn r r2 q)) (lb l)) / (s * step l) * (s * step l)).
  { intros f. pose proof (sol_tile l s r1 r2 f Lst Hs Lirr) as T. fold l1 l2 in T. cbv zeta in T. fold r in T. split.
    - intros Hf. destruct (proj1 T) as [T1 T2]; [split; apply Hf, InE'; auto|]. split; auto.
      intros m Hm. apply InE in Hm as [-> | Hm]; auto. apply ok_ren; auto. apply Hf, InE'. right; right. eauto.
    - intros [Hf Et]. destruct (proj2 T) as [T1 T2]; [split; auto; apply Hf; auto|].
      intros m' Hm. apply InE' in Hm as [-> | [-> | (m & Hm & ->)]]; auto. apply ok_ren; auto. apply Hf, InE. auto. }
  assert (Ml : forall m x, In m E -> In x (reads m) -> x <> r1 /\ x <> r2).
  { intros m x Hm Hx. apply (c_closed _ _ H) in Hx; auto. split; intros ->; auto. }
  assert (Mp : forall f : Z -> Z, map (fun q => f (handle q)) (map (obsPlan r r2 s) qs) = map (fun q => f (rn r r2 (handle q))) qs).
  { intros f. rewrite map_map. apply map_ext. intros q. now rewrite handle_obs. }
  constructor.
  - unfold E'. rewrite !map_app. cbn [map]. rewrite !map_map.
    replace (map (fun x => ref (renL r r2 x)) pre) with (map ref pre) by (apply map_ext; reflexivity).
    replace (map (fun x => ref (renL r r2 x)) post) with (map ref post) by (apply map_ext; reflexivity).
    cbn [app]. replace (ref l1) with r1 by reflexivity. replace (ref l2) with r2 by reflexivity.
    unfold E in Nd. rewrite map_app in Nd. cbn [map] in Nd.
    assert (Nd2 : NoDup (map ref pre ++ map ref post)) by (eapply NoDup_remove_1; eauto).
    assert (A1 : ~ In r1 (map ref pre ++ map ref post)) by (rewrite <- map_app; intros X; apply F1, InR; auto).
    assert (A2 : ~ In r2 (map ref pre ++ map ref post)) by (rewrite <- map_app; intros X; apply F2, InR; auto).
    eapply Permutation_NoDup; [apply Permutation_middle|]. constructor.
    + rewrite in_app_iff in A1 |- *. cbn [In]. intuition congruence.
    + eapply Permutation_NoDup; [apply Permutation_middle|]. constructor; auto.
  - intros m' Hm. apply InE' in Hm as [-> | [-> | (m & Hm & ->)]]; cbn [l1 l2 tile fst snd step renL]; auto; [nia|].
    apply (c_step _ _ H). apply InE. auto.
  - intros m' x Hm Hx. apply InR'. apply InE' in Hm as [-> | [-> | (m & Hm & ->)]].
    + change (reads l1) with (reads l) in Hx. assert (x <> r) by (intros ->; auto). apply (c_closed _ _ H) in Hx; auto. apply InR in Hx. tauto.
    + assert (x = r1 \/ In x (reads l)) as [-> | Hx'].
      { rewrite reads_eq in Hx |- *. cbn [l2 tile snd lb ub ubs bref flat_map] in Hx. rewrite !in_app_iff in Hx |- *. cbn [In] in Hx. intuition. }
      { auto. }
      assert (x <> r) by (intros ->; auto). apply (c_closed _ _ H) in Hx'; auto. apply InR in Hx'. tauto.
    + rewrite reads_ren in Hx. apply in_map_iff in Hx as (y & <- & Hy). unfold rn. destruct (Z.eqb_spec y r); auto.
      apply (c_closed _ _ H) in Hy; [|apply InE; auto]. apply InR in Hy. tauto.
  - intros m' Hm. apply InE' in Hm as [-> | [-> | (m & Hm & ->)]].
    + change (reads l1) with (reads l). change (ref l1) with r1. intros X. apply Ml in X; auto. tauto.
    + change (ref l2) with r2. intros X. assert (r2 = r1 \/ In r2 (reads l)) as [? | X'].
      { rewrite reads_eq in X |- *. cbn [l2 tile snd lb ub ubs bref flat_map] in X. rewrite !in_app_iff in X |- *. cbn [In] in X. intuition. }
      { congruence. }
      apply Ml in X'; auto. tauto.
    + change (ref (renL r r2 m)) with (ref m). rewrite reads_ren, in_map_iff. intros (y & Ey & Hy).
      unfold rn in Ey. destruct (Z.eqb_spec y r).
      * apply F2, InR. right. rewrite Ey. now apply in_map.
      * subst y. eapply (c_irr _ _ H); [|exact Hy]. apply InE. auto.
  - rewrite map_length. apply H.
  - intros q' Hq. apply in_map_iff in Hq as (q & <- & Hq). rewrite handle_obs. apply InR'.
    apply (c_h _ _ H) in Hq. apply InR in Hq as [-> | Hq]; [rewrite rn_same; auto|]. rewrite rn_other; auto.
    intros X. rewrite X in Hq. apply in_map_iff in Hq as (m & Em & Hm). now apply Ne in Hm.
  - rewrite map_map. rewrite (map_ext _ (fun q => rn r r2 (handle q))) by (intros; apply handle_obs).
    rewrite <- map_map. apply NoDup_map_inj; [|apply H]. intros x y Hx Hy. unfold rn.
    assert (forall z, In z (map handle qs) -> z <> r2).
    { intros z Hz ->. apply in_map_iff in Hz as (q & Eq & Hq). apply F2. rewrite <- Eq. now apply (c_h _ _ H). }
    destruct (Z.eqb_spec x r), (Z.eqb_spec y r); try congruence; intros Ez; [exfalso; apply (H0 y); auto | exfalso; apply (H0 x); auto].
  - intros q' m' Hq Hm. apply in_map_iff in Hq as (q & <- & Hq). rewrite handle_obs.
    assert (Hh : In (handle q) (map ref E)) by now apply (c_h _ _ H).
    assert (Hn : forall m, In m E -> ~ In (handle q) (reads m)) by (intros; eapply (c_unread _ _ H); eauto).
    assert (rn r r2 (handle q) <> r1).
    { unfold rn. destruct (Z.eqb_spec (handle q) r); [congruence|]. intros X. apply F1. rewrite <- X. auto. }
    assert (Hl' : ~ In (rn r r2 (handle q)) (reads l)).
    { unfold rn. destruct (Z.eqb_spec (handle q) r); [intros X; apply Ml in X; tauto|]. apply Hn; auto. }
    apply InE' in Hm as [-> | [-> | (m & Hm & ->)]]; auto.
    + intros X. rewrite reads_eq in X, Hl'. cbn [l2 tile snd lb ub ubs bref flat_map] in X. rewrite !in_app_iff in X, Hl'. cbn [In] in X. rewrite ?in_app_iff in X. intuition congruence.
    + rewrite reads_ren, in_map_iff. intros (y & Ey & Hy).
      assert (y = handle q) as ->; [|eapply Hn; [|exact Hy]; apply InE; auto].
      assert (y <> r2) by (apply Ml in Hy; [tauto | apply InE; auto]).
      assert (handle q <> r2) by (intros X; apply F2; rewrite <- X; auto).
      unfold rn in Ey. destruct (Z.eqb_spec y r), (Z.eqb_spec (handle q) r); congruence.
  - intros f Hf. apply S in Hf as [Hf _]. rewrite Mp, G_obs. apply (c_a _ _ H) in Hf. exact Hf.
  - intros v Hv. rewrite G_obs in Hv. apply (c_b _ _ H) in Hv as (f0 & Hf0 & Ev).
    set (t := ev f0 (lb l) + (f0 r - ev f0 (lb l)) / (s * step l) * (s * step l)).
    set (f := fun q => if q =? r2 then f0 r else if q =? r1 then t else f0 q).
    assert (Ef : forall x, x <> r1 -> x <> r2 -> f (rn r r2 x) = f0 x).
    { intros x X1 X2. unfold rn. destruct (Z.eqb_spec x r) as [-> | Xr]; unfold f; [now rewrite Z.eqb_refl|].
      destruct (Z.eqb_spec x r2); [congruence|]. destruct (Z.eqb_spec x r1); congruence. }
    assert (Er : forall x, In x (map ref E) -> f (rn r r2 x) = f0 x) by (intros x Hx; apply Ef; intros ->; auto).
    exists f. rewrite S, Mp. split; [split|].
    + intros m Hm. apply ok_ext with f0; [| |apply Hf0; auto]; cbn beta.
      * symmetry. apply Er. now apply in_map.
      * intros x Hx. symmetry. apply Er. eapply (c_closed _ _ H); eauto.
    + assert (El : ev (fun q => f (rn r r2 q)) (lb l) = ev f0 (lb l)).
      { apply ev_ext. intros x Hx. apply Er. eapply (c_closed _ _ H); eauto. rewrite reads_eq, !in_app_iff. auto. }
      rewrite El. unfold f. rewrite Z.eqb_refl. destruct (Z.eqb_spec r1 r2); [congruence|]. now rewrite Z.eqb_refl.
    + rewrite <- Ev. apply map_ext_in. intros q Hq. apply Er. now apply (c_h _ _ H).
  - intros f g Hf Hg Efg x Hx. rewrite !Mp in Efg. apply S in Hf as [Hf Tf]. apply S in Hg as [Hg Tg].
    pose proof (c_c _ _ H _ _ Hf Hg Efg) as C. cbn beta in C.
    assert (C2 : f r2 = g r2). { specialize (C r). rewrite !rn_same in C. apply C, InR. auto. }
    apply InR' in Hx as [-> | [-> | Hx]]; auto.
    + rewrite Tf, Tg, C2. rewrite (ev_ext (fun q => f (rn r r2 q)) (fun q => g (rn r r2 q))); auto.
      intros y Hy. apply C. eapply (c_closed _ _ H); eauto. rewrite reads_eq, !in_app_iff. auto.
    + assert (x <> r) by (intros ->; apply in_map_iff in Hx as (m & Em & Hm); now apply Ne in Hm).
      specialize (C x). rewrite !rn_other in C by auto. apply C, InR. auto.
  - intros i d q' m' Ed Eq Hn Hm Er. rewrite nth_error_map in Eq. destruct (nth_error qs i) as [q|] eqn:Ei; [|discriminate].
    inversion Eq; subst q'. clear Eq. rewrite handle_obs in Er |- *.
    assert (Hq : In q qs) by (eapply nth_error_In; eauto).
    assert (Hh : In (handle q) (map ref E)) by now apply (c_h _ _ H).
    assert (Hn0 : snd q = None). { destruct q as [[h c] o]. unfold obsPlan in Hn. destruct (h =? r); auto. }
    destruct (Z.eq_dec (handle q) r) as [Hr | Hr].
    + rewrite Hr, rn_same in *.
      assert (m' = l2) as ->.
      { apply InE' in Hm as [-> | [-> | (m & Hm & ->)]]; auto; [exfalso; apply F12; exact Er|].
        exfalso. apply F2, InR. right. rewrite <- Er. change (ref (renL r r2 m)) with (ref m). now apply in_map. }
      destruct (c_s _ _ H i d q l Ed Ei Hn0 Hl) as [St Hs']; [auto|]. split; [exact St|]. intros f Hf. apply S in Hf as [Hf Tf].
      specialize (Hs' _ Hf). cbn beta in Hs'. rewrite Hr, rn_same in Hs'. cbn [l2 tile snd lb ev]. rewrite Z.add_0_r, Tf, Hs', St, Z.mul_1_r.
      destruct q as [[h c] o]. unfold obsPlan, handle in *. cbn [fst snd] in *. subst h o. rewrite Z.eqb_refl. cbn [fst snd].
      now rewrite tileStart_app.
    + rewrite rn_other in * by auto.
      assert (exists m, In m (pre ++ post) /\ m' = renL r r2 m) as (m & Hm' & ->).
      { apply InE' in Hm as [-> | [-> | ?]]; auto; exfalso; [apply F1 | apply F2]; rewrite <- Er in Hh; exact Hh. }
      destruct (c_s _ _ H i d q m Ed Ei Hn0) as [St Hs']; [apply InE; auto | exact Er |]. split; [exact St|].
      intros f Hf. apply S in Hf as [Hf Tf]. specialize (Hs' _ Hf). cbn beta in Hs'. rewrite (rn_other r r2 (handle q)) in Hs' by auto.
      cbn [renL lb]. rewrite evB_ren, Hs'. f_equal. destruct q as [[h c] o]. unfold obsPlan, handle in *. cbn [fst snd] in *.
      destruct (Z.eqb_spec h r); [congruence|auto].
Qed.

Lemma renB_id r r2 b : ~ In r (bref b) -> renB r r2 b = b.
Proof. destruct b as [z|q o]; cbn [renB bref In]; auto. intros H. rewrite rn_other; auto. Qed.
Lemma renL_id r r2 l : ~ In r (reads l) -> renL r r2 l = l.
Proof.
  rewrite reads_eq, !in_app_iff. intros H. destruct l as [rf a b bs st]. unfold renL. cbn [ref lb ub ubs step] in *.
  rewrite !renB_id by tauto. f_equal. rewrite <- (map_id bs) at 2. apply map_ext_in. intros c Hc. apply renB_id.
  intros X. apply H. right. right. apply in_flat_map. eauto.
Qed.

(** Blocking a loop whose points are not iterated over. *)
Definition skipPlan (r r1 s : Z) (q : plan) : plan := let '(h, c, l) := q in if h =? r then (r1, c, Some s) else (h, c, l).
Lemma handle_skip r r1 s q : handle (skipPlan r r1 s q) = rn r r1 (handle q).
Proof. destruct q as [[h c] l]. unfold skipPlan, handle, rn. cbn. destruct (h =? r); reflexivity. Qed.

Lemma CI_skip pre l post qs r1 r2 s q0 : 0 < s ->
  let r := ref l in let E := pre ++ l :: post in
  ~ In r1 (map ref E) -> In q0 qs -> handle q0 = r -> snd q0 = None ->
  CI E qs -> CI (pre ++ fst (tile l s r1 r2) :: post) (map (skipPlan r r1 s) qs).
Proof.
  intros Hs r E F1 Hq0 Hh0 Hn0 H. set (l1 := fst (tile l s r1 r2)). set (E' := pre ++ l1 :: post).
  assert (InE : forall m, In m E <-> m = l \/ In m (pre ++ post)) by (intros; apply in_mid).
  assert (InE' : forall m, In m E' <-> m = l1 \/ In m (pre ++ post)) by (intros; apply in_mid).
  assert (Hl : In l E) by (apply InE; auto).
  assert (Nd : NoDup (map ref E)) by apply H.
  assert (Ne : forall m, In m (pre ++ post) -> ref m <> r).
  { intros m Hm Em. unfold E in Nd. rewrite map_app in Nd. cbn [map] in Nd. apply NoDup_remove_2 in Nd. apply Nd.
    fold r. rewrite <- map_app, <- Em. now apply in_map. }
  assert (InR : forall x, In x (map ref E) <-> x = r \/ In x (map ref (pre ++ post))).
  { intros x. rewrite !in_map_iff. split.
    - intros (m & <- & Hm). apply InE in Hm as [-> | Hm]; eauto.
    - intros [-> | (m & <- & Hm)]; [exists l | exists m]; rewrite InE; auto. }
  assert (InR' : forall x, In x (map ref E') <-> x = r1 \/ In x (map ref (pre ++ post))).
  { intros x. rewrite !in_map_iff. split.
    - intros (m & <- & Hm). apply InE' in Hm as [-> | Hm]; eauto.
    - intros [-> | (m & <- & Hm)]; [exists l1 | exists m]; rewrite InE'; auto. }
  assert (U : forall m, In m E -> ~ In r (reads m)) by (intros m Hm; rewrite <- Hh0; eapply (c_unread _ _ H); eauto).
  assert (Ml : forall m x, In m E -> In x (reads m) -> x <> r1 /\ x <> r /\ In x (map ref E)).
  { intros m x Hm Hx. pose proof Hx as Hx2. apply (c_closed _ _ H) in Hx; auto. repeat split; auto; intros ->; auto. eapply U; eauto. }
  destruct (In_nth_error _ _ Hq0) as [i0 Ei0].
  assert (exists d0, nth_error ds i0 = Some d0) as [d0 Ed0].
  { destruct (nth_error ds i0) eqn:X; eauto. apply nth_error_None in X. assert (i0 < length qs)%nat by (apply nth_error_Some; congruence).
    rewrite (c_len _ _ H) in *. lia. }
  destruct (c_s _ _ H i0 d0 q0 l Ed0 Ei0 Hn0 Hl (eq_sym Hh0)) as [St Hst].
  assert (Uniq : forall i q, nth_error qs i = Some q -> handle q = r -> i = i0 /\ q = q0).
  { intros i q Ei Eh. assert (i = i0); [|subst; split; congruence]. pose proof (c_hnd _ _ H) as N. rewrite NoDup_nth_error in N. apply N.
    - rewrite map_length. apply nth_error_Some. congruence.
    - rewrite !nth_error_map, Ei, Ei0. cbn. congruence. }
  assert (Ext : forall f m x, In m E -> In x (reads m) -> f x = f (rn r r1 x) :> Z).
  { intros f m x Hm Hx. rewrite rn_other; auto. apply (Ml m x); auto. }
  assert (S : forall f, sol E' f <-> sol E (fun q => f (rn r r1 q)) /\ (f r1 - ev (fun q => f (rn r r1 q)) (lb l)) mod s = 0).
  { intros f. set (f' := fun q => f (rn r r1 q)).
    assert (El : ev f (lb l) = ev f' (lb l)).
    { apply ev_ext. intros x Hx. apply (Ext f l); auto. rewrite reads_eq, !in_app_iff. auto. }
    assert (Em : evMin f l = evMin f' l) by (apply evMin_ext; intros; eapply Ext; eauto).
    assert (Er : f' (ref l) = f r1) by (unfold f'; fold r; now rewrite rn_same).
    assert (T : ok f l1 <-> ok f' l /\ (f r1 - ev f' (lb l)) mod s = 0).
    { unfold ok. change (evMin f l1) with (evMin f l). cbn [l1 tile fst ref lb step].
      rewrite El, Em, Er, St, Z.mul_1_r. rewrite !In_iters, Z.mod_1_r by lia. tauto. }
    assert (M : forall m, In m (pre ++ post) -> (ok f m <-> ok f' m)).
    { intros m Hm. assert (f (ref m) = f' (ref m)) by (unfold f'; rewrite rn_other; auto).
      assert (forall x, In x (reads m) -> f x = f' x) by (intros x Hx; apply (Ext f m x); auto; apply InE; auto).
      split; apply ok_ext; auto. intros; symmetry; auto. }
    split.
    - intros Hf. destruct (proj1 T) as [T1 T2]; [apply Hf, InE'; auto|]. split; auto. intros m Hm. apply InE in Hm as [-> | Hm]; auto.
      apply M; auto. apply Hf, InE'. auto.
    - intros [Hf Hm0] m Hm. apply InE' in Hm as [-> | Hm]; [apply T; split; auto; apply Hf; auto|]. apply M; auto. apply Hf, InE. auto. }
  assert (Mp : forall f : Z -> Z, map (fun q => f (handle q)) (map (skipPlan r r1 s) qs) = map (fun q => f (rn r r1 (handle q))) qs).
  { intros f. rewrite map_map. apply map_ext. intros q. now rewrite handle_skip. }
  assert (Ll : length (map (skipPlan r r1 s) qs) = length ds) by (rewrite map_length; apply H).
  assert (Vs : forall d q, handle q <> r -> vis d (skipPlan r r1 s q) = vis d q).
  { intros d [[h c] o] Hq. unfold skipPlan, handle in *. cbn in Hq. destruct (Z.eqb_spec h r); [congruence|auto]. }
  assert (Eq0 : skipPlan r r1 s q0 = (r1, snd (fst q0), Some s)).
  { destruct q0 as [[h c] o]. unfold skipPlan, handle in *. cbn [fst snd] in *. subst h. now rewrite Z.eqb_refl. }
  assert (Gs : forall v, In v (G (map (skipPlan r r1 s) qs)) <->
     In v (G qs) /\ forall x, nth_error v i0 = Some x -> (x - tileStart (fst (snd d0)) (snd (fst q0)) x) mod s = 0).
  { intros v. rewrite !G_spec by (auto; apply H). rewrite map_length. split.
    - intros [L Hv]. split; [split; auto|].
      + intros i d q x E1 E2 E3. specialize (Hv i d (skipPlan r r1 s q) x E1). rewrite nth_error_map, E2 in Hv. specialize (Hv eq_refl E3).
        destruct (Z.eq_dec (handle q) r) as [Hr | Hr]; [|rewrite Vs in Hv; auto].
        destruct (Uniq i q E2 Hr) as [-> ->]. rewrite Eq0 in Hv. unfold vis in *. cbn [fst snd visited] in Hv. rewrite Hn0. cbn [visited].
        apply filter_In in Hv. tauto.
      + intros x Ex. specialize (Hv i0 d0 (skipPlan r r1 s q0) x Ed0). rewrite nth_error_map, Ei0 in Hv. specialize (Hv eq_refl Ex).
        rewrite Eq0 in Hv. unfold vis in Hv. cbn [fst snd visited] in Hv. apply filter_In in Hv as [_ Hv]. now apply Z.eqb_eq in Hv.
    - intros [[L Hv] Hx]. split; auto. intros i d q' x E1 E2 E3. rewrite nth_error_map in E2. destruct (nth_error qs i) as [q|] eqn:E4; [|discriminate].
      inversion E2; subst q'. specialize (Hv i d q x E1 E4 E3). destruct (Z.eq_dec (handle q) r) as [Hr | Hr]; [|rewrite Vs; auto].
      destruct (Uniq i q E4 Hr) as [-> ->]. assert (d = d0) as -> by congruence. rewrite Eq0. unfold vis in *. cbn [fst snd visited].
      rewrite Hn0 in Hv. cbn [visited] in Hv. apply filter_In. split; auto. apply Z.eqb_eq. auto. }
  constructor; auto.
  - unfold E'. rewrite map_app. cbn [map]. change (ref l1) with r1. unfold E in Nd. rewrite map_app in Nd. cbn [map] in Nd.
    eapply Permutation_NoDup; [apply Permutation_middle|]. constructor; [|eapply NoDup_remove_1; eauto].
    rewrite <- map_app. intros X. apply F1, InR. auto.
  - intros m Hm. apply InE' in Hm as [-> | Hm]; [cbn [l1 tile fst step]; rewrite St; lia|]. apply (c_step _ _ H), InE. auto.
  - intros m x Hm Hx. assert (Hm' : exists m', In m' E /\ reads m = reads m').
    { apply InE' in Hm as [-> | Hm]; [exists l | exists m; rewrite InE]; auto. }
    destruct Hm' as (m' & Hm' & Em). rewrite Em in Hx. destruct (Ml _ _ Hm' Hx) as (_ & Xr & Hx'). apply InR'. apply InR in Hx'. tauto.
  - intros m Hm. apply InE' in Hm as [-> | Hm]; [|apply (c_irr _ _ H), InE; auto].
    change (reads l1) with (reads l). change (ref l1) with r1. intros X. apply Ml in X; tauto.
  - intros q' Hq. apply in_map_iff in Hq as (q & <- & Hq). rewrite handle_skip. apply InR'.
    apply (c_h _ _ H) in Hq. apply InR in Hq as [-> | Hq]; [rewrite rn_same; auto|]. rewrite rn_other; auto.
    intros X. rewrite X in Hq. apply in_map_iff in Hq as (m & Em & Hm). now apply Ne in Hm.
  - rewrite map_map. rewrite (map_ext _ (fun q => rn r r1 (handle q))) by (intros; apply handle_skip).
    rewrite <- map_map. apply NoDup_map_inj; [|apply H]. intros x y Hx Hy. unfold rn.
    assert (N : forall z, In z (map handle qs) -> z <> r1).
    { intros z Hz ->. apply in_map_iff in Hz as (q & Eq & Hq). apply F1. rewrite <- Eq. now apply (c_h _ _ H). }
    destruct (Z.eqb_spec x r), (Z.eqb_spec y r); try congruence; intros Ez; [exfalso; apply (N y); auto | exfalso; apply (N x); auto].
  - intros q' m Hq Hm. apply in_map_iff in Hq as (q & <- & Hq). rewrite handle_skip.
    assert (Hm' : exists m', In m' E /\ reads m = reads m').
    { apply InE' in Hm as [-> | Hm]; [exists l | exists m; rewrite InE]; auto. }
    destruct Hm' as (m' & Hm' & ->). unfold rn. destruct (Z.eqb_spec (handle q) r); [intros X; apply Ml in X; tauto|].
    eapply (c_unread _ _ H); eauto.
  - intros f Hf. rewrite Gs, Mp. apply S in Hf as [Hf Hm]. split; [apply (c_a _ _ H) in Hf; exact Hf|].
    intros x Hx. rewrite nth_error_map, Ei0 in Hx. cbn in Hx. rewrite Hh0, rn_same in Hx. inversion Hx; subst.
    rewrite <- Hm. specialize (Hst _ Hf). cbn beta in Hst. rewrite Hh0, rn_same in Hst. now rewrite Hst.
  - intros v Hv. apply Gs in Hv as [Hv Hx]. apply (c_b _ _ H) in Hv as (f0 & Hf0 & Ev).
    set (f := fun q => if q =? r1 then f0 r else f0 q).
    assert (Er : forall x, In x (map ref E) -> f (rn r r1 x) = f0 x).
    { intros x X. unfold rn. destruct (Z.eqb_spec x r) as [-> | Xr]; unfold f; [now rewrite Z.eqb_refl|].
      destruct (Z.eqb_spec x r1); [subst; tauto | auto]. }
    assert (Sf : sol E (fun q => f (rn r r1 q))).
    { intros m Hm. apply ok_ext with f0; [| |apply Hf0; auto]; cbn beta.
      - symmetry. apply Er. now apply in_map.
      - intros x Hx'. symmetry. apply Er. eapply (c_closed _ _ H); eauto. }
    assert (Fr : f r1 = f0 r) by (unfold f; now rewrite Z.eqb_refl).
    exists f. rewrite S, Mp. split; [split; auto|].
    + rewrite (Hst _ Sf). cbn beta. rewrite Hh0, rn_same. apply Hx. rewrite <- Ev, nth_error_map, Ei0. cbn. rewrite Hh0. congruence.
    + rewrite <- Ev. apply map_ext_in. intros q Hq. apply Er. now apply (c_h _ _ H).
  - intros f g Hf Hg Efg x Hx. rewrite !Mp in Efg. apply S in Hf as [Hf Tf]. apply S in Hg as [Hg Tg].
    pose proof (c_c _ _ H _ _ Hf Hg Efg) as C. cbn beta in C.
    apply InR' in Hx as [-> | Hx]; auto.
    + specialize (C r). rewrite !rn_same in C. apply C, InR. auto.
    + assert (x <> r) by (intros ->; apply in_map_iff in Hx as (m & Em & Hm); now apply Ne in Hm).
      specialize (C x). rewrite !rn_other in C by auto. apply C, InR. auto.
  - intros i d q' m Ed Eq Hn Hm Er. rewrite nth_error_map in Eq. destruct (nth_error qs i) as [q|] eqn:Ei; [|discriminate].
    inversion Eq; subst q'. clear Eq. rewrite handle_skip in Er |- *.
    assert (Hr : handle q <> r). { intros X. destruct (Uniq i q Ei X) as [_ ->]. rewrite Eq0 in Hn. discriminate. }
    assert (Esk : skipPlan r r1 s q = q). { destruct q as [[h c] o]. unfold skipPlan, handle in *. cbn in Hr. destruct (Z.eqb_spec h r); [congruence|auto]. }
    rewrite rn_other, Esk in * by auto.
    assert (Hm' : In m E).
    { apply InE' in Hm as [-> | Hm]; [|apply InE; auto]. exfalso. apply F1. change r1 with (ref l1). rewrite Er.
      apply (c_h _ _ H). eapply nth_error_In; eauto. }
    destruct (c_s _ _ H i d q m Ed Ei Hn Hm' Er) as [St' Hs']. split; auto.
    intros f Hf. apply S in Hf as [Hf _]. specialize (Hs' _ Hf). cbn beta in Hs'. rewrite (rn_other r r1 (handle q)) in Hs' by auto.
    rewrite <- Hs'. apply ev_ext. intros x Hx. apply (Ext f m); auto. rewrite reads_eq, !in_app_iff. auto.
Qed.
End Core.
