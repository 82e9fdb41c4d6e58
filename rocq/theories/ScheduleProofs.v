(** Proofs about the lowering of loop schedules. *)
From Coq Require Import List ZArith Bool Lia Permutation.
From Verif Require Import Util ScheduleSpec ScheduleModel.
Import ListNotations.
Open Scope Z_scope.

Lemma memb_In r l : memb r l = true <-> In r l.
Proof.
  unfold memb. rewrite existsb_exists. split.
  - intros (x & H & E). apply Z.eqb_eq in E. now subst.
  - intros H. exists r. split; auto. apply Z.eqb_refl.
Qed.
Lemma memb_not r l : memb r l = false <-> ~ In r l.
Proof. rewrite <- memb_In. destruct (memb r l); split; intuition congruence. Qed.
Lemma nodupb_NoDup l : nodupb l = true -> NoDup l.
Proof.
  induction l as [|a l IH]; cbn [nodupb]; intros H; constructor.
  - apply andb_prop in H as [H _]. apply negb_true_iff in H. now apply memb_not.
  - apply andb_prop in H as [_ H]. auto.
Qed.
Lemma listEqb_eq a b : listEqb a b = true -> a = b.
Proof. unfold listEqb. destruct (list_eq_dec Z.eq_dec a b); auto; discriminate. Qed.

Lemma In_zrange n x : In x (zrange n) <-> 0 <= x < n.
Proof.
  unfold zrange. enough (forall a m, In x (zseq a m) <-> a <= x < a + Z.of_nat m) as H by (rewrite H; lia).
  intros a m. revert a. induction m as [|m IH]; intros a; cbn [zseq]; [split; [intros [] | lia]|].
  cbn [In]. rewrite IH. lia.
Qed.
Lemma NoDup_zrange n : NoDup (zrange n).
Proof.
  unfold zrange. enough (forall a m, NoDup (zseq a m)) by auto. intros a m. revert a.
  induction m as [|m IH]; intros a; cbn [zseq]; constructor; auto.
  enough (forall b k, In a (zseq b k) -> b <= a) as H by (intros G; apply H in G; lia).
  intros b k. revert b. induction k as [|k IHk]; intros b; cbn [zseq In]; [intros [] | intros [-> | G]]; [lia|]. apply IHk in G; lia.
Qed.

Lemma In_iters lo hi st x : 0 < st -> In x (iters lo hi st) <-> lo <= x < hi /\ (x - lo) mod st = 0.
Proof.
  intros Hs. unfold iters. rewrite in_map_iff. split.
  - intros (k & <- & H). apply In_zrange in H. replace (lo + k * st - lo) with (k * st) by lia.
    rewrite Z.mod_mul by lia. split; auto.
    assert (st * ((hi - lo + st - 1) / st) <= hi - lo + st - 1) by (apply Z.mul_div_le; lia). nia.
  - intros [H E]. apply Z.mod_divide in E as [k E]; [|lia]. exists k. split; [lia|]. apply In_zrange.
    split; [nia|]. assert (k + 1 <= (hi - lo + st - 1) / st); [|lia]. apply Z.div_le_lower_bound; nia.
Qed.
Lemma NoDup_map_inj {A B} (f : A -> B) l : (forall x y, In x l -> In y l -> f x = f y -> x = y) -> NoDup l -> NoDup (map f l).
Proof.
  intros Hf H. induction H as [|a l Hn H IH]; cbn [map]; constructor.
  - rewrite in_map_iff. intros (x & E & Hx). apply Hf in E; cbn; auto. now subst.
  - apply IH. intros x y Hx Hy. apply Hf; cbn; auto.
Qed.
Lemma NoDup_iters lo hi st : 0 < st -> NoDup (iters lo hi st).
Proof. intros Hs. apply NoDup_map_inj; [|apply NoDup_zrange]. intros x y _ _ E. nia. Qed.
Lemma In_points lo hi x : In x (points lo hi) <-> lo <= x < hi.
Proof.
  unfold points. rewrite in_map_iff. split.
  - intros (k & <- & H). apply In_zrange in H. lia.
  - intros H. exists (x - lo). rewrite In_zrange. lia.
Qed.
Lemma NoDup_points lo hi : NoDup (points lo hi).
Proof. apply NoDup_map_inj; [|apply NoDup_zrange]. intros; lia. Qed.

(** * Solutions of the bounds of a nest *)
Definition ok (f : Z -> Z) (l : loop) : Prop := In (f (ref l)) (iters (ev f (lb l)) (evMin f l) (step l)).
Definition sol (ls : list loop) (f : Z -> Z) : Prop := forall l, In l ls -> ok f l.

Definition bref (b : bound) : list Z := match b with Cst _ => [] | Iv r _ => [r] end.
Lemma reads_eq l : reads l = bref (lb l) ++ bref (ub l) ++ flat_map bref (ubs l).
Proof. reflexivity. Qed.
Lemma ev_ext f g b : (forall r, In r (bref b) -> f r = g r) -> ev f b = ev g b.
Proof. destruct b; cbn; intros H; auto. rewrite H; auto. Qed.
Lemma map_ev_ext f g bs : (forall r, In r (flat_map bref bs) -> f r = g r) -> map (ev f) bs = map (ev g) bs.
Proof.
  intros H. apply map_ext_in. intros b Hb. apply ev_ext. intros r Hr. apply H. apply in_flat_map. eauto.
Qed.
Lemma evMin_ext f g l : (forall r, In r (reads l) -> f r = g r) -> evMin f l = evMin g l.
Proof.
  intros H. unfold evMin. rewrite reads_eq in H. rewrite (map_ev_ext f g), (ev_ext f g (ub l)); auto;
    intros r Hr; apply H; rewrite !in_app_iff; auto.
Qed.
Lemma ok_ext f g l : f (ref l) = g (ref l) -> (forall r, In r (reads l) -> f r = g r) -> ok f l -> ok g l.
Proof.
  intros E H. unfold ok. rewrite <- E, <- (evMin_ext f g) by auto. rewrite (ev_ext f g (lb l)); auto.
  intros r Hr. apply H. rewrite reads_eq, !in_app_iff. auto.
Qed.

Lemma evB_ren r r2 f b : ev f (renB r r2 b) = ev (fun q => f (rn r r2 q)) b.
Proof. destruct b; reflexivity. Qed.
Lemma evMin_ren r r2 f l : evMin f (renL r r2 l) = evMin (fun q => f (rn r r2 q)) l.
Proof. unfold evMin. cbn [renL ubs ub]. rewrite map_map, evB_ren. f_equal. apply map_ext. intros. apply evB_ren. Qed.
Lemma ok_ren r r2 f l : ref l <> r -> (ok f (renL r r2 l) <-> ok (fun q => f (rn r r2 q)) l).
Proof.
  intros H. unfold ok. rewrite evMin_ren. cbn [renL ref lb step]. rewrite evB_ren.
  assert (E : rn r r2 (ref l) = ref l) by (unfold rn; destruct (Z.eqb_spec (ref l) r); congruence).
  rewrite E. reflexivity.
Qed.
Lemma reads_ren r r2 l : reads (renL r r2 l) = map (rn r r2) (reads l).
Proof.
  assert (H : forall b, bref (renB r r2 b) = map (rn r r2) (bref b)) by (intros []; reflexivity).
  rewrite !reads_eq. cbn [renL lb ub ubs]. rewrite !map_app, !H. do 2 f_equal.
  induction (ubs l) as [|b bs IH]; cbn [map flat_map]; auto. now rewrite map_app, H, IH.
Qed.

Lemma fold_min bs a : forall m, fold_left Z.min bs (Z.min m a) = Z.min m (fold_left Z.min bs a).
Proof. revert a. induction bs as [|b bs IH]; intros a m; cbn [fold_left]; auto. rewrite <- Z.min_assoc. apply IH. Qed.
Lemma evMin_tile l s r1 r2 f : evMin f (snd (tile l s r1 r2)) = Z.min (f r1 + s * step l) (evMin f l).
Proof. unfold evMin, tile. cbn [snd ubs ub map ev fold_left]. apply fold_min. Qed.

Lemma tile_arith lo hi st s x : 0 < st -> 0 < s ->
  let t := lo + (x - lo) / (s * st) * (s * st) in
  In x (iters lo hi st) -> In t (iters lo hi (s * st)) /\ In x (iters t (Z.min (t + s * st) hi) st).
Proof.
  intros Hst Hs t H. assert (0 < s * st) by nia. apply In_iters in H as [H E]; auto.
  pose proof (Z.div_mod (x - lo) (s * st) ltac:(lia)) as D. pose proof (Z.mod_pos_bound (x - lo) (s * st) ltac:(lia)) as B.
  assert (0 <= (x - lo) / (s * st)) by (apply Z.div_pos; lia).
  assert (T : t = x - (x - lo) mod (s * st)) by (unfold t; lia).
  split; apply In_iters; auto.
  - split; [unfold t; nia|]. unfold t. replace (_ - lo) with ((x - lo) / (s * st) * (s * st)) by lia. apply Z.mod_mul; lia.
  - split; [lia|]. unfold t. replace (x - _) with (x - lo + (- ((x - lo) / (s * st)) * s) * st) by ring. now rewrite Z.mod_add by lia.
Qed.
Lemma tile_arith_back lo hi st s t x : 0 < st -> 0 < s ->
  In t (iters lo hi (s * st)) -> In x (iters t (Z.min (t + s * st) hi) st) ->
  In x (iters lo hi st) /\ t = lo + (x - lo) / (s * st) * (s * st).
Proof.
  intros Hst Hs Ht Hx. assert (0 < s * st) by nia. apply In_iters in Ht as [Ht Et]; auto. apply In_iters in Hx as [Hx Ex]; auto.
  apply Z.mod_divide in Et as [k Ek]; [|lia]. split.
  - apply In_iters; auto. split; [lia|]. replace (x - lo) with (x - t + (k * s) * st) by nia. now rewrite Z.mod_add by lia.
  - assert ((x - lo) / (s * st) = k); [|nia]. symmetry. apply Z.div_unique with (x - t); nia.
Qed.

(** A tiled nest has the solutions of the nest, the index of the tile loop being determined. *)
Lemma sol_tile l s r1 r2 f : 0 < step l -> 0 < s -> ~ In (ref l) (reads l) ->
  let f' q := f (rn (ref l) r2 q) in
  (ok f (fst (tile l s r1 r2)) /\ ok f (snd (tile l s r1 r2))) <->
  (ok f' l /\ f r1 = ev f' (lb l) + (f r2 - ev f' (lb l)) / (s * step l) * (s * step l)).
Proof.
  intros Hst Hs Hn f'.
  assert (E : forall r, In r (reads l) -> f r = f' r).
  { intros r Hr. unfold f', rn. destruct (Z.eqb_spec r (ref l)); [congruence|auto]. }
  assert (El : ev f (lb l) = ev f' (lb l)).
  { apply ev_ext. intros r Hr. apply E. rewrite reads_eq, !in_app_iff. auto. }
  assert (Em : evMin f l = evMin f' l) by (apply evMin_ext; auto).
  assert (Er : f' (ref l) = f r2) by (unfold f', rn; now rewrite Z.eqb_refl).
  unfold ok at 1 2 3. rewrite evMin_tile. unfold tile at 1 2 3 4 5 6. cbn [fst snd ref lb step ev]. rewrite Z.add_0_r.
  replace (evMin f {| ref := r1; lb := lb l; ub := ub l; ubs := ubs l; step := s * step l |}) with (evMin f l) by reflexivity.
  rewrite El, Em, Er. split.
  - intros [H1 H2]. destruct (tile_arith_back _ _ _ _ _ _ Hst Hs H1 H2) as [H3 H4]. split; auto.
  - intros [H1 ->]. apply tile_arith; auto.
Qed.

(** * Traces and solutions *)
Lemma look_cons r v e q : look ((r, v) :: e) q = if r =? q then v else look e q.
Proof. unfold look. cbn [find fst snd]. destruct (r =? q); reflexivity. Qed.
Lemma in_trace ls : forall e x, In x (trace ls e) -> exists vs, length vs = length ls /\ x = rev (combine (map ref ls) vs) ++ e.
Proof.
  induction ls as [|l ls IH]; intros e x; cbn [trace].
  - intros [<- | []]. exists []. auto.
  - rewrite in_flat_map. intros (v & Hv & Hx). apply IH in Hx as (vs & L & ->). exists (v :: vs). cbn [length map combine rev].
    rewrite <- app_assoc. cbn. auto.
Qed.
Lemma look_trace_old ls : forall e x r, In x (trace ls e) -> ~ In r (map ref ls) -> look x r = look e r.
Proof.
  induction ls as [|l ls IH]; intros e x r; cbn [trace map]; [intros [<- | []]; auto|].
  rewrite in_flat_map. intros (v & Hv & Hx) Hn. rewrite (IH _ _ r Hx) by (cbn in Hn; tauto).
  rewrite look_cons. destruct (Z.eqb_spec (ref l) r); cbn in Hn; tauto.
Qed.
Lemma scoped_spec ls : forall sc, scoped sc ls = true -> forall l ls1 ls2, ls = ls1 ++ l :: ls2 -> forall r, In r (reads l) -> In r sc \/ In r (map ref ls1).
Proof.
  induction ls as [|a ls IH]; intros sc H l ls1 ls2 E r Hr; [destruct ls1; discriminate|].
  cbn [scoped] in H. apply andb_prop in H as [H1 H2]. destruct ls1 as [|b ls1]; inversion E; subst.
  - left. rewrite forallb_forall in H1. apply memb_In. auto.
  - destruct (IH _ H2 _ _ _ eq_refl _ Hr) as [[<- | ?] | ?]; cbn; auto.
Qed.
Lemma trace_sol ls : forall sc e x, scoped sc ls = true -> NoDup (map ref ls) -> (forall r, In r sc -> ~ In r (map ref ls)) ->
  In x (trace ls e) -> sol ls (look x).
Proof.
  induction ls as [|l ls IH]; intros sc e x Hs Hd Hf; cbn [trace]; [intros _ l []|].
  rewrite in_flat_map. intros (v & Hv & Hx). cbn [scoped] in Hs. apply andb_prop in Hs as [H1 H2].
  cbn [map] in Hd. inversion Hd as [|? ? Hn Hd']; subst.
  intros m [<- | Hm].
  - assert (E : forall r, In r (reads l) -> look e r = look x r).
    { intros r Hr. rewrite forallb_forall in H1. apply H1, memb_In in Hr. apply Hf in Hr. cbn in Hr.
      rewrite (look_trace_old _ _ _ r Hx) by tauto. rewrite look_cons. destruct (Z.eqb_spec (ref l) r); tauto. }
    assert (Ev : look x (ref l) = v) by (rewrite (look_trace_old _ _ _ _ Hx), look_cons, Z.eqb_refl; auto).
    unfold ok. rewrite Ev, <- (evMin_ext (look e)) by auto. rewrite <- (ev_ext (look e)); auto.
    intros r Hr. apply E. rewrite reads_eq, !in_app_iff. auto.
  - apply IH with (sc := ref l :: sc) (e := (ref l, v) :: e); auto.
    intros r [<- | Hr]; auto. apply Hf in Hr. cbn in Hr. tauto.
Qed.
Lemma sol_trace ls : forall sc e f, scoped sc ls = true -> NoDup (map ref ls) -> (forall r, In r sc -> ~ In r (map ref ls)) ->
  sol ls f -> (forall r, In r sc -> look e r = f r) ->
  exists x, In x (trace ls e) /\ (forall r, In r (map ref ls) \/ In r sc -> look x r = f r).
Proof.
  induction ls as [|l ls IH]; intros sc e f Hs Hd Hf Hsol He; cbn [trace].
  - exists e. cbn. split; auto. intros r [[] | H]; auto.
  - cbn [scoped] in Hs. apply andb_prop in Hs as [H1 H2]. cbn [map] in Hd. inversion Hd as [|? ? Hn Hd']; subst.
    assert (E : forall r, In r (reads l) -> look e r = f r).
    { intros r Hr. rewrite forallb_forall in H1. apply H1, memb_In in Hr. auto. }
    destruct (IH (ref l :: sc) ((ref l, f (ref l)) :: e) f) as (x & Hx & Hr); auto.
    + intros r [<- | Hr]; auto. apply Hf in Hr. cbn in Hr. tauto.
    + intros m Hm. apply Hsol. cbn. auto.
    + intros r [<- | Hr]; rewrite look_cons; [now rewrite Z.eqb_refl|]. destruct (Z.eqb_spec (ref l) r); [now subst|auto].
    + exists x. split.
      * apply in_flat_map. exists (f (ref l)). split; auto. specialize (Hsol l (or_introl eq_refl)). unfold ok in Hsol.
        rewrite (evMin_ext (look e) f) by auto. rewrite (ev_ext (look e) f); auto.
        intros r Hr'. apply E. rewrite reads_eq, !in_app_iff. auto.
      * intros r H. apply Hr. cbn [map In] in H |- *. tauto.
Qed.
Lemma NoDup_app_intro {A} (l m : list A) : NoDup l -> NoDup m -> (forall x, In x l -> ~ In x m) -> NoDup (l ++ m).
Proof.
  induction l as [|a l IH]; cbn [app]; intros Hl Hm H; auto. inversion Hl; subst. constructor.
  - rewrite in_app_iff. intros [?|?]; auto. apply (H a); cbn; auto.
  - apply IH; auto. intros x Hx. apply H. cbn. auto.
Qed.
Lemma NoDup_flat_map {A B} (f : A -> list B) l : NoDup l -> (forall x, In x l -> NoDup (f x)) ->
  (forall x y z, In x l -> In y l -> In z (f x) -> In z (f y) -> x = y) -> NoDup (flat_map f l).
Proof.
  intros Hl Hf Hd. induction Hl as [|a l Hn Hl IH]; cbn [flat_map]; [constructor|].
  apply NoDup_app_intro.
  - apply Hf. cbn. auto.
  - apply IH; intros; [apply Hf|eapply Hd]; cbn; eauto.
  - intros z Hz. rewrite in_flat_map. intros (y & Hy & Hz'). apply Hn. rewrite (Hd a y z); cbn; auto.
Qed.
Lemma trace_NoDup ls : forall e, NoDup (map ref ls) -> (forall l, In l ls -> 0 < step l) -> NoDup (trace ls e).
Proof.
  induction ls as [|l ls IH]; intros e Hd Hs; cbn [trace]; [constructor; [intros [] | constructor]|].
  cbn [map] in Hd. inversion Hd as [|? ? Hn Hd']; subst. apply NoDup_flat_map.
  - apply NoDup_iters. apply Hs. cbn. auto.
  - intros v _. apply IH; auto. intros m Hm. apply Hs. cbn. auto.
  - intros v w x _ _ Hx Hy. apply (look_trace_old _ _ _ (ref l)) in Hx; auto. apply (look_trace_old _ _ _ (ref l)) in Hy; auto.
    rewrite look_cons, Z.eqb_refl in Hx, Hy. congruence.
Qed.
Lemma trace_ext ls x y : In x (trace ls []) -> In y (trace ls []) -> NoDup (map ref ls) -> (forall r, In r (map ref ls) -> look x r = look y r) -> x = y.
Proof.
  intros Hx Hy Hd H.
  enough (G : forall ls e x y, NoDup (map ref ls) -> In x (trace ls e) -> In y (trace ls e) -> (forall r, In r (map ref ls) -> look x r = look y r) -> x = y) by eauto.
  clear. induction ls as [|l ls IH]; intros e x y Hd; cbn [trace]; [intros [<- | []] [<- | []]; auto|].
  cbn [map] in Hd. inversion Hd as [|? ? Hn Hd']; subst.
  rewrite !in_flat_map. intros (v & Hv & Hx) (w & Hw & Hy) H.
  assert (v = w) as <-.
  { specialize (H (ref l) (or_introl eq_refl)). rewrite (look_trace_old _ _ _ _ Hx), (look_trace_old _ _ _ _ Hy), !look_cons, Z.eqb_refl in H; auto. }
  eapply IH; eauto. intros r Hr. apply H. cbn. auto.
Qed.

(** * Grids *)
Lemma In_grid ls : forall v, In v (grid ls) <-> Forall2 (fun x l => In x l) v ls.
Proof.
  induction ls as [|l ls IH]; intros v; cbn [grid].
  - split; [intros [<- | []]; constructor | intros H; inversion H; cbn; auto].
  - rewrite in_flat_map. split.
    + intros (x & Hx & H). apply in_map_iff in H as (w & <- & Hw). constructor; auto. now apply IH.
    + intros H. inversion H as [|x ? w ? Hx Hw]; subst. exists x. split; auto. apply in_map, IH, Hw.
Qed.
Lemma NoDup_grid ls : (forall l, In l ls -> NoDup l) -> NoDup (grid ls).
Proof.
  induction ls as [|l ls IH]; intros H; cbn [grid]; [constructor; [intros [] | constructor]|].
  apply NoDup_flat_map.
  - apply H. cbn. auto.
  - intros x _. apply NoDup_map_inj; [congruence|]. apply IH. intros m Hm. apply H. cbn. auto.
  - intros x y z _ _ Hx Hy. apply in_map_iff in Hx as (? & <- & _). apply in_map_iff in Hy as (? & E & _). congruence.
Qed.
Lemma NoDup_visited lo hi c o : NoDup (visited lo hi c o).
Proof. destruct o; cbn [visited]; [apply NoDup_filter|]; apply NoDup_points. Qed.

(** * Permutations *)
Lemma permuted_perm seg to : length to = length seg -> (forall j, In j to -> 0 <= j < Z.of_nat (length seg)) ->
  Permutation (permuted seg to) seg.
Proof.
  intros L H. unfold permuted.
  assert (G : forall (js : list Z) (L : list (Z * loop)), NoDup js -> (forall q, In q L -> In (fst q) js) ->
    Permutation (flat_map (fun j => filter (fun q => fst q =? j) L) js) L).
  { intros js Q. revert js. induction Q as [|q Q IH]; intros js Hn Hin.
    - clear. induction js; cbn; auto.
    - destruct (in_split (fst q) js) as (j1 & j2 & ->); [apply Hin; cbn; auto|].
      assert (E : forall js', ~ In (fst q) js' -> flat_map (fun j => filter (fun q => fst q =? j) (q :: Q)) js' = flat_map (fun j => filter (fun q => fst q =? j) Q) js').
      { intros js' Hq. rewrite !flat_map_concat_map. f_equal. apply map_ext_in. intros j Hj. cbn [filter].
        destruct (Z.eqb_spec (fst q) j); [now subst|auto]. }
      pose proof (NoDup_remove_2 _ _ _ Hn) as Hn2. rewrite in_app_iff in Hn2.
      rewrite flat_map_app. cbn [flat_map]. rewrite (E j1), (E j2) by tauto. cbn [filter]. rewrite Z.eqb_refl.
      cbn [app]. rewrite <- Permutation_middle. constructor.
      assert (P : forall x, In x Q -> In (fst x) (j1 ++ fst q :: j2)) by (intros x Hx; apply Hin; cbn; auto).
      specialize (IH _ Hn P). rewrite flat_map_app in IH. cbn [flat_map] in IH. exact IH. }
  replace (flat_map (fun j => map snd (filter (fun q => fst q =? j) (combine to seg))) (zrange (Z.of_nat (length seg))))
    with (map snd (flat_map (fun j => filter (fun q => fst q =? j) (combine to seg)) (zrange (Z.of_nat (length seg))))).
  - rewrite (G _ _ (NoDup_zrange _)).
    + clear -L. revert seg L. induction to as [|a to IH]; intros [|b seg] L; cbn in *; try discriminate; auto.
    + intros [j l] Hq. apply In_zrange, H. now apply in_combine_l in Hq.
  - induction (zrange (Z.of_nat (length seg))) as [|j js IH]; cbn [flat_map]; auto. now rewrite map_app, IH.
Qed.
Lemma segment_spec rs : forall ls a b c, segment rs ls = Some (a, b, c) -> ls = a ++ b ++ c /\ map ref b = rs.
Proof.
  induction ls as [|l ls IH]; intros a b c; cbn [segment].
  - destruct (listEqb _ rs) eqn:E; [|discriminate]. intros H; inversion H; subst. rewrite firstn_nil, skipn_nil in *.
    split; auto. now apply listEqb_eq in E.
  - destruct (listEqb _ rs) eqn:E.
    + intros H; inversion H; subst. cbn [app]. rewrite firstn_skipn. split; auto. now apply listEqb_eq in E.
    + destruct (segment rs ls) as [[[a' b'] c']|] eqn:G; cbn [obind]; [|discriminate]. intros H; inversion H; subst.
      destruct (IH _ _ _ eq_refl) as [-> ?]. auto.
Qed.
