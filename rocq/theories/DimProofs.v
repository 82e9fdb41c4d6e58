(* Proofs about the analysis of unknown dimensions. *)
From Coq Require Import List Arith Bool ZArith Lia Permutation.
Import ListNotations.
From Verif Require Import Util DimSpec DimModel.
Open Scope Z_scope.

(* ---------- small facts ---------- *)
Lemma dimEq_true a b : dimEq a b = true <-> a = b.
Proof.
  destruct a, b; unfold dimEq; cbn [fst snd]. rewrite andb_true_iff, !Nat.eqb_eq.
  split; [intros [-> ->] | intros H; inversion H]; auto.
Qed.

Lemma contains_In s d : contains s d = true <-> In d s.
Proof.
  unfold contains. rewrite existsb_exists. split.
  - intros (x & Hx & E). apply dimEq_true in E. now subst.
  - intros H. exists d. split; auto. now apply dimEq_true.
Qed.

Lemma insert_In s d e : In e (insert s d) <-> In e s \/ e = d.
Proof.
  unfold insert. destruct (contains s d) eqn:E.
  - apply contains_In in E. split; intros; [tauto|]. destruct H; subst; auto.
  - rewrite in_app_iff. cbn. split; intros [H|H]; auto. destruct H; auto; tauto.
Qed.

Lemma fold_insert_In l : forall s e, In e (fold_left insert l s) <-> In e s \/ In e l.
Proof.
  induction l as [|a l IH]; intros s e; cbn [fold_left In]; [tauto|].
  rewrite IH, insert_In. intuition.
Qed.

Lemma bind_Ok {A B} (x : outcome A) (f : A -> outcome B) b :
  bind x f = Ok b -> exists a, x = Ok a /\ f a = Ok b.
Proof. destruct x; cbn; try discriminate. eauto. Qed.

Lemma collect_In {A B} (f : A -> outcome (list B)) l : forall res, collect f l = Ok res ->
  forall y, In y res -> exists a ys, In a l /\ f a = Ok ys /\ In y ys.
Proof.
  induction l as [|a l IH]; intros res H y Hy; cbn in H.
  - injection H as <-. destruct Hy.
  - apply bind_Ok in H as (x & Hx & H). apply bind_Ok in H as (z & Hz & H).
    injection H as <-. apply in_app_iff in Hy as [Hy|Hy].
    + exists a, x. cbn. auto.
    + destruct (IH _ Hz y Hy) as (b & ys & Hb & Hf & Hin). exists b, ys. cbn. auto.
Qed.

Lemma given_In {A} (l : list (option A)) a : In a (given l) <-> In (Some a) l.
Proof.
  unfold given. rewrite in_flat_map. split.
  - intros (o & Ho & H). destruct o; cbn in H; [|tauto]. destruct H as [->|[]]. auto.
  - intros H. exists (Some a). cbn. auto.
Qed.

Lemma dynDim_true p v a : dynDim p v a = true <-> isDyn p v a.
Proof.
  unfold dynDim, isDyn. destruct (nth_error _ _) as [[|]|]; split; intros H; congruence.
Qed.

Lemma inBound_spec x n a : inBound x n = Some a -> Z.of_nat a = normAxis x n /\ (a < n)%nat.
Proof.
  unfold inBound. destruct ((0 <=? normAxis x n) && (normAxis x n <? Z.of_nat n)) eqn:E; [|discriminate].
  intros H; injection H as <-. apply andb_true_iff in E as [E1 E2].
  apply Z.leb_le in E1. apply Z.ltb_lt in E2. rewrite Z2Nat.id by lia. lia.
Qed.

Lemma inBound_nat a n : (a < n)%nat -> inBound (Z.of_nat a) n = Some a.
Proof.
  intros H. unfold inBound, normAxis.
  destruct (Z.of_nat a <? 0) eqn:E; [apply Z.ltb_lt in E; lia|].
  destruct (0 <=? Z.of_nat a) eqn:E1; [|apply Z.leb_gt in E1; lia].
  destruct (Z.of_nat a <? Z.of_nat n) eqn:E2; [|apply Z.ltb_ge in E2; lia].
  cbn [andb]. now rewrite Nat2Z.id.
Qed.

Lemma inBound_nat_inv a n b : inBound (Z.of_nat a) n = Some b -> b = a /\ (a < n)%nat.
Proof.
  intros H. apply inBound_spec in H as [H1 H2]. unfold normAxis in H1.
  destruct (Z.of_nat a <? 0) eqn:E; [apply Z.ltb_lt in E; lia|]. lia.
Qed.

Lemma fromEnd_at s i : (i < length s)%nat -> fromEnd s (length s - 1 - i) = at_ s i.
Proof.
  intros H. unfold fromEnd, at_.
  rewrite rev_nth by lia. replace (length s - S (length s - 1 - i))%nat with i by lia.
  now apply nth_indep.
Qed.

Lemma dynAxes_In l a : In a (dynAxes l) <-> nth_error l a = Some None.
Proof.
  unfold dynAxes. rewrite filter_In, in_seq. split.
  - intros [_ H]. destruct (nth_error l a) as [[|]|]; congruence.
  - intros H. rewrite H. assert (a < length l)%nat by (apply nth_error_Some; congruence). split; auto. lia.
Qed.

Lemma dynAxes_NoDup l : NoDup (dynAxes l).
Proof. apply NoDup_filter, seq_NoDup. Qed.

Lemma dynAxes_cons t l :
  dynAxes (t :: l) = (match t with None => [O] | Some _ => [] end) ++ map S (dynAxes l).
Proof.
  unfold dynAxes. cbn [length seq filter nth_error].
  rewrite <- seq_shift.
  assert (E : filter (fun i => match nth_error (t :: l) i with Some None => true | _ => false end)
            (map S (seq 0 (length l))) =
          map S (filter (fun i => match nth_error l i with Some None => true | _ => false end) (seq 0 (length l)))).
  { induction (seq 0 (length l)) as [|x r IH]; cbn [map filter]; [reflexivity|].
    cbn [nth_error]. rewrite IH. destruct (nth_error l x) as [[|]|]; reflexivity. }
  rewrite E. destruct t; reflexivity.
Qed.

Lemma prodZ_cons x l : prodZ (x :: l) = x * prodZ l.
Proof. reflexivity. Qed.

Lemma prod_split (tl : list (option Z)) s :
  Forall2 (fun t d => t = None \/ t = Some d) tl s ->
  prodZ s = staticSize tl * prodZ (map (at_ s) (dynAxes tl)).
Proof.
  induction 1 as [|t d tl s Ht HF IH]; [reflexivity|].
  rewrite dynAxes_cons. unfold staticSize in *. cbn [map]. rewrite !prodZ_cons, map_app, map_map.
  cbn [at_ nth]. unfold at_ in *. cbn [nth].
  destruct Ht as [->| ->]; cbn [map app]; rewrite ?prodZ_cons; cbn [nth]; rewrite IH; ring.
Qed.

Lemma prodZ_perm l l' : Permutation l l' -> prodZ l = prodZ l'.
Proof.
  induction 1; rewrite ?prodZ_cons; auto; try lia.
Qed.

Lemma prodZ_pos l : (forall x, In x l -> 0 < x) -> 0 < prodZ l.
Proof.
  induction l; intros H; [reflexivity|]. rewrite prodZ_cons.
  apply Z.mul_pos_pos; [apply H; now left | apply IHl; intros; apply H; now right].
Qed.

(* ---------- definitions ---------- *)
Lemma defOp_In p v o : defOp p v = Some o -> In o (ops p) /\ In v (outs o).
Proof.
  unfold defOp. intros H. apply find_some in H as [H1 H2]. split; auto.
  apply existsb_exists in H2 as (x & Hx & E). apply Nat.eqb_eq in E. now subst.
Qed.

Lemma defOp_None p v : defOp p v = None -> forall o, In o (ops p) -> ~ In v (outs o).
Proof.
  unfold defOp. intros H o Ho Hv. apply (find_none _ _ H) in Ho.
  assert (existsb (Nat.eqb v) (outs o) = true) by (apply existsb_exists; exists v; split; auto; apply Nat.eqb_refl).
  congruence.
Qed.

Lemma defOp_unique p v o : WellTyped p -> In o (ops p) -> In v (outs o) -> defOp p v = Some o.
Proof.
  intros (Hu & _) Ho Hv. destruct (defOp p v) as [o'|] eqn:E.
  - apply defOp_In in E as [Ho' Hv'].
    apply In_nth_error in Ho as (i & Hi). apply In_nth_error in Ho' as (j & Hj).
    assert (i = j) by (eapply Hu; eauto). subst. congruence.
  - exfalso. eapply defOp_None; eauto.
Qed.

(* ---------- the meaning of a dimension of the analysis ---------- *)
Definition oneB (p : prog) (v : nat) : bool :=
  match tdims (types p v) with [Some 1] => true | _ => false end.

Lemma oneB_true p v : oneB p v = true <-> oneElem p v.
Proof.
  unfold oneB, oneElem. destruct (tdims (types p v)) as [|[z|] [|]]; split; intros H; try discriminate; try congruence.
  - destruct z as [|q|]; try discriminate. destruct q; try discriminate. reflexivity.
  - injection H as ->. reflexivity.
  - destruct z as [|q|]; try discriminate. destruct q; discriminate.
Qed.

Lemma one_match {A} (l : list (option Z)) (x : option A) y :
  (match l with [Some 1] => x | _ => None end) = Some y -> l = [Some 1] /\ x = Some y.
Proof.
  intros H. destruct l as [|[z|] l']; try discriminate.
  destruct z as [|q|]; try discriminate. destruct q; try discriminate.
  destruct l'; [auto|discriminate].
Qed.

Definition val (p : prog) (r : run) (d : dim) : Z :=
  if oneB p (fst d) then hd 0 (dat r (fst d)) else at_ (shp r (fst d)) (snd d).

Definition okDim (p : prog) (d : dim) : Prop :=
  match defKind p (fst d) with
  | None => True
  | Some (KConstant _ _) => False
  | Some (KDim a) => snd d = a
  | Some KCast => True
  | Some _ => isDyn p (fst d) (snd d)
  end.

Definition uniform (p : prog) (r : run) (ss : sets) : Prop :=
  forall s d1 d2, In s ss -> In d1 s -> In d2 s -> val p r d1 = val p r d2.

Definition allOk (p : prog) (ss : sets) : Prop := forall s d, In s ss -> In d s -> okDim p d.

Lemma dyn_not_one p v a : isDyn p v a -> oneB p v = false.
Proof.
  unfold isDyn, oneB. destruct (tdims (types p v)) as [|[z|] [|]]; auto.
  - destruct a as [|[|a]]; cbn; intros H; try discriminate.
  - destruct z as [|q|]; auto. destruct q; auto.
Qed.

Section Run.
Variable p : prog.
Variable r : run.
Hypothesis HT : WellTyped p.
Hypothesis HR : Runs p r.

Lemma rank_len v : rankOf p v = length (shp r v).
Proof. destruct HR as (H & _). specialize (H v). unfold rankOf. induction H; cbn; congruence. Qed.

Lemma types_at v a t : nth_error (tdims (types p v)) a = Some t -> t = None \/ t = Some (at_ (shp r v) a).
Proof.
  destruct HR as (H & _). specialize (H v). revert a. unfold at_.
  induction H as [|t0 d tl s Ht HF IH]; intros a Ha; [destruct a; discriminate|].
  destruct a; cbn in *; [injection Ha as <-; auto|auto].
Qed.

Lemma val_dyn v a : isDyn p v a -> val p r (v, a) = at_ (shp r v) a.
Proof. intros H. unfold val. cbn [fst snd]. now rewrite (dyn_not_one p v a H). Qed.

Lemma val_rank v a : rankOf p v <> 1%nat -> val p r (v, a) = at_ (shp r v) a.
Proof.
  intros H. unfold val. cbn [fst snd]. destruct (oneB p v) eqn:E; auto.
  apply oneB_true in E. unfold oneElem in E. exfalso. apply H. unfold rankOf. now rewrite E.
Qed.

Lemma val_not_one v a : ~ oneElem p v -> val p r (v, a) = at_ (shp r v) a.
Proof.
  intros H. unfold val. cbn [fst snd]. destruct (oneB p v) eqn:E; auto.
  apply oneB_true in E. tauto.
Qed.

Lemma val_one v a : oneElem p v -> val p r (v, a) = hd 0 (dat r v).
Proof. intros H. unfold val. cbn [fst]. apply oneB_true in H. now rewrite H. Qed.

Lemma opR o : In o (ops p) -> opRuns r o.
Proof. destruct HR as (_ & _ & H & _). auto. Qed.

(* An onnx.Dim, a Cast. *)
Lemma dim_shape o a : In o (ops p) -> okind o = KDim a ->
  exists x y, ins o = [Some x] /\ outs o = [y] /\ oneElem p y /\ isDyn p x a /\
    dat r y = [at_ (shp r x) a].
Proof.
  intros Ho Hk. pose proof (opR o Ho) as H. destruct HT as (_ & _ & HW). specialize (HW o Ho).
  unfold opRuns in H. rewrite Hk in H, HW.
  destruct (ins o) as [|[x|] [|]]; destruct (outs o) as [|y [|]]; try contradiction.
  exists x, y. tauto.
Qed.

Lemma cast_shape o : In o (ops p) -> okind o = KCast ->
  exists x y, ins o = [Some x] /\ outs o = [y] /\ tdims (types p y) = tdims (types p x) /\
    shp r y = shp r x /\ dat r y = dat r x.
Proof.
  intros Ho Hk. pose proof (opR o Ho) as H. destruct HT as (_ & _ & HW). specialize (HW o Ho).
  unfold opRuns in H. rewrite Hk in H, HW.
  destruct (ins o) as [|[x|] [|]]; destruct (outs o) as [|y [|]]; try contradiction.
  exists x, y. tauto.
Qed.

Lemma defKind_Some v k : defKind p v = Some k -> exists o, defOp p v = Some o /\ okind o = k /\ In o (ops p) /\ In v (outs o).
Proof.
  unfold defKind. destruct (defOp p v) as [o|] eqn:E; [|discriminate]. cbn. intros H. injection H as <-.
  destruct (defOp_In _ _ _ E). eauto.
Qed.

Lemma insertDim_sound v a d : In d (insertDim p v a) -> okDim p d /\ val p r d = val p r (v, a).
Proof.
  unfold insertDim. destruct (defKind p v) as [k|] eqn:E.
  2:{ intros [<-|[]]. unfold okDim. cbn [fst]. rewrite E. auto. }
  assert (G : In d (if dynDim p v a then [(v, a)] else []) -> (d = (v, a) /\ isDyn p v a)).
  { destruct (dynDim p v a) eqn:D; [|intros []]. intros [<-|[]]. split; auto. now apply dynDim_true. }
  unfold okDim.
  destruct k; intros H; try (apply G in H as [-> H]; cbn [fst snd]; rewrite E; auto; fail).
  - destruct H.
  - destruct H as [<-|[]]. cbn [fst snd]. rewrite E. split; auto.
    apply defKind_Some in E as (o & _ & Hk & Ho & Hv).
    destruct (dim_shape o _ Ho Hk) as (x & y & _ & Hy & H1 & _). rewrite Hy in Hv. destruct Hv as [<-|[]].
    now rewrite !val_one.
  - destruct H as [<-|[]]. cbn [fst]. rewrite E. auto.
Qed.

Lemma insertDim_notconst v a d : In d (insertDim p v a) -> ~ isConstant p v.
Proof.
  intros H (o & vals & s & Ho & Hv & Hk). unfold insertDim in H.
  unfold defKind in H. rewrite (defOp_unique p v o HT Ho Hv) in H. cbn in H. rewrite Hk in H. destruct H.
Qed.

(* What sameDim says. *)
Lemma sameDim_sound ss t1 x1 t2 x2 : uniform p r ss -> sameDim p ss t1 x1 t2 x2 = true ->
  exists a1 a2, inBound x1 (rankOf p t1) = Some a1 /\ inBound x2 (rankOf p t2) = Some a2 /\
    at_ (shp r t1) a1 = at_ (shp r t2) a2.
Proof.
  intros HU H. unfold sameDim in H.
  destruct (inBound x1 (rankOf p t1)) as [a1|]; [|discriminate].
  destruct (inBound x2 (rankOf p t2)) as [a2|]; [|discriminate].
  exists a1, a2. split; auto. split; auto.
  destruct (dimEq (t1, a1) (t2, a2)) eqn:E; [apply dimEq_true in E; congruence|].
  destruct (nth_error (tdims (types p t1)) a1) as [[d1|]|] eqn:E1;
  destruct (nth_error (tdims (types p t2)) a2) as [[d2|]|] eqn:E2; try discriminate.
  - apply Z.eqb_eq in H. apply types_at in E1 as [E1|E1]; [discriminate|].
    apply types_at in E2 as [E2|E2]; [discriminate|]. congruence.
  - unfold sameDynDim in H. rewrite E in H. cbn [orb] in H.
    apply existsb_exists in H as (s & Hs & H). apply andb_true_iff in H as [H1 H2].
    apply contains_In in H1, H2. pose proof (HU s _ _ Hs H1 H2) as HV.
    rewrite (val_dyn _ _ E1), (val_dyn _ _ E2) in HV. exact HV.
Qed.

(* Consumers. *)
Lemma fromConsumer_sound o d d' : In o (ops p) -> In d' (fromConsumer p d o) ->
  okDim p d' /\ val p r d' = val p r d.
Proof.
  intros Ho H. pose proof (opR o Ho) as HO. destruct HT as (_ & _ & HW). specialize (HW o Ho).
  unfold fromConsumer in H. unfold opRuns in HO.
  destruct (okind o) eqn:K; try (destruct H; fail).
  - (* Concat *)
    destruct (outs o) as [|y [|]] eqn:Eo; try contradiction.
    destruct (given (ins o)) as [|v0 vs] eqn:EG; [destruct H|].
    assert (HG : forall v, In v (v0 :: vs) -> In (Some v) (ins o)) by (intros v Hv; apply given_In; now rewrite EG).
    destruct HO as (Ha & Hall & _).
    assert (L0 : rankOf p v0 = length (shp r y)) by (rewrite rank_len; apply Hall, HG; now left).
    rewrite L0 in H.
    destruct (existsb (Nat.eqb (fst d)) (v0 :: vs) && (snd d <? length (shp r y))%nat) eqn:E; [|destruct H].
    apply andb_true_iff in E as [E1 E2]. apply Nat.ltb_lt in E2.
    apply existsb_exists in E1 as (u & Hu & E1). apply Nat.eqb_eq in E1. subst u.
    destruct (Z.of_nat (snd d) =? normAxis axis (length (shp r y))) eqn:E3; [destruct H|].
    apply Z.eqb_neq in E3. apply in_flat_map in H as (v & Hv & H).
    destruct (Nat.eqb v (fst d)) eqn:E4; [destruct H|].
    apply insertDim_sound in H as [H1 H2]. split; auto. rewrite H2.
    destruct (Hall _ (HG _ Hv)) as [Lv Dv]. destruct (Hall _ (HG _ Hu)) as [Lu Du].
    assert (length (shp r y) <> 1%nat) by lia.
    destruct d as [u a]. cbn [fst snd] in *.
    rewrite !val_rank by (rewrite rank_len; congruence). rewrite Dv, Du by auto. reflexivity.
  - (* Gemm *)
    destruct (ins o) as [|[a|] [|[b|] rest]] eqn:EI; try contradiction.
    destruct (outs o) as [|y [|]] eqn:Eo; try contradiction.
    destruct HO as (La & Lb & E). cbn [fst snd] in H.
    assert (VA : forall i, val p r (a, i) = at_ (shp r a) i) by (intros; apply val_rank; rewrite rank_len; lia).
    assert (VB : forall i, val p r (b, i) = at_ (shp r b) i) by (intros; apply val_rank; rewrite rank_len; lia).
    destruct (dimEq (a, (if transA then 0 else 1)%nat) d) eqn:E1.
    + apply dimEq_true in E1. subst d. apply insertDim_sound in H as [H1 H2]. split; auto.
      rewrite H2, VA, VB. auto.
    + destruct (dimEq (b, (if transB then 1 else 0)%nat) d) eqn:E2; [|destruct H].
      apply dimEq_true in E2. subst d. apply insertDim_sound in H as [H1 H2]. split; auto.
      rewrite H2, VA, VB. auto.
  - (* recurrent *)
    destruct (ins o) as [|[x|] [|sl [|h [|c rest]]]] eqn:EI; try contradiction; try (destruct H; fail).
    set (b := if layout =? 0 then 1%nat else 0%nat) in *.
    destruct HO as (Lx & Hs & Hh & Hc).
    match type of H with In d' (if contains ?l d then _ else _) => set (batch := l) in * end.
    assert (HB : forall e, In e batch -> val p r e = at_ (shp r x) b).
    { intros e He. unfold batch in He. cbn [In] in He. rewrite !in_app_iff in He.
      destruct He as [<-|[He|[He|He]]].
      - apply val_rank. rewrite rank_len; lia.
      - destruct sl as [v|]; [|destruct He]. destruct He as [<-|[]].
        destruct (Hs v eq_refl) as [L E]. rewrite val_not_one by (destruct (outs o); exact HW). auto.
      - destruct h as [v|]; [|destruct He]. destruct He as [<-|[]].
        destruct (Hh v eq_refl) as [L E]. rewrite val_rank by (rewrite rank_len; lia). auto.
      - destruct c as [v|]; [|destruct He]. destruct He as [<-|[]].
        destruct (Hc v eq_refl) as [L E]. rewrite val_rank by (rewrite rank_len; lia). auto. }
    destruct (contains batch d) eqn:EC; [|destruct H]. apply contains_In in EC.
    apply in_flat_map in H as (e & He & H). apply insertDim_sound in H as [H1 H2]. split; auto.
    rewrite H2, <- surjective_pairing, (HB e He), (HB d EC). reflexivity.
  - (* MatMul *)
    destruct (ins o) as [|[a|] [|[b|] [|]]] eqn:EI; try contradiction.
    destruct (outs o) as [|y [|]] eqn:Eo; try contradiction.
    rewrite !rank_len in H.
    destruct ((2 <=? length (shp r a))%nat && (2 <=? length (shp r b))%nat) eqn:E2; [|destruct H].
    apply andb_true_iff in E2 as [La Lb]. apply Nat.leb_le in La, Lb.
    assert (VA : forall i, val p r (a, i) = at_ (shp r a) i) by (intros; apply val_rank; rewrite rank_len; lia).
    assert (VB : forall i, val p r (b, i) = at_ (shp r b) i) by (intros; apply val_rank; rewrite rank_len; lia).
    assert (E : at_ (shp r a) (length (shp r a) - 1) = at_ (shp r b) (length (shp r b) - 2)).
    { destruct HO as (_ & _ & _ & E & _).
      rewrite <- (fromEnd_at (shp r a)), <- (fromEnd_at (shp r b)) by lia.
      replace (length (shp r a) - 1 - (length (shp r a) - 1))%nat with 0%nat by lia.
      replace (length (shp r b) - 1 - (length (shp r b) - 2))%nat with 1%nat by lia. exact E. }
    destruct (dimEq (a, (length (shp r a) - 1)%nat) d) eqn:E1.
    + apply dimEq_true in E1. subst d. apply insertDim_sound in H as [H1 H2]. split; auto.
      cbn [fst snd] in H2. rewrite H2, VA, VB. auto.
    + destruct (dimEq (b, (length (shp r b) - 2)%nat) d) eqn:E3; [|destruct H].
      apply dimEq_true in E3. subst d. apply insertDim_sound in H as [H1 H2]. split; auto.
      cbn [fst snd] in H2. rewrite H2, VA, VB. auto.
  - (* MatMulInteger *)
    destruct (ins o) as [|[a|] [|[b|] rest]] eqn:EI; try contradiction.
    destruct (outs o) as [|y [|]] eqn:Eo; try contradiction.
    rewrite !rank_len in H.
    destruct ((2 <=? length (shp r a))%nat && (2 <=? length (shp r b))%nat) eqn:E2; [|destruct H].
    apply andb_true_iff in E2 as [La Lb]. apply Nat.leb_le in La, Lb.
    assert (VA : forall i, val p r (a, i) = at_ (shp r a) i) by (intros; apply val_rank; rewrite rank_len; lia).
    assert (VB : forall i, val p r (b, i) = at_ (shp r b) i) by (intros; apply val_rank; rewrite rank_len; lia).
    assert (E : at_ (shp r a) (length (shp r a) - 1) = at_ (shp r b) (length (shp r b) - 2)).
    { specialize (HO La Lb).
      rewrite <- (fromEnd_at (shp r a)), <- (fromEnd_at (shp r b)) by lia.
      replace (length (shp r a) - 1 - (length (shp r a) - 1))%nat with 0%nat by lia.
      replace (length (shp r b) - 1 - (length (shp r b) - 2))%nat with 1%nat by lia. exact HO. }
    destruct (dimEq (a, (length (shp r a) - 1)%nat) d) eqn:E1.
    + apply dimEq_true in E1. subst d. apply insertDim_sound in H as [H1 H2]. split; auto.
      cbn [fst snd] in H2. rewrite H2, VA, VB. auto.
    + destruct (dimEq (b, (length (shp r b) - 2)%nat) d) eqn:E3; [|destruct H].
      apply dimEq_true in E3. subst d. apply insertDim_sound in H as [H1 H2]. split; auto.
      cbn [fst snd] in H2. rewrite H2, VA, VB. auto.
Qed.

Lemma fromConsumers_sound d us : forall d', In d' (fromConsumers p d us) ->
  okDim p d' /\ val p r d' = val p r d.
Proof.
  induction us as [|u us IH]; intros d' H; cbn in H; [destruct H|].
  destruct (targets p u); [|destruct H]. destruct (nth_error (ops p) u) as [o|] eqn:E; [|destruct H].
  apply in_app_iff in H as [H|H]; auto.
  apply nth_error_In in E. eapply fromConsumer_sound; eauto.
Qed.

(* Shape inference. *)
Hypothesis HH : HelperTrue p r.

Lemma indexOf_nth v l : forall j, indexOf v l = Some j -> nth_error l j = Some v.
Proof.
  induction l as [|x l IH]; intros j H; cbn in H; [discriminate|].
  destruct (Nat.eqb x v) eqn:E.
  - injection H as <-. apply Nat.eqb_eq in E. now subst.
  - destruct (indexOf v l) as [k|]; [|discriminate]. injection H as <-. cbn. auto.
Qed.

Lemma fromHelper_sound o d d' : In o (ops p) -> isDyn p (fst d) (snd d) -> In d' (fromHelper p o d) ->
  okDim p d' /\ val p r d' = val p r d.
Proof.
  intros Ho Hd H. unfold fromHelper in H.
  destruct (indexOf (fst d) (outs o)) as [j|] eqn:EJ; [|destruct H]. apply indexOf_nth in EJ.
  apply in_flat_map in H as (i & _ & H).
  destruct (nth_error (ins o) i) as [[w|]|] eqn:EI; try (destruct H; fail).
  apply in_flat_map in H as (b & _ & H).
  destruct (helper o j (snd d) i b && dynDim p w b) eqn:E; [|destruct H].
  apply andb_true_iff in E as [E1 E2]. apply dynDim_true in E2.
  apply insertDim_sound in H as [H1 H2]. split; auto. rewrite H2.
  destruct d as [v a]. cbn [fst snd] in *. rewrite !val_dyn by auto.
  symmetry. eapply HH; eauto.
Qed.

(* Shape vectors. *)
Definition isConcat (o : op) : Prop := exists a, okind o = KConcat a.

Lemma dimsOf_sound fuel : forall v l, dimsOf fuel p v = Some l ->
  dat r v = map (fun w => hd 0 (dat r w)) l /\
  (forall w, In w l -> oneElem p w /\
     (w = v \/ exists o, In o (ops p) /\ isConcat o /\ In (Some w) (ins o))) /\
  (forall a, defKind p v = Some (KConcat a) -> forall w, In w l ->
     exists o, In o (ops p) /\ isConcat o /\ In (Some w) (ins o)).
Proof.
  induction fuel as [|f IH]; intros v l H; [discriminate|].
  cbn [dimsOf] in H. destruct (rankOf p v =? 1)%nat eqn:E1; [|discriminate].
  apply Nat.eqb_eq in E1.
  assert (Base : (match tdims (types p v) with
            | [Some 1] => if tI64 (types p v) then Some [v] else None | _ => None end) = Some l ->
          dat r v = map (fun w => hd 0 (dat r w)) l /\ l = [v] /\ oneElem p v).
  { intros HB. assert (One : oneElem p v).
    { apply one_match in HB. unfold oneElem. tauto. }
    unfold oneElem in One. rewrite One in HB. destruct (tI64 (types p v)) eqn:EI; [|discriminate].
    injection HB as <-. split; [|auto].
    destruct HR as (_ & HL & _ & _). rewrite rank_len in E1. specialize (HL v E1 EI).
    assert (EA : at_ (shp r v) 0 = 1).
    { pose proof (types_at v 0 (Some 1)) as HA. rewrite One in HA.
      destruct (HA eq_refl) as [HA'|HA']; [discriminate|]. congruence. }
    rewrite EA in HL. cbn [map].
    destruct (dat r v) as [|z [|z' rest]]; cbn [length] in HL; try lia. reflexivity. }
  destruct (defOp p v) as [[k li lo h]|] eqn:ED.
  2:{ destruct (Base H) as (B1 & -> & B3). repeat split; auto.
      - destruct H0 as [<-|[]]. auto.
      - destruct H0 as [<-|[]]. auto.
      - unfold defKind. rewrite ED. discriminate. }
  assert (NC : (forall a, k <> KConcat a) ->
     (match tdims (types p v) with
            | [Some 1] => if tI64 (types p v) then Some [v] else None | _ => None end) = Some l ->
     dat r v = map (fun w => hd 0 (dat r w)) l /\
  (forall w, In w l -> oneElem p w /\
     (w = v \/ exists o, In o (ops p) /\ isConcat o /\ In (Some w) (ins o))) /\
  (forall a, defKind p v = Some (KConcat a) -> forall w, In w l ->
     exists o, In o (ops p) /\ isConcat o /\ In (Some w) (ins o))).
  { intros Hk HB. destruct (Base HB) as (B1 & -> & B3). repeat split; auto.
    - destruct H0 as [<-|[]]. auto.
    - destruct H0 as [<-|[]]. auto.
    - unfold defKind. rewrite ED. cbn. intros a Ha. injection Ha as Ha. exfalso. eapply Hk; eauto. }
  destruct k; try (apply NC; [discriminate|exact H]).
  clear NC Base.
  destruct (defOp_In _ _ _ ED) as [Ho Hv].
  set (go := fix go (l : list nat) : option (list nat) :=
               match l with
               | [] => Some []
               | x :: r =>
                   match dimsOf f p x, go r with
                   | Some a, Some b => Some (a ++ b)
                   | _, _ => None
                   end
               end) in H.
  assert (HG : forall vs res, (forall w, In w vs -> In (Some w) li) -> go vs = Some res ->
      concat (map (dat r) vs) = map (fun w => hd 0 (dat r w)) res /\
      (forall w, In w res -> oneElem p w /\ exists o, In o (ops p) /\ isConcat o /\ In (Some w) (ins o))).
  { induction vs as [|x vs IHv]; intros res Hin Hg; cbn [go] in Hg.
    - injection Hg as <-. split; [reflexivity|]. intros w [].
    - destruct (dimsOf f p x) as [a|] eqn:Ea; [|discriminate].
      change ((fix go (l : list nat) : option (list nat) :=
               match l with
               | [] => Some []
               | x :: r =>
                   match dimsOf f p x, go r with
                   | Some a, Some b => Some (a ++ b)
                   | _, _ => None
                   end
               end) vs) with (go vs) in Hg.
      destruct (go vs) as [b|] eqn:Eb; [|discriminate]. injection Hg as <-.
      destruct (IH _ _ Ea) as (A1 & A2 & _).
      destruct (IHv b) as (B1 & B2); auto. { intros; apply Hin; now right. }
      split.
      + cbn [map concat]. rewrite A1, B1, map_app. reflexivity.
      + intros w Hw. apply in_app_iff in Hw as [Hw|Hw]; [|auto].
        destruct (A2 w Hw) as [A3 A4]. split; auto. destruct A4 as [->|A4]; auto.
        exists {| okind := KConcat axis; ins := li; outs := lo; helper := h |}.
        split; auto. split; [exists axis; reflexivity|]. cbn [ins]. apply Hin. now left. }
  destruct (HG (given li) l) as (G1 & G2); auto.
  { intros w Hw. now apply given_In. }
  pose proof (opR _ Ho) as HOp. unfold opRuns in HOp. cbn [okind ins outs] in HOp.
  destruct lo as [|y [|]]; try contradiction. cbn [outs] in Hv. destruct Hv as [->|[]].
  destruct HOp as (_ & _ & _ & HD). rewrite rank_len in E1. rewrite (HD E1), G1.
  split; [reflexivity|]. split; [|intros a _; intros w Hw; apply G2; auto].
  intros w Hw. destruct (G2 w Hw). auto.
Qed.

Lemma dimsOf_i64 fuel : forall s l v, dimsOf fuel p s = Some l -> In v l -> tI64 (types p v) = true.
Proof.
  induction fuel as [|f IH]; intros s l v H Hin; [discriminate|].
  cbn [dimsOf] in H. destruct (rankOf p s =? 1)%nat; [|discriminate].
  assert (B : (match tdims (types p s) with
        | [Some 1] => if tI64 (types p s) then Some [s] else None | _ => None end) = Some l -> tI64 (types p v) = true).
  { intros HB. apply one_match in HB as [_ HB].
    destruct (tI64 (types p s)) eqn:E; [|discriminate]. injection HB as <-. destruct Hin as [<-|[]]. auto. }
  destruct (defOp p s) as [[k li lo h]|]; [|auto]. destruct k; auto.
  clear B. revert l H Hin. induction (given li) as [|x vs IHv]; intros l H Hin.
  - injection H as <-. destruct Hin.
  - destruct (dimsOf f p x) as [a|] eqn:Ea; [|discriminate].
    match type of H with match ?g with _ => _ end = _ => destruct g as [b|] eqn:Eb; [|discriminate] end.
    injection H as <-. apply in_app_iff in Hin as [Hin|Hin]; [eauto|]. eapply IHv; eauto.
Qed.

Hypothesis HO : Ordinary p r.

Lemma shapeInput_sound o y a s i v l :
  In o (ops p) -> In y (outs o) -> isDyn p y a ->
  shapeInput p o (y, a) = Some (s, i) -> areDimsFromConcat p s = Some l ->
  nth_error l i = Some v -> (forall d, In d (insertDim p v i) -> okDim p d /\ val p r d = val p r (y, a)).
Proof.
  intros Ho Hy Hd HS HA Hn d HI.
  assert (NC := insertDim_notconst _ _ _ HI).
  destruct (insertDim_sound _ _ _ HI) as [H1 H2]. split; auto. rewrite H2.
  rewrite (val_dyn y a Hd).
  unfold areDimsFromConcat in HA. destruct (defKind p s) as [[]|] eqn:EK; try discriminate.
  destruct (dimsOf_sound _ _ _ HA) as (D1 & D2 & D3).
  assert (Hin : In v l) by (eapply nth_error_In; eauto).
  destruct (D2 v Hin) as [One _]. rewrite val_one by auto.
  assert (EV : at_ (dat r s) i = hd 0 (dat r v)).
  { rewrite D1. unfold at_. erewrite nth_error_nth; [reflexivity|].
    rewrite nth_error_map, Hn. reflexivity. }
  assert (Li : (i < length (dat r s))%nat).
  { rewrite D1, map_length. apply nth_error_Some. congruence. }
  assert (La : (a < length (shp r y))%nat).
  { rewrite <- (rank_len). apply nth_error_Some. unfold isDyn in Hd. congruence. }
  pose proof (opR o Ho) as HOp. destruct HO as (HP & HE & HX). specialize (HX o Ho).
  unfold shapeInput in HS. unfold opRuns in HOp. cbn [fst snd] in HS.
  destruct (okind o) eqn:K; try discriminate.
  - (* Expand *)
    destruct (ins o) as [|[x|] [|[s'|] [|]]]; try discriminate.
    destruct (outs o) as [|y' [|]]; try contradiction. destruct Hy as [->|[]].
    injection HS as <- <-. rewrite HX. auto.
  - (* Reshape *)
    destruct (ins o) as [|[x|] [|[s'|] [|]]]; try discriminate.
    destruct (outs o) as [|y' [|]]; try contradiction. destruct Hy as [->|[]].
    destruct (allowzero =? 0); [|discriminate]. injection HS as <- <-.
    destruct HOp as (_ & _ & _ & Hpos & _).
    rewrite Hpos; auto. rewrite EV.
    destruct (D3 _ EK v Hin) as (oc & Hoc & Hcc & Hvc).
    apply (HE oc v); auto.
    destruct (dat r v) as [|z rest] eqn:Ez; [|now left].
    exfalso. destruct HR as (_ & HL & _ & _).
    assert (L1 : length (shp r v) = 1%nat) by (rewrite <- (rank_len); unfold rankOf; rewrite One; reflexivity).
    assert (HI64 : tI64 (types p v) = true).
    { eapply dimsOf_i64; eauto. }
    specialize (HL v L1 HI64). rewrite Ez in HL. cbn in HL.
    pose proof (types_at v 0 (Some 1)) as HA'. rewrite One in HA'.
    destruct (HA' eq_refl) as [HA''|HA'']; [discriminate|]. injection HA'' as HA''. lia.
  - (* Tile *)
    destruct (ins o) as [|[x|] [|[s'|] [|]]]; try discriminate.
    destruct (outs o) as [|y' [|]]; try contradiction. destruct Hy as [->|[]].
    destruct (nth_error (tdims (types p x)) a) as [[z|]|] eqn:Et; try discriminate.
    assert (z = 1 /\ (s', a) = (s, i)) as [-> HS'].
    { destruct z as [|q|]; try discriminate. destruct q; try discriminate. split; auto. congruence. }
    injection HS' as <- <-. destruct HOp as (L1 & L2 & HTile).
    apply (types_at) in Et as [Et|Et]; [discriminate|]. injection Et as Et.
    rewrite HTile by lia. rewrite <- Et, EV. lia.
  - (* ConstantOfShape *)
    destruct (ins o) as [|[s'|] [|]]; try discriminate.
    destruct (outs o) as [|y' [|]]; try contradiction. destruct Hy as [->|[]].
    injection HS as <- <-. rewrite HOp. auto.
  - (* CenterCropPad *)
    destruct (ins o) as [|[x|] [|[s'|] [|]]]; try discriminate.
    destruct (outs o) as [|y' [|]]; try contradiction. destruct Hy as [->|[]].
    destruct HOp as [L HC].
    assert (HF : forall l0 k j, findAxis l0 (rankOf p y) a k = Some j -> (k <= j)%nat /\
        exists z, nth_error l0 (j - k) = Some z /\ inBound z (rankOf p y) = Some a).
    { clear. induction l0 as [|z l0 IH]; intros k j H; cbn in H; [discriminate|].
      assert (G : findAxis l0 (rankOf p y) a (S k) = Some j -> (k <= j)%nat /\
         exists z0, nth_error (z :: l0) (j - k) = Some z0 /\ inBound z0 (rankOf p y) = Some a).
      { intros HG. apply IH in HG as (H1 & z0 & H2 & H3). split; [lia|]. exists z0.
        replace (j - k)%nat with (S (j - S k)) by lia. cbn. auto. }
      destruct (inBound z (rankOf p y)) as [b|] eqn:Eb; [|auto].
      destruct (Nat.eqb b a) eqn:E; [|auto]. injection H as <-. apply Nat.eqb_eq in E. subst b.
      split; [lia|]. exists z. rewrite Nat.sub_diag. cbn. auto. }
    destruct (findAxis (match axes with Some l0 => l0 | None => map Z.of_nat (seq 0 (rankOf p y)) end)
                (rankOf p y) a 0) as [j|] eqn:EF; [|discriminate].
    cbn in HS. injection HS as <- <-. apply HF in EF as (_ & z & Ez & Ein). rewrite Nat.sub_0_r in Ez.
    apply inBound_spec in Ein as [Ein1 Ein2]. rewrite (rank_len) in Ein1, Ein2.
    destruct axes as [ax|].
    + destruct HC as [_ HC]. specialize (HC j z Ez). rewrite <- Ein1 in HC. rewrite Nat2Z.id in HC.
      rewrite HC by lia. auto.
    + rewrite HC. rewrite nth_error_map in Ez.
      destruct (nth_error (seq 0 (rankOf p y)) j) as [q|] eqn:Eq; [|discriminate]. cbn in Ez. injection Ez as <-.
      assert (q = j). { apply nth_error_nth with (d := 0%nat) in Eq as Eq'. rewrite seq_nth in Eq'; [lia|].
        assert (j < length (seq 0 (rankOf p y)))%nat by (apply nth_error_Some; congruence). rewrite seq_length in H. auto. }
      subst q. unfold normAxis in Ein1. destruct (Z.of_nat j <? 0) eqn:E0; [apply Z.ltb_lt in E0; lia|].
      assert (a = j) by lia. subst j. auto.
  - (* MaxUnpool *)
    destruct (ins o) as [|i1 [|i2 [|[s'|] [|]]]]; try discriminate.
    destruct i1; try contradiction. destruct i2; try contradiction.
    destruct (outs o) as [|y' [|]]; try contradiction. destruct Hy as [->|[]].
    injection HS as <- <-. rewrite (HOp s' eq_refl). auto.
Qed.
(* Pairs of operands of a broadcasting operation. *)
Lemma fromPairs_In ss axis l : forall d, In d (fromPairs p ss axis l) ->
  exists i j a b, nth_error l i = Some a /\ nth_error l j = Some b /\ (i < j)%nat /\
    In d (fromPair p ss axis a b).
Proof.
  induction l as [|x l IH]; intros d H; cbn in H; [destruct H|].
  apply in_app_iff in H as [H|H].
  - apply in_flat_map in H as (b & Hb & H). apply In_nth_error in Hb as (j & Hj).
    exists 0%nat, (S j), x, b. cbn. split; auto. split; auto. split; [lia|auto].
  - destruct (IH d H) as (i & j & a & b & H1 & H2 & H3 & H4).
    exists (S i), (S j), a, b. cbn. split; auto. split; auto. split; [lia|auto].
Qed.

Lemma normAxis_neg x n a : x < 0 -> Z.of_nat a = normAxis x n -> Z.of_nat a = x + Z.of_nat n.
Proof. unfold normAxis. intros H. destruct (x <? 0) eqn:E; [auto|apply Z.ltb_ge in E; lia]. Qed.

Lemma len_pos_dyn y a : isDyn p y a -> (a < length (shp r y))%nat.
Proof. intros H. rewrite <- rank_len. apply nth_error_Some. unfold isDyn in H. congruence. Qed.

(* A one-element operand next to an operand whose innermost dimension it equals. *)
Lemma sameDim_one_static ss a b n : oneElem p a -> sameDim p ss a n b n = true -> n < 0 ->
  n = -1 /\ nth_error (rev (tdims (types p b))) 0 <> Some None.
Proof.
  intros One HS Hn. unfold sameDim in HS.
  assert (Ra : rankOf p a = 1%nat) by (unfold rankOf; rewrite One; reflexivity).
  destruct (inBound n (rankOf p a)) as [a1|] eqn:E1; [|discriminate].
  destruct (inBound n (rankOf p b)) as [a2|] eqn:E2; [|discriminate].
  apply inBound_spec in E1 as [E1 L1]. apply inBound_spec in E2 as [E2 L2].
  apply normAxis_neg in E1; auto. apply normAxis_neg in E2; auto.
  assert (n = -1) by lia. split; auto. subst n.
  assert (a1 = 0%nat) by lia. assert (a2 = rankOf p b - 1)%nat by lia. subst a1 a2.
  unfold rankOf in *.
  assert (EB : nth_error (rev (tdims (types p b))) 0 = nth_error (tdims (types p b)) (length (tdims (types p b)) - 1)).
  { set (l := tdims (types p b)) in *. clearbody l.
    destruct (rev l) as [|t q] eqn:Er.
    - apply (f_equal (@length _)) in Er. rewrite rev_length in Er. cbn in Er. lia.
    - assert (EL : l = rev q ++ [t]) by (rewrite <- (rev_involutive l), Er; reflexivity).
      rewrite EL, app_length. cbn [length]. replace (length (rev q) + 1 - 1)%nat with (length (rev q)) by lia.
      rewrite nth_error_app2, Nat.sub_diag by lia. reflexivity. }
  rewrite EB. intros HC. rewrite HC in HS.
  destruct (dimEq (a, 0%nat) (b, (length (tdims (types p b)) - 1)%nat)) eqn:ED.
  - apply dimEq_true in ED. injection ED as <- _. rewrite One in HC. cbn in HC. discriminate.
  - rewrite One in HS. cbn in HS. discriminate.
Qed.

(* The same number, written with distances from the innermost dimension. *)
Lemma at_fromEnd s i k : (i < length s)%nat -> (k = length s - 1 - i)%nat -> at_ s i = fromEnd s k.
Proof. intros H ->. symmetry. now apply fromEnd_at. Qed.

Lemma bcast1_same x d : bcast1 [x; x] d -> d = x.
Proof. intros [[H|[H|[]]] _]; auto. Qed.

Lemma last_dyn y a : isDyn p y a -> (S a = length (shp r y))%nat ->
  nth_error (rev (tdims (types p y))) 0 = Some None.
Proof.
  intros H L. rewrite <- rank_len in L. unfold rankOf in L. unfold isDyn in H.
  set (l := tdims (types p y)) in *. clearbody l.
  destruct (rev l) as [|t q] eqn:Er.
  - apply (f_equal (@length _)) in Er. rewrite rev_length in Er. cbn in Er. lia.
  - assert (EL : l = rev q ++ [t]) by (rewrite <- (rev_involutive l), Er; reflexivity).
    rewrite EL, app_length in L. cbn [length] in L. rewrite EL in H.
    rewrite nth_error_app2 in H by lia. replace (a - length (rev q))%nat with 0%nat in H by lia.
    cbn in *. exact H.
Qed.

Lemma pair_nth {A} (a' b' a b : A) i j : nth_error [a'; b'] i = Some a -> nth_error [a'; b'] j = Some b ->
  (i < j)%nat -> a' = a /\ b' = b.
Proof.
  intros H1 H2 L.
  assert (i < 2)%nat by (change 2%nat with (length [a'; b']); apply nth_error_Some; congruence).
  assert (j < 2)%nat by (change 2%nat with (length [a'; b']); apply nth_error_Some; congruence).
  assert (i = 0)%nat by lia. assert (j = 1)%nat by lia. subst. cbn in *. split; congruence.
Qed.

Lemma fromPair_sound ss o y axis a b d i j :
  uniform p r ss -> In o (ops p) -> outs o = [y] -> isDyn p y axis ->
  (okind o = KAdd \/ okind o = KBroadcast \/ okind o = KMatMul) ->
  nth_error (given (ins o)) i = Some a -> nth_error (given (ins o)) j = Some b -> (i < j)%nat ->
  In d (fromPair p ss axis a b) -> okDim p d /\ val p r d = val p r (y, axis).
Proof.
  intros HU Ho Hy Hd HK Hi Hj Hij H. unfold fromPair in H.
  rewrite !rank_len in H.
  destruct (negb (length (shp r a) =? 0)%nat && negb (length (shp r b) =? 0)%nat) eqn:EN; [|destruct H].
  apply andb_true_iff in EN as [Na Nb]. apply negb_true_iff in Na, Nb. apply Nat.eqb_neq in Na, Nb.
  set (n := Z.of_nat axis - Z.of_nat (Nat.max (length (shp r a)) (length (shp r b)))) in *.
  destruct (sameDim p ss a n b n) eqn:ES; [|destruct H].
  apply insertDim_sound in H as [H1 H2]. split; auto. rewrite H2. rewrite (val_dyn y axis Hd).
  pose proof (sameDim_sound _ _ _ _ _ HU ES) as (a1 & a2 & B1 & B2 & EE).
  apply inBound_spec in B1 as [B1 L1]. apply inBound_spec in B2 as [B2 L2]. rewrite rank_len in *.
  pose proof (len_pos_dyn y axis Hd) as Ly.
  pose proof (opR o Ho) as HOp. destruct HO as (_ & _ & HX). specialize (HX o Ho).
  destruct HT as (_ & _ & HW). specialize (HW o Ho). unfold opRuns in HOp.
  (* the situations of Add and the other elementwise operations *)
  assert (Elem : (bcast [shp r a; shp r b] (shp r y) \/ (shp r a = shp r y /\ shp r b = shp r y)) ->
     (oneElem p a -> nth_error (rev (tdims (types p b))) 0 <> Some None ->
      nth_error (rev (tdims (types p y))) 0 <> Some None) ->
     val p r (a, Z.to_nat (Z.of_nat (length (shp r a)) + n)) = at_ (shp r y) axis).
  { intros HB Hone.
    assert (LY : length (shp r y) = Nat.max (length (shp r a)) (length (shp r b))).
    { destruct HB as [[LY _]|[E1 E2]]; [cbn in LY; lia|rewrite E1, E2; lia]. }
    assert (Hn : n < 0) by lia.
    apply normAxis_neg in B1, B2; auto.
    assert (HNO : ~ oneElem p a).
    { intros One. destruct (sameDim_one_static ss a b n One ES Hn) as [E1 E2].
      apply (Hone One E2). apply (last_dyn y axis Hd). lia. }
    rewrite val_not_one by auto. replace (Z.to_nat (Z.of_nat (length (shp r a)) + n)) with a1 by lia.
    destruct HB as [[_ HB]|[E1 E2]].
    - assert (Lk : (length (shp r y) - 1 - axis < length (shp r y))%nat) by lia.
      specialize (HB _ Lk). cbn [map] in HB.
      rewrite (at_fromEnd (shp r a) a1 (length (shp r y) - 1 - axis)) in * by lia.
      rewrite (at_fromEnd (shp r b) a2 (length (shp r y) - 1 - axis)) in * by lia.
      rewrite (at_fromEnd (shp r y) axis (length (shp r y) - 1 - axis)) by lia.
      rewrite <- EE in HB. apply bcast1_same in HB. auto.
    - pose proof (f_equal (@length Z) E1). rewrite E1. f_equal. unfold n in *. lia. }
  destruct HK as [K|[K|K]]; rewrite K in *.
  - (* Add *)
    destruct (ins o) as [|[a'|] [|[b'|] [|]]] eqn:EI; try contradiction. rewrite Hy in *.
    assert (a' = a /\ b' = b) as [-> ->].
    { eapply pair_nth; eauto. }
    apply Elem; [left; apply HOp|]. intros One Hb.
    eapply HW; [exact Hi|exact Hj|lia|exact One|exact Hb].
  - (* the others *)
    rewrite Hy in *.
    assert (WT : oneElem p a -> nth_error (rev (tdims (types p b))) 0 <> Some None ->
         nth_error (rev (tdims (types p y))) 0 <> Some None).
    { intros One Hb. eapply HW; [exact Hi|exact Hj|lia|exact One|exact Hb]. }
    destruct HX as [HX|HX].
    + assert (EG : given (ins o) = [a; b]).
      { assert (LG : (length (given (ins o)) <= length (ins o))%nat).
        { clear. induction (ins o) as [|[x|] l IH]; cbn; auto; unfold given in *; cbn; lia. }
        assert (j < length (given (ins o)))%nat by (apply nth_error_Some; congruence).
        destruct (given (ins o)) as [|g1 [|g2 [|]]]; cbn in *; try lia.
        assert (i = 0%nat) by lia. assert (j = 1%nat) by lia. subst. cbn in *. congruence. }
      rewrite EG in HOp. apply Elem; auto.
    + apply Elem; auto. right. split; apply HX; apply given_In; eapply nth_error_In; eauto.
  - (* MatMul *)
    destruct (ins o) as [|[a'|] [|[b'|] [|]]] eqn:EI; try contradiction. rewrite Hy in *.
    assert (a' = a /\ b' = b) as [-> ->].
    { eapply pair_nth; eauto. }
    destruct HOp as (P1 & P2 & HOp).
    destruct ((2 <=? length (shp r a))%nat && (2 <=? length (shp r b))%nat) eqn:E2.
    + apply andb_true_iff in E2 as [La Lb]. apply Nat.leb_le in La, Lb.
      destruct HOp as (LY & K1 & K2 & K3 & K4).
      assert (Hn : n < 0) by lia. apply normAxis_neg in B1, B2; auto.
      rewrite val_rank by (rewrite rank_len; lia).
      replace (Z.to_nat (Z.of_nat (length (shp r a)) + n)) with a1 by lia.
      rewrite (at_fromEnd (shp r a) a1 (length (shp r y) - 1 - axis)) in * by lia.
      rewrite (at_fromEnd (shp r b) a2 (length (shp r y) - 1 - axis)) in * by lia.
      rewrite (at_fromEnd (shp r y) axis (length (shp r y) - 1 - axis)) by lia.
      destruct (length (shp r y) - 1 - axis)%nat as [|[|k]] eqn:Ek.
      * congruence.
      * congruence.
      * assert (Lk : (2 <= S (S k) < length (shp r y))%nat) by lia.
        specialize (K4 _ Lk). rewrite <- EE in K4. apply bcast1_same in K4. auto.
    + exfalso. assert (Hn : n < 0) by lia. apply normAxis_neg in B1, B2; auto.
      apply andb_false_iff in E2 as [E2|E2]; apply Nat.leb_gt in E2; lia.
Qed.

(* The special case of Reshape. *)
Lemma pairUp_spec ss x y di dj : uniform p r ss -> forall missing visited m' vis',
  pairUp p ss x y di dj missing visited = (m', vis') ->
  exists found nf js, Permutation di (found ++ nf) /\ vis' = visited ++ js /\
    Forall2 (fun i j => at_ (shp r x) i = at_ (shp r y) j) found js /\
    (forall j, In j js -> In j dj) /\ (NoDup visited -> NoDup vis') /\
    m' = (match missing with Some m => Some m | None => hd_error nf end).
Proof.
  intros HU. induction di as [|i di IH]; intros missing visited m' vis' H; cbn [pairUp] in H.
  - injection H as <- <-. exists [], [], [].
    split; [constructor|]. split; [now rewrite app_nil_r|]. split; [constructor|].
    split; [intros j []|]. split; [auto|]. destruct missing; auto.
  - destruct (find _ dj) as [j|] eqn:EF.
    + apply find_some in EF as [Hj EF]. apply andb_true_iff in EF as [E1 E2].
      apply negb_true_iff in E1.
      destruct (IH _ _ _ _ H) as (found & nf & js & P1 & P2 & P3 & P4 & P5 & P6).
      exists (i :: found), nf, (j :: js). cbn [app]. repeat split.
      * now constructor.
      * rewrite P2, <- app_assoc. reflexivity.
      * constructor; auto.
        destruct (sameDim_sound _ _ _ _ _ HU E2) as (a1 & a2 & B1 & B2 & EE).
        apply inBound_nat_inv in B1 as [-> _]. apply inBound_nat_inv in B2 as [-> _]. auto.
      * intros q [<-|Hq]; auto.
      * intros ND. apply P5. apply (Permutation_NoDup (Permutation_cons_append visited j)).
        constructor; auto. intros Hin.
        assert (existsb (Nat.eqb j) visited = true) by (apply existsb_exists; exists j; split; auto; apply Nat.eqb_refl).
        congruence.
      * exact P6.
    + destruct (IH _ _ _ _ H) as (found & nf & js & P1 & P2 & P3 & P4 & P5 & P6).
      exists found, (i :: nf), js. repeat split; auto.
      * rewrite P1. apply Permutation_middle.
      * destruct missing; auto.
Qed.

Lemma fromReshape_sound ss o az x s y axis d : uniform p r ss -> In o (ops p) ->
  okind o = KReshape az -> ins o = [Some x; Some s] -> outs o = [y] -> isDyn p y axis ->
  In d (fromReshape p ss az x y axis) -> okDim p d /\ val p r d = val p r (y, axis).
Proof.
  intros HU Ho HK HI HY Hd H. unfold fromReshape in H.
  destruct (negb (az =? 0)); [destruct H|].
  set (tx := tdims (types p x)) in *. set (ty := tdims (types p y)) in *.
  destruct ((length (dynAxes tx) =? length (dynAxes ty))%nat && (staticSize tx =? staticSize ty)) eqn:E; [|destruct H].
  apply andb_true_iff in E as [EL ES]. apply Nat.eqb_eq in EL. apply Z.eqb_eq in ES.
  destruct (pairUp p ss x y (dynAxes tx) (dynAxes ty) None []) as [[i|] vis] eqn:EP; [|destruct H].
  destruct ((length vis =? length (dynAxes ty) - 1)%nat && negb (existsb (Nat.eqb axis) vis)) eqn:EV; [|destruct H].
  apply andb_true_iff in EV as [EV1 EV2]. apply Nat.eqb_eq in EV1. apply negb_true_iff in EV2.
  destruct (pairUp_spec _ _ _ _ _ HU _ _ _ _ EP) as (found & nf & js & P1 & P2 & P3 & P4 & P5 & P6).
  cbn [app] in P2. subst vis.
  assert (Ax : In axis (dynAxes ty)) by (apply dynAxes_In; exact Hd).
  assert (Nax : ~ In axis js).
  { intros Hin. assert (existsb (Nat.eqb axis) js = true) by (apply existsb_exists; exists axis; split; auto; apply Nat.eqb_refl).
    congruence. }
  assert (Lf : length found = length js) by (clear - P3; induction P3; cbn; congruence).
  assert (Ld : (0 < length (dynAxes ty))%nat) by (destruct (dynAxes ty); [destruct Ax|cbn; lia]).
  assert (Ln : length nf = 1%nat).
  { apply Permutation_length in P1. rewrite app_length in P1. lia. }
  destruct nf as [|i' [|]]; cbn in Ln; try lia. cbn in P6. injection P6 as ->.
  assert (Pj : Permutation (dynAxes ty) (axis :: js)).
  { symmetry. apply NoDup_Permutation_bis.
    - constructor; auto. apply P5. constructor.
    - cbn [length]. lia.
    - intros q [<-|Hq]; auto. }
  assert (Hi' : isDyn p x i').
  { apply dynAxes_In. fold tx. eapply Permutation_in; [symmetry; exact P1|]. apply in_app_iff. right. now left. }
  apply insertDim_sound in H as [H1 H2]. split; auto. rewrite H2.
  rewrite (val_dyn x i' Hi'), (val_dyn y axis Hd).
  pose proof (opR o Ho) as HOp. unfold opRuns in HOp. rewrite HK, HI, HY in HOp.
  destruct HOp as (_ & HPr & _). destruct HR as (HF & _).
  rewrite (prod_split _ _ (HF y)), (prod_split _ _ (HF x)) in HPr. fold tx ty in HPr.
  rewrite ES in HPr.
  rewrite (prodZ_perm _ _ (Permutation_map (at_ (shp r y)) Pj)) in HPr.
  rewrite (prodZ_perm _ _ (Permutation_map (at_ (shp r x)) P1)) in HPr.
  assert (EQ : map (at_ (shp r x)) found = map (at_ (shp r y)) js).
  { clear - P3. induction P3; cbn; congruence. }
  rewrite (prodZ_perm _ _ (Permutation_map (at_ (shp r x)) (Permutation_app_comm found [i']))) in HPr.
  cbn [app map] in HPr. rewrite EQ, !prodZ_cons in HPr.
  destruct HO as (HPos & _).
  assert (Q1 : 0 < prodZ (map (at_ (shp r y)) js)).
  { apply prodZ_pos. intros q Hq. apply in_map_iff in Hq as (j & <- & Hj).
    apply P4, dynAxes_In in Hj. apply HPos with y. unfold at_. apply nth_In. apply len_pos_dyn. exact Hj. }
  assert (Q2 : 0 < staticSize ty).
  { assert (0 < prodZ (shp r y)) by (apply prodZ_pos; intros; eapply HPos; eauto).
    rewrite (prod_split _ _ (HF y)) in H. fold ty in H.
    assert (0 < prodZ (map (at_ (shp r y)) (dynAxes ty))).
    { apply prodZ_pos. intros q Hq. apply in_map_iff in Hq as (j & <- & Hj).
      apply dynAxes_In in Hj. apply HPos with y. unfold at_. apply nth_In. apply len_pos_dyn. exact Hj. }
    nia. }
  apply Z.mul_reg_l in HPr; [|lia]. apply Z.mul_reg_r in HPr; [|lia]. auto.
Qed.

(* One visit. *)
Lemma visitDim_sound ss d res d' : uniform p r ss -> okDim p d -> visitDim p ss d = Ok res ->
  In d' res -> okDim p d' /\ val p r d' = val p r d.
Proof.
  intros HU Hok HV Hin. unfold visitDim in HV.
  pose proof (fromConsumers_sound d (users p (fst d))) as HC.
  destruct (defOp p (fst d)) as [o|] eqn:ED; [|injection HV as <-; auto].
  destruct (defOp_In _ _ _ ED) as [Ho Hv].
  unfold okDim, defKind in Hok. rewrite ED in Hok. cbn [option_map] in Hok.
  assert (Gen : forall k, okind o = k ->
     (match k with KConstant _ _ | KDim _ | KCast => False | _ => True end) ->
     isDyn p (fst d) (snd d) ->
     bind (fromShapeInput p o d) (fun s =>
            let pairs :=
              match k with
              | KAdd | KBroadcast | KMatMul => fromPairs p ss (snd d) (given (ins o))
              | _ => []
              end in
            let rs :=
              match k, ins o with
              | KReshape az, Some x :: _ => fromReshape p ss az x (fst d) (snd d)
              | _, _ => []
              end in
            Ok (fromConsumers p d (users p (fst d)) ++ fromHelper p o d ++ s ++ pairs ++ rs)) = Ok res ->
     okDim p d' /\ val p r d' = val p r d).
  { intros k HK Hk Hd HB. apply bind_Ok in HB as (si & Hsi & HB). cbn zeta in HB. injection HB as <-.
    rewrite !in_app_iff in Hin. destruct Hin as [Hin|[Hin|[Hin|[Hin|Hin]]]].
    - auto.
    - eapply fromHelper_sound; eauto.
    - unfold fromShapeInput in Hsi. destruct (shapeInput p o d) as [[s i]|] eqn:ESI; [|injection Hsi as <-; destruct Hin].
      destruct (areDimsFromConcat p s) as [l|] eqn:EA; [|injection Hsi as <-; destruct Hin].
      destruct (nth_error l i) as [v|] eqn:EN; [|discriminate]. injection Hsi as <-.
      destruct d as [y a]. cbn [fst snd] in *. eapply shapeInput_sound; eauto.
    - assert (HK' : okind o = KAdd \/ okind o = KBroadcast \/ okind o = KMatMul) by (destruct k; auto; destruct Hin).
      assert (Hin' : In d' (fromPairs p ss (snd d) (given (ins o)))) by (destruct k; auto; destruct Hin).
      apply fromPairs_In in Hin' as (i & j & a & b & N1 & N2 & N3 & N4).
      assert (HY : outs o = [fst d]).
      { pose proof (opR o Ho) as HOp. unfold opRuns in HOp.
        destruct (outs o) as [|y [|y2 ys]]; [destruct Hv| |].
        - destruct Hv as [->|[]]. auto.
        - exfalso. destruct HK' as [E|[E|E]]; rewrite E in HOp;
            destruct (ins o) as [|[?|] [|[?|] [|]]]; contradiction. }
      destruct d as [y a']. cbn [fst snd] in *. eapply fromPair_sound with (i := i) (j := j); eauto.
    - destruct k; try (destruct Hin; fail). pose proof (opR o Ho) as HOp. unfold opRuns in HOp. rewrite HK in HOp.
      destruct (ins o) as [|[x|] [|[s|] [|]]] eqn:EI; try contradiction.
      destruct (outs o) as [|y [|]] eqn:EO; try contradiction. destruct Hv as [Ey|[]].
      destruct d as [y0 a']. cbn [fst snd] in *. subst y0. eapply fromReshape_sound; eauto. }
  destruct (okind o) eqn:K;
    try (destruct (negb (dynDim p (fst d) (snd d))); [discriminate|];
         eapply Gen; [reflexivity|exact I|exact Hok|exact HV]).
  - destruct Hok.
  - destruct (dim_shape o _ Ho K) as (x & y & E1 & E2 & One & Hdx & Hdat).
    rewrite E1 in HV. injection HV as <-. apply in_app_iff in Hin as [Hin|Hin]; auto.
    apply insertDim_sound in Hin as [I1 I2]. split; auto. rewrite I2, (val_dyn x axis Hdx).
    rewrite E2 in Hv. destruct Hv as [Ey|[]]. destruct d as [y0 a]. cbn [fst] in *. subst y0.
    rewrite val_one by auto. rewrite Hdat. reflexivity.
  - destruct (cast_shape o Ho K) as (x & y & E1 & E2 & ET & Es & Ed).
    rewrite E1 in HV. injection HV as <-. apply in_app_iff in Hin as [Hin|Hin]; auto.
    apply insertDim_sound in Hin as [I1 I2]. split; auto. rewrite I2.
    rewrite E2 in Hv. destruct Hv as [Ey|[]]. destruct d as [y0 a]. cbn [fst snd] in *. subst y0.
    unfold val, oneB. cbn [fst snd]. rewrite ET, Es, Ed. reflexivity.
Qed.
(* Sets of dimensions. *)
Definition good (ss : sets) : Prop := uniform p r ss /\ allOk p ss.

Lemma good_set ss : good ss <-> (forall s, In s ss -> (forall d1 d2, In d1 s -> In d2 s -> val p r d1 = val p r d2) /\
   (forall d, In d s -> okDim p d)).
Proof.
  unfold good, uniform, allOk. split.
  - intros [H1 H2] s Hs. split; intros; eauto.
  - intros H. split; intros; destruct (H s); eauto.
Qed.

Lemma updateFrom_good todo : forall done res b, good (done ++ todo) ->
  updateFrom p done todo = Ok (res, b) -> good res.
Proof.
  induction todo as [|s todo IH]; intros done res b HG H; cbn [updateFrom] in H.
  - injection H as <- _. now rewrite app_nil_r in HG.
  - apply bind_Ok in H as (new & Hnew & H). apply bind_Ok in H as ([res' b'] & Hr & H).
    cbn [fst snd] in H. injection H as <- _.
    eapply IH; [|exact Hr]. rewrite <- app_assoc. cbn [app].
    pose proof HG as [HU HA]. rewrite good_set in HG |- *. intros s0 Hs0.
    apply in_app_iff in Hs0 as [Hs0|[<-|Hs0]].
    + apply HG, in_app_iff. auto.
    + assert (Hs : In s (done ++ s :: todo)) by (apply in_app_iff; right; now left).
      assert (HN : forall d', In d' new -> okDim p d' /\ exists d, In d s /\ val p r d' = val p r d).
      { intros d' Hd'. destruct (collect_In _ _ _ Hnew d' Hd') as (d & ys & Hd & Hv & Hy).
        destruct (visitDim_sound _ _ _ _ HU (HA _ _ Hs Hd) Hv Hy). split; eauto. }
      assert (HV : forall d', In d' (fold_left insert new s) -> okDim p d' /\ exists d, In d s /\ val p r d' = val p r d).
      { intros d' Hd'. apply fold_insert_In in Hd' as [Hd'|Hd']; [|auto]. split; [eapply HA; eauto|eauto]. }
      split.
      * intros d1 d2 H1 H2. destruct (HV d1 H1) as (_ & e1 & E1 & V1). destruct (HV d2 H2) as (_ & e2 & E2 & V2).
        rewrite V1, V2. eapply HU; eauto.
      * intros d Hd. apply HV. auto.
    + apply HG, in_app_iff. right. now right.
Qed.

Lemma absorb_good rest : forall lhs l' kept, good (lhs :: rest) -> absorb lhs rest = (l', kept) -> good (l' :: kept).
Proof.
  induction rest as [|t rest IH]; intros lhs l' kept HG H; cbn [absorb] in H.
  - injection H as <- <-. auto.
  - rewrite good_set in HG. destruct (overlap lhs t) eqn:E.
    + eapply IH; [|exact H]. rewrite good_set. intros s [<-|Hs]; [|apply HG; right; now right].
      destruct (HG lhs) as [U1 A1]; [now left|]. destruct (HG t) as [U2 A2]; [right; now left|].
      unfold overlap in E. apply existsb_exists in E as (e & He & E). apply contains_In in E.
      assert (HV : forall d, In d (fold_left insert t lhs) -> val p r d = val p r e).
      { intros d Hd. apply fold_insert_In in Hd as [Hd|Hd]; auto. }
      split.
      * intros d1 d2 H1 H2. rewrite (HV d1 H1), (HV d2 H2). reflexivity.
      * intros d Hd. apply fold_insert_In in Hd as [Hd|Hd]; auto.
    + destruct (absorb lhs rest) as [l'' k] eqn:EA. injection H as <- <-.
      assert (HG' : good (l'' :: k)).
      { eapply IH; [|exact EA]. rewrite good_set. intros s [<-|Hs]; apply HG; [now left|right; now right]. }
      rewrite good_set in HG' |- *. intros s [<-|[<-|Hs]].
      * apply HG'. now left.
      * apply HG. right. now left.
      * apply HG'. now right.
Qed.

Lemma mergeRound_good n : forall ss, good ss -> good (mergeRound n ss).
Proof.
  induction n as [|n IH]; intros ss HG; [auto|]. destruct ss as [|s rest]; [auto|]. cbn [mergeRound].
  destruct (absorb s rest) as [s' kept] eqn:EA. pose proof (absorb_good _ _ _ _ HG EA) as HG'.
  rewrite good_set in HG'.
  assert (HK : good (mergeRound n kept)) by (apply IH; rewrite good_set; intros q Hq; apply HG'; now right).
  rewrite good_set in HK |- *. intros q [<-|Hq]; [apply HG'; now left|auto].
Qed.

Lemma mergeLoop_good n : forall ss, good ss -> good (mergeLoop n ss).
Proof.
  induction n as [|n IH]; intros ss HG; [auto|]. cbn [mergeLoop].
  destruct (length (mergeRound (length ss) ss) <? length ss)%nat; [apply IH|]; apply mergeRound_good; auto.
Qed.

Lemma classify_good fuel : forall ss res, good ss -> classify fuel p ss = Ok res -> good res.
Proof.
  induction fuel as [|f IH]; intros ss res HG H; [discriminate|]. cbn [classify] in H.
  apply bind_Ok in H as ([ss' b] & Hu & H). cbn [fst snd] in H.
  assert (good ss') by (eapply updateFrom_good with (done := []); eauto).
  destruct b; [|injection H as <-; auto]. eapply IH; [|exact H]. apply mergeLoop_good. auto.
Qed.

(* The sets before the first round. *)
Lemma dyn_ok v a : isDyn p v a -> okDim p (v, a).
Proof.
  intros H. unfold okDim. cbn [fst snd]. destruct (defKind p v) as [k|] eqn:E; [|auto].
  apply defKind_Some in E as (o & _ & K & Ho & Hv). destruct k; auto.
  - destruct HT as (_ & _ & HW). specialize (HW o Ho). rewrite K in HW.
    pose proof (opR o Ho) as HOp. unfold opRuns in HOp. rewrite K in HOp.
    destruct (outs o) as [|y [|]]; try contradiction. destruct Hv as [->|[]].
    exact (HW a H).
  - destruct (dim_shape o _ Ho K) as (x & y & _ & E2 & One & _). rewrite E2 in Hv. destruct Hv as [->|[]].
    unfold isDyn in H. rewrite One in H. destruct a as [|[|]]; discriminate.
Qed.

Lemma buildValue_good v : good (buildValue p v).
Proof.
  rewrite good_set. unfold buildValue. intros s Hs. apply in_map_iff in Hs as (a & <- & Ha).
  apply dynAxes_In in Ha. split.
  - intros d1 d2 [<-|[]] [<-|[]]. auto.
  - intros d [<-|[]]. apply dyn_ok. exact Ha.
Qed.

Lemma good_app a b : good a -> good b -> good (a ++ b).
Proof. rewrite !good_set. intros HA HB s Hs. apply in_app_iff in Hs as [Hs|Hs]; auto. Qed.

Lemma good_flat_map {A} (f : A -> sets) l : (forall a, In a l -> good (f a)) -> good (flat_map f l).
Proof.
  intros H. rewrite good_set. intros s Hs. apply in_flat_map in Hs as (a & Ha & Hs).
  specialize (H a Ha). rewrite good_set in H. auto.
Qed.

Lemma plainDims_good l par : good (plainDims p l par).
Proof.
  apply good_flat_map. intros i _. destruct (nth_error l i) as [v|]; [|rewrite good_set; intros s []].
  apply good_flat_map. intros a Ha. apply dynAxes_In in Ha.
  destruct (par i a); rewrite good_set; [intros s []|]. intros s [<-|[]]. split.
  - intros d1 d2 [<-|[]] [<-|[]]. auto.
  - intros d [<-|[]]. apply dyn_ok. exact Ha.
Qed.

Lemma paramDims_In l par q d : In (q, d) (paramDims p l par) ->
  exists i, nth_error l i = Some (fst d) /\ par i (snd d) = Some q /\ isDyn p (fst d) (snd d).
Proof.
  unfold paramDims. intros H. apply in_flat_map in H as (i & _ & H).
  destruct (nth_error l i) as [v|] eqn:E; [|destruct H]. apply in_flat_map in H as (a & Ha & H).
  apply dynAxes_In in Ha. destruct (par i a) as [q'|] eqn:EP; [|destruct H].
  destruct H as [H|[]]. injection H as <- <-. exists i. cbn. auto.
Qed.

Lemma addParam_In q d m : forall q' s, In (q', s) (addParam q d m) ->
  forall e, In e s -> (q' = q /\ e = d) \/ exists s0, In (q', s0) m /\ In e s0.
Proof.
  induction m as [|[q0 s0] m IH]; intros q' s H e He; cbn [addParam] in H.
  - destruct H as [H|[]]. injection H as <- <-. destruct He as [<-|[]]. auto.
  - destruct (Nat.eqb q q0) eqn:E.
    + apply Nat.eqb_eq in E. subst q0. destruct H as [H|H].
      * injection H as <- <-. apply insert_In in He as [He| ->]; [|auto].
        right. exists s0. cbn. auto.
      * right. exists s. cbn. auto.
    + destruct H as [H|H].
      * injection H as <- <-. right. exists s0. cbn. auto.
      * destruct (IH _ _ H e He) as [?|(s1 & H1 & H2)]; auto. right. exists s1. cbn. auto.
Qed.

Lemma paramSets_In l s : In s (paramSets l) -> exists q, forall e, In e s -> In (q, e) l.
Proof.
  unfold paramSets. intros H. apply in_map_iff in H as ([q s'] & E & H). cbn in E. subst s'.
  exists q. revert H.
  assert (G : forall l m, In (q, s) (fold_left (fun m e => addParam (fst e) (snd e) m) l m) ->
     forall e, In e s -> In (q, e) l \/ exists s0, In (q, s0) m /\ In e s0).
  { clear. induction l as [|[q0 d0] l IH]; intros m H e He; cbn [fold_left] in H.
    - right. exists s. auto.
    - destruct (IH _ H e He) as [H'|(s0 & H1 & H2)]; [left; now right|].
      cbn [fst snd] in H1. destruct (addParam_In _ _ _ _ _ H1 e H2) as [[-> ->]|H3].
      + left. now left.
      + right. auto. }
  intros H e He. destruct (G l [] H e He) as [?|(s0 & [] & _)]; auto.
Qed.

Lemma initial_good whole : good (initial p whole).
Proof.
  unfold initial. apply good_app; [|apply good_app; [apply plainDims_good|apply good_app]].
  - apply good_flat_map. intros i _. destruct (targets p i); [|rewrite good_set; intros s []].
    destruct (nth_error (ops p) i); [|rewrite good_set; intros s []].
    apply good_flat_map. intros v _. apply buildValue_good.
  - destruct whole; [apply plainDims_good|rewrite good_set; intros s []].
  - rewrite good_set. intros s Hs. apply paramSets_In in Hs as (q & Hq).
    destruct HR as (_ & _ & _ & f & HA & HRt).
    assert (HV : forall e, In e s -> isDyn p (fst e) (snd e) /\ val p r e = f q).
    { intros e He. specialize (Hq e He).
      assert (HX : isDyn p (fst e) (snd e) /\ at_ (shp r (fst e)) (snd e) = f q).
      { apply in_app_iff in Hq as [Hq|Hq].
        - apply paramDims_In in Hq as (i & H1 & H2 & H3). split; auto. eapply HA; eauto.
        - destruct whole; [|destruct Hq]. apply paramDims_In in Hq as (i & H1 & H2 & H3). split; auto. eapply HRt; eauto. }
      destruct HX as [H1 H2]. split; auto. destruct e as [v a]. cbn [fst snd] in *. now rewrite (val_dyn v a H1). }
    split.
    + intros d1 d2 H1 H2. destruct (HV d1 H1) as [_ ->]. destruct (HV d2 H2) as [_ ->]. auto.
    + intros d Hd. destruct (HV d Hd) as [H _]. destruct d as [v a]. apply dyn_ok. exact H.
Qed.

(* ---------- relations ---------- *)
Definition relOk (q : rel) : Prop :=
  okDim p (rtgt q) /\ (okDim p (rkey q) -> val p r (rkey q) + roff q = val p r (rtgt q)).

Hypothesis HS : OffsetSafe p r.

Lemma constOf_spec v s : constOf p v = Some s -> constScalar p v s /\ isConstant p v /\
  (forall c, dat r v = [c] -> s <> None -> s = Some c).
Proof.
  unfold constOf. destruct (defKind p v) as [[]|] eqn:E; try discriminate.
  intros H. injection H as ->. apply defKind_Some in E as (o & _ & K & Ho & Hv).
  split; [exists o, vals; auto|]. split; [exists o, vals, s; auto|].
  pose proof (opR o Ho) as HOp. unfold opRuns in HOp. rewrite K in HOp.
  destruct (outs o) as [|y [|]]; try contradiction. destruct Hv as [->|[]].
  destruct HOp as [H1 H2]. intros c Hc Hn. apply (H2 c []); congruence.
Qed.

Lemma offGeneral_sound ss o d q : good ss -> In o (ops p) -> In (fst d) (outs o) -> okDim p d ->
  In q (offGeneral p ss o d) -> relOk q.
Proof.
  intros [HU HA] Ho Hv Hok H. unfold offGeneral in H. apply in_flat_map in H as (v & Hv' & H).
  apply in_flat_map in H as (i & Hi & H).
  destruct (sameDim p ss v (Z.of_nat i) (fst d) (Z.of_nat (snd d))) eqn:ES; [|destruct H].
  destruct H as [<-|[]]. unfold relOk. unfold rkey, roff, rtgt. cbn [fst snd]. split; auto. intros Hk.
  destruct (sameDim_sound _ _ _ _ _ HU ES) as (a1 & a2 & B1 & B2 & EE).
  apply inBound_nat_inv in B1 as [-> L1]. apply inBound_nat_inv in B2 as [-> L2].
  apply given_In in Hv'. rewrite Z.add_0_r.
  pose proof (defOp_unique _ _ _ HT Ho Hv) as ED.
  pose proof Hok as Hok'. unfold okDim, defKind in Hok'. rewrite ED in Hok'. cbn [option_map] in Hok'.
  destruct d as [y a]. cbn [fst snd] in *.
  (* an unknown dimension *)
  assert (Dyn : isDyn p y a -> val p r (v, i) = val p r (y, a)).
  { intros Hd. rewrite (val_dyn y a Hd).
    unfold sameDim in ES. rewrite !inBound_nat in ES by auto.
    destruct (dimEq (v, i) (y, a)) eqn:EQ; [apply dimEq_true in EQ; injection EQ as -> ->; now apply val_dyn|].
    unfold isDyn in Hd. rewrite Hd in ES.
    destruct (nth_error (tdims (types p v)) i) as [[|]|] eqn:E1; try discriminate.
    rewrite (val_dyn v i E1). auto. }
  destruct (okind o) eqn:K; auto.
  - destruct Hok'.
  - (* Dim *)
    destruct (dim_shape o _ Ho K) as (x & y' & E1 & E2 & One & Hdx & Hdat). rewrite E2 in Hv. destruct Hv as [->|[]].
    rewrite E1 in Hv'. destruct Hv' as [Ex|[]]. injection Ex as ->.
    assert (Ea : a = 0%nat) by (unfold rankOf in L2; rewrite One in L2; cbn in L2; lia). subst axis. subst a.
    exfalso. specialize (HS o Ho). rewrite K, E1, E2 in HS.
    assert (Unit : nth_error (tdims (types p v)) i = Some (Some 1)).
    { unfold sameDim in ES. rewrite !inBound_nat in ES by auto.
      destruct (dimEq (v, i) (y, 0%nat)) eqn:EQ.
      - apply dimEq_true in EQ. injection EQ as -> ->. unfold isDyn in Hdx. rewrite One in Hdx. discriminate.
      - rewrite One in ES. cbn in ES. destruct (nth_error (tdims (types p v)) i) as [[z|]|]; try discriminate.
        apply Z.eqb_eq in ES. congruence. }
    destruct HS as [(oc & Hoc & Hvc & Hkc)|HN]; [|exact (HN i Unit)].
    unfold okDim, defKind in Hk. cbn [fst snd] in Hk. rewrite (defOp_unique _ _ _ HT Hoc Hvc) in Hk. cbn [option_map] in Hk.
    assert (ND : ~ isDyn p v i) by (unfold isDyn; congruence).
    destruct (okind oc) eqn:Kc; try (apply ND; exact Hk); try contradiction; try congruence.
    destruct (dim_shape oc _ Hoc Kc) as (x1 & y1 & F1 & F2 & One1 & _). rewrite F2 in Hvc. destruct Hvc as [->|[]].
    unfold isDyn in Hdx. rewrite One1 in Hdx. discriminate.
  - (* Cast *)
    destruct (cast_shape o Ho K) as (x & y' & E1 & E2 & ET & Es & Edat). rewrite E2 in Hv. destruct Hv as [->|[]].
    rewrite E1 in Hv'. destruct Hv' as [Ex|[]]. injection Ex as ->.
    unfold val. cbn [fst snd]. replace (oneB p y) with (oneB p v) by (unfold oneB; now rewrite ET).
    rewrite Edat. destruct (oneB p v); auto.
Qed.

Lemma concatSizes_spec axis l : forall dyn total v total',
  concatSizes p axis l dyn total = Some (Some v, total') ->
  match dyn with
  | Some w => v = w /\ total' = total + sumZ (map (fun x => at_ (shp r x) axis) l)
  | None => In v l /\ isDyn p v axis /\
      total' + at_ (shp r v) axis = total + sumZ (map (fun x => at_ (shp r x) axis) l)
  end.
Proof.
  induction l as [|x l IH]; intros dyn total v total' H; cbn [concatSizes] in H.
  - injection H as -> ->. cbn [map]. change (sumZ []) with 0. split; auto. lia.
  - cbn [map]. change (sumZ (at_ (shp r x) axis :: map (fun x => at_ (shp r x) axis) l))
      with (at_ (shp r x) axis + sumZ (map (fun x => at_ (shp r x) axis) l)).
    destruct (nth_error (tdims (types p x)) axis) as [[n|]|] eqn:E; [| |discriminate].
    + apply types_at in E as [E|E]; [discriminate|]. injection E as ->.
      apply IH in H. destruct dyn.
      * destruct H as [-> ->]. split; auto. lia.
      * destruct H as (H1 & H2 & H3). split; [now right|]. split; auto. lia.
    + destruct dyn as [w|]; [discriminate|]. apply IH in H as [-> ->].
      split; [now left|]. split; [exact E|]. lia.
Qed.

Lemma entryAt_spec l axis : forall cur e, (forall v, In v l -> length (shp r v) = 1%nat /\ tI64 (types p v) = true) ->
  entryAt p l cur axis = Ok (Some e) -> 0 <= cur <= Z.of_nat axis ->
  In e l /\ exists k, (k < length (dat r e))%nat /\
    nth_error (concat (map (dat r) l)) (axis - Z.to_nat cur) = nth_error (dat r e) k.
Proof.
  induction l as [|v l IH]; intros cur e HL H Hc; cbn [entryAt] in H; [discriminate|].
  apply bind_Ok in H as (n & Hn & H). unfold numElements in Hn.
  destruct (length (dynAxes (tdims (types p v))) =? 0)%nat eqn:E; [|discriminate]. injection Hn as <-.
  apply Nat.eqb_eq in E.
  destruct (HL v) as [L1 I1]; [now left|].
  assert (SZ : staticSize (tdims (types p v)) = Z.of_nat (length (dat r v))).
  { destruct HR as (HF & HD & _). rewrite (HD v L1 I1). pose proof (prod_split _ _ (HF v)) as HP.
    destruct (dynAxes (tdims (types p v))); [|discriminate]. cbn [map] in HP.
    destruct (shp r v) as [|z [|]]; cbn in L1; try lia. unfold prodZ in HP. cbn in HP. unfold at_. cbn [nth]. lia. }
  rewrite SZ in H. cbn [map concat].
  destruct ((cur <=? Z.of_nat axis) && (Z.of_nat axis <? cur + Z.of_nat (length (dat r v)))) eqn:E2.
  - injection H as ->. apply andb_true_iff in E2 as [_ E2]. apply Z.ltb_lt in E2. split; [now left|].
    exists (axis - Z.to_nat cur)%nat. split; [lia|]. rewrite nth_error_app1 by lia. reflexivity.
  - apply andb_false_iff in E2 as [E2|E2]; [apply Z.leb_gt in E2; lia|]. apply Z.ltb_ge in E2.
    apply IH in H; [|intros; apply HL; now right|lia]. destruct H as (H1 & k & H2 & H3).
    split; [now right|]. exists k. split; auto. rewrite <- H3. rewrite nth_error_app2 by lia.
    f_equal. lia.
Qed.

Lemma dimSource_spec v x a : dimSource p v = Some (x, a) -> isDyn p x a /\ dat r v = [at_ (shp r x) a].
Proof.
  unfold dimSource. intros H.
  assert (HD : forall w, match defOp p w with
      | Some {| okind := KDim a0; ins := Some x0 :: _ |} => Some (x0, a0) | _ => None end = Some (x, a) ->
      isDyn p x a /\ dat r w = [at_ (shp r x) a]).
  { intros w Hw. destruct (defOp p w) as [[k li lo h]|] eqn:E; [|discriminate].
    destruct k; try discriminate. destruct li as [|[x0|] rest] eqn:EL; try discriminate. injection Hw as -> ->.
    destruct (defOp_In _ _ _ E) as [Ho Hv].
    destruct (dim_shape _ a Ho eq_refl) as (x1 & y1 & E1 & E2 & _ & D & Dat). cbn [ins outs] in *.
    injection E1 as -> ->. rewrite E2 in Hv. destruct Hv as [->|[]]. auto. }
  apply HD in H as [H1 H2]. split; auto. rewrite <- H2. unfold throughSqueeze.
  destruct (defOp p v) as [[k li lo h]|] eqn:E; auto. destruct k; auto. destruct li as [|[x0|] rest]; auto.
  destruct (defOp_In _ _ _ E) as [Ho Hv]. pose proof (opR _ Ho) as HOp. unfold opRuns in HOp. cbn [okind ins outs] in *.
  destruct lo as [|y [|]]; try contradiction. destruct Hv as [->|[]]. auto.
Qed.

Lemma visitOffsets_sound ss d res q : good ss -> okDim p d -> visitOffsets p ss d = Ok res -> In q res -> relOk q.
Proof.
  intros HG Hok H Hin. unfold visitOffsets in H.
  destruct (defOp p (fst d)) as [o|] eqn:ED; [|injection H as <-; destruct Hin].
  destruct (defOp_In _ _ _ ED) as [Ho Hv].
  pose proof Hok as Hok'. unfold okDim, defKind in Hok'. rewrite ED in Hok'. cbn [option_map] in Hok'.
  assert (Gen : Ok (offGeneral p ss o d) = Ok res -> relOk q).
  { intros E. injection E as <-. eapply offGeneral_sound; eauto. }
  pose proof (opR o Ho) as HOp. unfold opRuns in HOp. pose proof (HS o Ho) as HSo.
  destruct HT as (_ & _ & HW). specialize (HW o Ho).
  destruct d as [y a]. cbn [fst snd] in *.
  destruct (okind o) eqn:K; auto.
  - destruct Hok'.
  - (* Concat *)
    destruct (outs o) as [|y' [|]]; try contradiction. destruct Hv as [->|[]].
    destruct HOp as (Ha & Hall & Hsum & _). rewrite rank_len in H.
    destruct (Z.of_nat a =? normAxis axis (length (shp r y))) eqn:E; [|auto].
    apply Z.eqb_eq in E. injection H as <-. rewrite <- E, Nat2Z.id in Hsum.
    unfold offConcat in Hin. destruct (concatSizes p a (given (ins o)) None 0) as [[[v|] total]|] eqn:EC;
      try (destruct Hin; fail).
    destruct (0 <? total); [|destruct Hin]. destruct Hin as [<-|[]].
    apply concatSizes_spec in EC as (H1 & H2 & H3).
    unfold relOk, rkey, roff, rtgt. cbn [fst snd]. split; auto. intros _.
    rewrite (val_dyn v a H2), (val_dyn y a Hok'). rewrite Hsum. lia.
  - (* Add *)
    destruct (ins o) as [|[u|] [|[b|] [|]]] eqn:EI; try contradiction.
    destruct (outs o) as [|y' [|]]; try contradiction. destruct Hv as [->|[]].
    destruct HSo as (HS1 & _ & _). destruct (HS1 (ex_intro _ a Hok')) as [HSb HSa].
    assert (One : forall w c, (w = u /\ c = b) \/ (w = b /\ c = u) -> isConstant p c -> shp r w = shp r y -> ~ oneElem p w).
    { intros w c Hwc (oc & vals & s & Hoc & Hvc & Kc) Esh One.
      assert (NB : nth_error (rev (tdims (types p c))) 0 <> Some None).
      { intros Hn. destruct HT as (_ & _ & HWc). specialize (HWc oc Hoc). rewrite Kc in HWc.
        pose proof (opR oc Hoc) as HC. unfold opRuns in HC. rewrite Kc in HC.
        destruct (outs oc) as [|y2 [|]]; try contradiction. destruct Hvc as [->|[]].
        assert (HIn : In None (tdims (types p c))) by (apply in_rev; eapply nth_error_In; eauto).
        apply In_nth_error in HIn as (k & Hk). exact (HWc k Hk). }
      assert (NY : nth_error (rev (tdims (types p y))) 0 <> Some None).
      { destruct Hwc as [[-> ->]|[-> ->]].
        - eapply (HW 0%nat 1%nat); [reflexivity|reflexivity|discriminate|exact One|exact NB].
        - eapply (HW 1%nat 0%nat); [reflexivity|reflexivity|discriminate|exact One|exact NB]. }
      apply NY. apply (last_dyn y a Hok').
      pose proof (len_pos_dyn y a Hok').
      assert (length (shp r w) = 1%nat) by (rewrite <- rank_len; unfold rankOf; rewrite One; reflexivity).
      rewrite Esh in *. lia. }
    unfold offAdd in H. destruct (constOf p b) as [s|] eqn:Eb.
    + destruct (constOf_spec b s Eb) as (C1 & C2 & _). destruct (HSb s C1) as [-> Esh]. cbn in H. injection H as <-.
      destruct Hin as [<-|[]]. unfold relOk, rkey, roff, rtgt. cbn [fst snd]. split; auto. intros _.
      rewrite val_not_one by (eapply One; eauto). rewrite (val_dyn y a Hok'), Esh. lia.
    + destruct (constOf p u) as [s|] eqn:Eu; [|auto].
      destruct (constOf_spec u s Eu) as (C1 & C2 & _). destruct (HSa s C1) as [-> Esh]. cbn in H. injection H as <-.
      destruct Hin as [<-|[]]. unfold relOk, rkey, roff, rtgt. cbn [fst snd]. split; auto. intros _.
      rewrite val_not_one by (eapply One; eauto). rewrite (val_dyn y a Hok'), Esh. lia.
  - (* Expand *)
    destruct (ins o) as [|[x|] [|[s|] [|]]] eqn:EI; try contradiction.
    destruct (outs o) as [|y' [|]]; try contradiction. destruct Hv as [->|[]].
    destruct HOp as [Ls _]. destruct HO as (_ & _ & HX). specialize (HX o Ho). rewrite K, EI in HX.
    assert (EO : outs o = [y]).
    { pose proof (opR o Ho) as HC. unfold opRuns in HC. rewrite K, EI in HC.
      destruct (defOp_In _ _ _ ED) as [_ Hv]. destruct (outs o) as [|y2 [|]]; try contradiction.
      destruct Hv as [->|[]]. reflexivity. }
    rewrite EO in HX. unfold offExpand in H.
    destruct (defOp p s) as [[k li lo h]|] eqn:Es; [|injection H as <-; destruct Hin].
    destruct k; try (injection H as <-; destruct Hin; fail).
    apply bind_Ok in H as (found & Hf & H). destruct found as [e|]; [|injection H as <-; destruct Hin].
    destruct (defOp_In _ _ _ Es) as [Hos Hvs]. pose proof (opR _ Hos) as HOs. unfold opRuns in HOs. cbn [okind ins outs] in *.
    destruct lo as [|s' [|]]; try contradiction. destruct Hvs as [->|[]].
    destruct HOs as (_ & Hall & _ & HD). specialize (HD Ls).
    assert (HLs : forall v, In v (given li) -> length (shp r v) = 1%nat /\ tI64 (types p v) = true).
    { intros v Hv. apply given_In in Hv. destruct (Hall v Hv) as [L _]. split; [congruence|].
      destruct HT as (_ & _ & HWs). specialize (HWs _ Hos). cbn [okind ins outs] in HWs. rewrite (HWs v Hv). exact HW. }
    apply entryAt_spec in Hf; [|exact HLs|lia]. destruct Hf as (He & k & Hk & Hn).
    change (Z.to_nat 0) with 0%nat in Hn. rewrite Nat.sub_0_r, <- HD, <- HX in Hn.
    set (so := match defOp p e with
                    | Some {| okind := KReshape _; ins := Some x :: _ |} => defOp p x
                    | o => o
                    end) in *.
    assert (HSO : forall oo, so = Some oo -> In oo (ops p) /\ exists z, In z (outs oo) /\ dat r e = dat r z).
    { intros oo. unfold so. destruct (defOp p e) as [oe|] eqn:Ee; [|discriminate].
      destruct (defOp_In _ _ _ Ee) as [Hoe Hve].
      assert (Plain : Some oe = Some oo -> In oo (ops p) /\ exists z, In z (outs oo) /\ dat r e = dat r z).
      { intros E. injection E as <-. split; auto. exists e. auto. }
      destruct oe as [ke lie loe he]. destruct ke; auto. destruct lie as [|[xe|] rest]; auto.
      intros E. destruct (defOp_In _ _ _ E) as [Hoo Hvo]. split; auto. exists xe. split; auto.
      pose proof (opR _ Hoe) as HOe. unfold opRuns in HOe. cbn [okind ins outs] in *.
      destruct rest as [|[s2|] [|]]; try contradiction. destruct loe as [|y2 [|]]; try contradiction.
      destruct Hve as [->|[]]. tauto. }
    destruct so as [oo|] eqn:Eso; [|injection H as <-; destruct Hin].
    destruct (HSO oo eq_refl) as (Hoo & z & Hz & Ez). clear HSO.
    destruct oo as [ko lio loo ho]. destruct ko; try (injection H as <-; destruct Hin; fail).
    destruct lio as [|[u|] [|[b|] [|]]]; try (injection H as <-; destruct Hin; fail).
    pose proof (opR _ Hoo) as HOo. unfold opRuns in HOo. cbn [okind ins outs] in *.
    destruct loo as [|z' [|]]; try contradiction. destruct Hz as [->|[]].
    destruct HOo as [_ HAdd]. pose proof (HS _ Hoo) as HSA. cbn [okind ins outs] in HSA.
    destruct HSA as (_ & HSb & HSa).
    assert (Fin : forall sd c, val p r sd + c = at_ (shp r y) a -> q = (sd, c, (y, a)) -> relOk q).
    { intros sd c E ->. unfold relOk, rkey, roff, rtgt. cbn [fst snd]. split; auto. intros _.
      rewrite (val_dyn y a Hok'). exact E. }
    assert (At : forall w, dat r z = [w] -> at_ (shp r y) a = w).
    { intros w Hw. rewrite Ez, Hw in *. cbn in Hk. assert (k = 0%nat) by lia. subst k. cbn in Hn.
      unfold at_. erewrite nth_error_nth; eauto. }
    destruct (constOf p b) as [sc|] eqn:Eb.
    + destruct (constOf_spec b sc Eb) as (C1 & C2 & C3). destruct sc as [c|]; [|discriminate].
      cbn in H. injection H as <-. destruct (dimSource p u) as [[x1 a1]|] eqn:EDS; [|destruct Hin].
      destruct Hin as [<-|[]]. destruct (dimSource_spec _ _ _ EDS) as [D1 D2].
      destruct (HSb _ C2 D2) as (c' & Hc'). specialize (C3 c' Hc' ltac:(discriminate)). injection C3 as <-.
      eapply Fin; [|reflexivity]. rewrite (val_dyn x1 a1 D1). symmetry. apply At. apply HAdd; auto.
    + destruct (constOf p u) as [sc|] eqn:Eu; [|injection H as <-; destruct Hin].
      destruct (constOf_spec u sc Eu) as (C1 & C2 & C3). destruct sc as [c|]; [|discriminate].
      cbn in H. injection H as <-. destruct (dimSource p b) as [[x1 a1]|] eqn:EDS; [|destruct Hin].
      destruct Hin as [<-|[]]. destruct (dimSource_spec _ _ _ EDS) as [D1 D2].
      destruct (HSa _ C2 D2) as (c' & Hc'). specialize (C3 c' Hc' ltac:(discriminate)). injection C3 as <-.
      eapply Fin; [|reflexivity]. rewrite (val_dyn x1 a1 D1). symmetry. apply At.
      rewrite Z.add_comm. apply HAdd; auto.
Qed.
(* ---------- propagation ---------- *)
Definition goodRels (rs : list rel) : Prop := forall q, In q rs -> relOk q.

Lemma relsOf_In rs d q : In q (relsOf rs d) -> In q rs /\ rkey q = d.
Proof. unfold relsOf. rewrite filter_In. intros [H1 H2]. apply dimEq_true in H2. auto. Qed.

Lemma firstTargets_In rs : forall acc off t, In (off, t) (firstTargets rs acc) ->
  In (off, t) acc \/ exists q, In q rs /\ roff q = off /\ rtgt q = t.
Proof.
  induction rs as [|q rs IH]; intros acc off t H; cbn [firstTargets] in H; [auto|].
  destruct (existsb (fun q0 => fst q0 =? roff q) acc).
  - destruct (IH _ _ _ H) as [?|(q' & H1 & H2)]; auto. right. exists q'. cbn. tauto.
  - destruct (IH _ _ _ H) as [H'|(q' & H1 & H2)].
    + apply in_app_iff in H' as [H'|[H'|[]]]; auto. injection H' as <- <-. right. exists q. cbn. auto.
    + right. exists q'. cbn. tauto.
Qed.

Lemma shareInSet_good rs s : (forall d1 d2, In d1 s -> In d2 s -> val p r d1 = val p r d2) ->
  (forall d, In d s -> okDim p d) -> goodRels rs -> goodRels (shareInSet rs s).
Proof.
  intros HU HA HG q Hq. unfold shareInSet in Hq. apply in_app_iff in Hq as [Hq|Hq]; auto.
  apply in_flat_map in Hq as (d & Hd & Hq). destruct (relsOf rs d); [|destruct Hq].
  apply in_map_iff in Hq as ([off t] & <- & Hq). cbn [fst snd].
  apply firstTargets_In in Hq as [[]|(q' & H1 & <- & <-)].
  apply in_flat_map in H1 as (e & He & H1). apply relsOf_In in H1 as [H1 H2].
  destruct (HG q' H1) as [G1 G2]. unfold relOk. change (rtgt (d, roff q', rtgt q')) with (rtgt q').
  change (rkey (d, roff q', rtgt q')) with d. change (roff (d, roff q', rtgt q')) with (roff q').
  split; auto. intros _. rewrite <- G2 by (rewrite H2; auto). rewrite H2, (HU d e); auto.
Qed.

Lemma share_good ss : good ss -> forall rs, goodRels rs -> goodRels (share rs ss).
Proof.
  unfold share. induction ss as [|s ss IH]; intros HG rs HR'; cbn [fold_left]; [auto|].
  rewrite good_set in HG. apply IH.
  - rewrite good_set. intros s' Hs'. apply HG. now right.
  - destruct (HG s) as [H1 H2]; [now left|]. apply shareInSet_good; auto.
Qed.

Lemma newEqualities_good ss rs s a b : good ss -> In s ss -> goodRels rs ->
  In (a, b) (newEqualities p ss rs s) -> okDim p a /\ okDim p b /\ val p r a = val p r b.
Proof.
  intros HG Hs HR' H. rewrite good_set in HG. destruct (HG s Hs) as [HU HA].
  unfold newEqualities in H. destruct (length s <? 2)%nat; [destruct H|].
  apply in_flat_map in H as (off & _ & H).
  destruct (map rtgt (filter (fun q => roff q =? off) (flat_map (relsOf rs) s))) as [|t0 ts] eqn:EM; [destruct H|].
  apply in_flat_map in H as (t & Ht & H).
  destruct (sameDim p ss (fst t0) (Z.of_nat (snd t0)) (fst t) (Z.of_nat (snd t))); [destruct H|].
  destruct H as [H|[]]. injection H as <- <-.
  assert (HT' : forall u, In u (t0 :: ts) -> okDim p u /\ exists d, In d s /\ val p r d + off = val p r u).
  { intros u Hu. rewrite <- EM in Hu. apply in_map_iff in Hu as (q & <- & Hq).
    apply filter_In in Hq as [Hq Ho]. apply Z.eqb_eq in Ho. apply in_flat_map in Hq as (d & Hd & Hq).
    apply relsOf_In in Hq as [Hq Hk]. destruct (HR' q Hq) as [G1 G2]. split; auto.
    exists d. split; auto. rewrite <- G2 by (rewrite Hk; auto). rewrite Hk, Ho. reflexivity. }
  destruct (HT' t0) as (A1 & d1 & D1 & V1); [now left|]. destruct (HT' t) as (A2 & d2 & D2 & V2); [now right|].
  split; auto. split; auto. rewrite <- V1, <- V2, (HU d1 d2); auto.
Qed.

Lemma propagate_good fuel : forall st st', good (sSets st) -> goodRels (sRels st) ->
  propagate fuel p st = Ok st' -> good (sSets st') /\ goodRels (sRels st').
Proof.
  induction fuel as [|f IH]; intros st st' HG HR' H; [discriminate|]. cbn [propagate] in H.
  set (rs := share (sRels st) (sSets st)) in *.
  assert (HRs : goodRels rs) by (apply share_good; auto).
  destruct (negb (length rs =? length (sRels st))%nat ||
    negb (length (flat_map (newEqualities p (sSets st) rs) (sSets st)) =? 0)%nat).
  - eapply IH; [| |exact H]; cbn [sSets sRels]; auto.
    apply mergeLoop_good, good_app; auto.
    rewrite good_set. intros s Hs. apply in_map_iff in Hs as ([a b] & <- & He). cbn [fst snd].
    apply in_flat_map in He as (s0 & Hs0 & He).
    destruct (newEqualities_good _ _ _ _ _ HG Hs0 HRs He) as (A & B & V).
    assert (HV : forall d, In d (insert [a] b) -> okDim p d /\ val p r d = val p r a).
    { intros d Hd. apply insert_In in Hd as [[<-|[]]| ->]; auto. }
    split; [|intros d Hd; apply HV; auto].
    intros d1 d2 H1 H2. destruct (HV d1 H1) as [_ ->]. destruct (HV d2 H2) as [_ ->]. reflexivity.
  - injection H as <-. cbn. auto.
Qed.

Lemma analyze_good fuel whole st : analyze fuel p whole = Ok st -> good (sSets st) /\ goodRels (sRels st).
Proof.
  intros H. unfold analyze in H. apply bind_Ok in H as (ss & Hc & H). apply bind_Ok in H as (rs & Hr & H).
  assert (HG : good ss) by (eapply classify_good; eauto; apply initial_good).
  eapply propagate_good; [| |exact H]; cbn; auto.
  intros q Hq. destruct (collect_In _ _ _ Hr q Hq) as (d & ys & Hd & Hv & Hy).
  apply in_concat in Hd as (s & Hs & Hd). eapply visitOffsets_sound; eauto.
  destruct HG as [_ HA]. eapply HA; eauto.
Qed.

(* ---------- the visits do not fail ---------- *)
Lemma fromShapeInput_ok o y a : In o (ops p) -> In y (outs o) -> isDyn p y a ->
  exists l, fromShapeInput p o (y, a) = Ok l.
Proof.
  intros Ho Hy Hd. unfold fromShapeInput.
  destruct (shapeInput p o (y, a)) as [[s i]|] eqn:ES; [|eauto].
  destruct (areDimsFromConcat p s) as [l|] eqn:EA; [|eauto].
  destruct (nth_error l i) as [v|] eqn:EN; [eauto|]. exfalso.
  unfold areDimsFromConcat in EA. destruct (defKind p s) as [[]|] eqn:EK; try discriminate.
  destruct (dimsOf_sound _ _ _ EA) as (D1 & _ & _).
  apply nth_error_None in EN. assert (LD : length (dat r s) = length l) by (rewrite D1; apply map_length).
  pose proof (len_pos_dyn y a Hd) as La.
  pose proof (opR o Ho) as HOp. destruct HO as (_ & _ & HX). specialize (HX o Ho).
  unfold shapeInput in ES. unfold opRuns in HOp. cbn [fst snd] in ES.
  destruct (okind o) eqn:K; try discriminate.
  - destruct (ins o) as [|[x|] [|[s'|] [|]]]; try discriminate.
    destruct (outs o) as [|y' [|]]; try contradiction. destruct Hy as [->|[]].
    injection ES as <- <-. rewrite HX in La. lia.
  - destruct (ins o) as [|[x|] [|[s'|] [|]]]; try discriminate.
    destruct (outs o) as [|y' [|]]; try contradiction. destruct Hy as [->|[]].
    destruct (allowzero =? 0); [|discriminate]. injection ES as <- <-. destruct HOp. lia.
  - destruct (ins o) as [|[x|] [|[s'|] [|]]]; try discriminate.
    destruct (outs o) as [|y' [|]]; try contradiction. destruct Hy as [->|[]].
    destruct (nth_error (tdims (types p x)) a) as [[z|]|]; try discriminate.
    assert ((s', a) = (s, i)) as HS' by (destruct z as [|q|]; try discriminate; destruct q; try discriminate; congruence).
    injection HS' as <- <-. destruct HOp as (L1 & L2 & _). lia.
  - destruct (ins o) as [|[s'|] [|]]; try discriminate.
    destruct (outs o) as [|y' [|]]; try contradiction. destruct Hy as [->|[]].
    injection ES as <- <-. rewrite HOp in La. lia.
  - destruct (ins o) as [|[x|] [|[s'|] [|]]]; try discriminate.
    destruct (outs o) as [|y' [|]]; try contradiction. destruct Hy as [->|[]].
    destruct HOp as [L HC].
    assert (HF : forall l0 k j, findAxis l0 (rankOf p y) a k = Some j -> (k <= j < k + length l0)%nat).
    { clear. induction l0 as [|z l0 IH]; intros k j H; cbn in H; [discriminate|].
      assert (G : findAxis l0 (rankOf p y) a (S k) = Some j -> (k <= j < k + length (z :: l0))%nat).
      { intros HG. apply IH in HG. cbn. lia. }
      destruct (inBound z (rankOf p y)) as [b|]; [|auto].
      destruct (Nat.eqb b a); [|auto]. injection H as <-. cbn. lia. }
    destruct (findAxis _ (rankOf p y) a 0) as [j|] eqn:EF; [|discriminate].
    cbn in ES. injection ES as <- <-. apply HF in EF.
    destruct axes as [ax|]; [destruct HC; lia|]. rewrite map_length, seq_length, rank_len, HC in EF. lia.
  - destruct (ins o) as [|i1 [|i2 [|[s'|] [|]]]]; try discriminate.
    destruct i1; try contradiction. destruct i2; try contradiction.
    destruct (outs o) as [|y' [|]]; try contradiction. destruct Hy as [->|[]].
    injection ES as <- <-. rewrite (HOp s' eq_refl) in La. lia.
Qed.

Lemma visitDim_ok ss d : okDim p d -> exists l, visitDim p ss d = Ok l.
Proof.
  intros Hok. unfold visitDim. unfold okDim, defKind in Hok.
  destruct (defOp p (fst d)) as [o|] eqn:ED; [|eauto]. cbn [option_map] in Hok.
  destruct (defOp_In _ _ _ ED) as [Ho Hv].
  destruct (okind o) eqn:K;
    try (pose proof Hok as Hb; apply dynDim_true in Hb; rewrite Hb; cbn [negb];
         destruct d as [y a]; cbn [fst snd] in *;
         destruct (fromShapeInput_ok o y a Ho Hv Hok) as (l & ->); cbn [bind]; eauto; fail).
  - eauto.
  - destruct (ins o) as [|[x|] ?]; eauto.
  - destruct (ins o) as [|[x|] ?]; eauto.
Qed.

Lemma collect_ok {A B} (f : A -> outcome (list B)) l : (forall a, In a l -> exists b, f a = Ok b) ->
  exists res, collect f l = Ok res.
Proof.
  induction l as [|a l IH]; intros H; cbn; [eauto|].
  destruct (H a) as (b & ->); [now left|]. destruct IH as (c & ->); [intros; apply H; now right|]. cbn. eauto.
Qed.

Lemma updateFrom_ok todo : forall done, good (done ++ todo) -> exists res, updateFrom p done todo = Ok res.
Proof.
  induction todo as [|s todo IH]; intros done HG; cbn [updateFrom]; [eauto|].
  destruct (collect_ok (visitDim p (done ++ s :: todo)) s) as (new & Hnew).
  { intros d Hd. apply visitDim_ok. destruct HG as [_ HA]. eapply HA; [|exact Hd]. apply in_app_iff. right. now left. }
  rewrite Hnew. cbn [bind].
  assert (HG' : good ((done ++ [fold_left insert new s]) ++ todo)).
  { rewrite <- app_assoc. cbn [app].
    pose proof HG as [HU HA]. rewrite good_set in HG |- *. intros s0 Hs0.
    apply in_app_iff in Hs0 as [Hs0|[<-|Hs0]].
    + apply HG, in_app_iff. auto.
    + assert (Hs : In s (done ++ s :: todo)) by (apply in_app_iff; right; now left).
      assert (HV : forall d', In d' (fold_left insert new s) -> okDim p d' /\ exists d, In d s /\ val p r d' = val p r d).
      { intros d' Hd'. apply fold_insert_In in Hd' as [Hd'|Hd']; [split; [eapply HA; eauto|eauto]|].
        destruct (collect_In _ _ _ Hnew d' Hd') as (d & ys & Hd & Hv & Hy).
        destruct (visitDim_sound _ _ _ _ HU (HA _ _ Hs Hd) Hv Hy). split; eauto. }
      split.
      * intros d1 d2 H1 H2. destruct (HV d1 H1) as (_ & e1 & E1 & V1). destruct (HV d2 H2) as (_ & e2 & E2 & V2).
        rewrite V1, V2. eapply HU; eauto.
      * intros d Hd. apply HV. auto.
    + apply HG, in_app_iff. right. now right. }
  destruct (IH _ HG') as (res & ->). cbn [bind]. eauto.
Qed.

End Run.

(* ---------- the classification ends ---------- *)
Section Ends.
Variable p : prog.

Definition allVals : list nat :=
  args p ++ rets p ++ flat_map (fun o => given (ins o) ++ outs o) (ops p).
Definition maxRank : nat := list_max (map (rankOf p) allVals).
Definition maxAxis : nat := list_max (map (fun o => match okind o with KDim a => a | _ => O end) (ops p)).
Definition maxShape : nat :=
  list_max (map (fun v => match areDimsFromConcat p v with Some l => length l | None => O end) allVals).
Definition bound : nat := (3 + 2 * maxRank + maxAxis + maxShape)%nat.
Definition universe : list dim := list_prod allVals (seq 0 bound).

Lemma universe_In v a : In (v, a) universe <-> In v allVals /\ (a < bound)%nat.
Proof. unfold universe. rewrite in_prod_iff, in_seq. intuition lia. Qed.

Lemma list_max_In l x : In x l -> (x <= list_max l)%nat.
Proof.
  intros H. assert (HF := proj1 (list_max_le l (list_max l)) (le_n _)).
  rewrite Forall_forall in HF. auto.
Qed.

Lemma rank_max v : In v allVals -> (rankOf p v <= maxRank)%nat.
Proof. intros H. apply list_max_In, in_map_iff. eauto. Qed.

Lemma axis_max o a : In o (ops p) -> okind o = KDim a -> (a <= maxAxis)%nat.
Proof. intros H K. apply list_max_In, in_map_iff. exists o. rewrite K. auto. Qed.

Lemma val_in o v : In o (ops p) -> In v (given (ins o)) -> In v allVals.
Proof.
  intros Ho Hv. unfold allVals. rewrite !in_app_iff. right. right. apply in_flat_map. exists o.
  rewrite in_app_iff. auto.
Qed.

Lemma val_out o v : In o (ops p) -> In v (outs o) -> In v allVals.
Proof.
  intros Ho Hv. unfold allVals. rewrite !in_app_iff. right. right. apply in_flat_map. exists o.
  rewrite in_app_iff. auto.
Qed.

Lemma insertDim_U v a : In v allVals -> (a < bound)%nat -> incl (insertDim p v a) universe.
Proof.
  intros Hv Ha d Hd. unfold insertDim in Hd.
  assert (HU : In (v, a) universe) by (apply universe_In; auto).
  destruct (defKind p v) as [k|] eqn:E; [|destruct Hd as [<-|[]]; auto].
  assert (G : In d (if dynDim p v a then [(v, a)] else []) -> In d universe).
  { destruct (dynDim p v a); [intros [<-|[]]; auto|intros []]. }
  destruct k; auto.
  - destruct Hd.
  - destruct Hd as [<-|[]]. apply universe_In. split; auto.
    apply defKind_Some in E as (o & _ & K & Ho & _). pose proof (axis_max o _ Ho K). unfold bound. lia.
  - destruct Hd as [<-|[]]. auto.
Qed.

Lemma dimsOf_in fuel : forall v l w, dimsOf fuel p v = Some l -> In v allVals -> In w l -> In w allVals.
Proof.
  induction fuel as [|f IH]; intros v l w H Hv Hin; [discriminate|].
  cbn [dimsOf] in H. destruct (rankOf p v =? 1)%nat; [|discriminate].
  assert (B : (match tdims (types p v) with
        | [Some 1] => if tI64 (types p v) then Some [v] else None | _ => None end) = Some l -> In w allVals).
  { intros HB. apply one_match in HB as [_ HB].
    destruct (tI64 (types p v)); [|discriminate]. injection HB as <-. destruct Hin as [<-|[]]. auto. }
  destruct (defOp p v) as [[k li lo h]|] eqn:ED; [|auto]. destruct k; auto.
  clear B. destruct (defOp_In _ _ _ ED) as [Ho _].
  assert (HA : forall x, In x (given li) -> In x allVals) by (intros x Hx; eapply val_in; eauto).
  revert l H Hin. induction (given li) as [|x vs IHv]; intros l H Hin.
  - injection H as <-. destruct Hin.
  - destruct (dimsOf f p x) as [a|] eqn:Ea; [|discriminate].
    match type of H with match ?g with _ => _ end = _ => destruct g as [b|] eqn:Eb; [|discriminate] end.
    injection H as <-. apply in_app_iff in Hin as [Hin|Hin].
    + eapply IH; eauto. apply HA. now left.
    + eapply IHv; eauto. intros y Hy. apply HA. now right.
Qed.

Lemma incl_flat_map {A} (f : A -> list dim) l U : (forall a, In a l -> incl (f a) U) -> incl (flat_map f l) U.
Proof. intros H d Hd. apply in_flat_map in Hd as (a & Ha & Hd). eapply H; eauto. Qed.

Lemma incl_nil (U : list dim) : incl [] U.
Proof. intros d []. Qed.

Lemma fromConsumer_U d o : In o (ops p) -> In d universe -> incl (fromConsumer p d o) universe.
Proof.
  intros Ho Hd. destruct d as [u a]. apply universe_In in Hd as [Hu Ha]. unfold fromConsumer.
  assert (VI : forall v, In v (given (ins o)) -> In v allVals) by (intros; eapply val_in; eauto).
  destruct (okind o); try apply incl_nil.
  - destruct (given (ins o)) as [|v0 vs] eqn:EG; [apply incl_nil|].
    destruct (existsb (Nat.eqb (fst (u, a))) (v0 :: vs) && (snd (u, a) <? rankOf p v0)%nat); [|apply incl_nil].
    destruct (Z.of_nat (snd (u, a)) =? normAxis axis (rankOf p v0)); [apply incl_nil|].
    apply incl_flat_map. intros v Hv. destruct (Nat.eqb v (fst (u, a))); [apply incl_nil|]. apply insertDim_U; auto.
  - destruct (ins o) as [|[x|] [|[y|] rest]]; try apply incl_nil.
    assert (In x allVals) by (apply VI, given_In; now left). assert (In y allVals) by (apply VI, given_In; right; now left).
    cbn [fst snd].
    destruct (dimEq _ (u, a)); [apply insertDim_U; auto; unfold bound; destruct transB; lia|].
    destruct (dimEq _ (u, a)); [apply insertDim_U; auto; unfold bound; destruct transA; lia|apply incl_nil].
  - destruct (ins o) as [|[x|] [|sl [|h [|c rest]]]]; try apply incl_nil.
    match goal with |- incl (if contains ?l _ then _ else _) _ => set (batch := l) end.
    destruct (contains batch (u, a)); [|apply incl_nil]. apply incl_flat_map. intros e He.
    assert (In (fst e) allVals /\ (snd e < 2)%nat) as [E1 E2].
    { unfold batch in He. cbn [In] in He. rewrite !in_app_iff in He.
      assert (GB : ((if (layout =? 0)%Z then 1 else 0) < 2)%nat) by (destruct (layout =? 0)%Z; lia).
      destruct He as [<-|[He|[He|He]]]; cbn [fst snd].
      - split; auto. apply VI, given_In. now left.
      - destruct sl; [|destruct He]. destruct He as [<-|[]]. cbn. split; [|lia]. apply VI, given_In. cbn; auto.
      - destruct h; [|destruct He]. destruct He as [<-|[]]. cbn [fst snd]. split; auto. apply VI, given_In. cbn; auto.
      - destruct c; [|destruct He]. destruct He as [<-|[]]. cbn [fst snd]. split; auto. apply VI, given_In. cbn; auto. }
    apply insertDim_U; auto. unfold bound. lia.
  - destruct (ins o) as [|[x|] [|[y|] rest]]; try apply incl_nil.
    assert (Hx : In x allVals) by (apply VI, given_In; now left).
    assert (Hy : In y allVals) by (apply VI, given_In; right; now left).
    pose proof (rank_max _ Hx). pose proof (rank_max _ Hy).
    destruct ((2 <=? rankOf p x)%nat && (2 <=? rankOf p y)%nat); [|apply incl_nil]. cbn [fst snd].
    destruct (dimEq _ (u, a)); [apply insertDim_U; auto; unfold bound; lia|].
    destruct (dimEq _ (u, a)); [apply insertDim_U; auto; unfold bound; lia|apply incl_nil].
  - destruct (ins o) as [|[x|] [|[y|] rest]]; try apply incl_nil.
    assert (Hx : In x allVals) by (apply VI, given_In; now left).
    assert (Hy : In y allVals) by (apply VI, given_In; right; now left).
    pose proof (rank_max _ Hx). pose proof (rank_max _ Hy).
    destruct ((2 <=? rankOf p x)%nat && (2 <=? rankOf p y)%nat); [|apply incl_nil]. cbn [fst snd].
    destruct (dimEq _ (u, a)); [apply insertDim_U; auto; unfold bound; lia|].
    destruct (dimEq _ (u, a)); [apply insertDim_U; auto; unfold bound; lia|apply incl_nil].
Qed.

Lemma fromConsumers_U d us : In d universe -> incl (fromConsumers p d us) universe.
Proof.
  intros Hd. induction us as [|u us IH]; cbn; [apply incl_nil|].
  destruct (targets p u); [|apply incl_nil]. destruct (nth_error (ops p) u) as [o|] eqn:E; [|apply incl_nil].
  apply nth_error_In in E. apply incl_app; auto. apply fromConsumer_U; auto.
Qed.

Lemma fromPair_U ss axis a b : In a allVals -> incl (fromPair p ss axis a b) universe.
Proof.
  intros Ha. unfold fromPair.
  destruct (negb (rankOf p a =? 0)%nat && negb (rankOf p b =? 0)%nat); [|apply incl_nil].
  set (n := Z.of_nat axis - _). destruct (sameDim p ss a n b n) eqn:ES; [|apply incl_nil].
  apply insertDim_U; auto. unfold sameDim in ES.
  destruct (inBound n (rankOf p a)) as [a1|] eqn:E1; [|discriminate].
  apply inBound_spec in E1 as [E1 L1]. pose proof (rank_max _ Ha). unfold bound.
  unfold normAxis in E1. destruct (n <? 0) eqn:E; lia.
Qed.

Lemma pairUp_missing ss x y di dj : forall missing vis i vis', pairUp p ss x y di dj missing vis = (Some i, vis') ->
  missing = Some i \/ In i di.
Proof.
  induction di as [|j di IH]; intros missing vis i vis' H; cbn [pairUp] in H.
  - injection H as -> _. auto.
  - destruct (find _ dj).
    + destruct (IH _ _ _ _ H); auto. right. now right.
    + destruct (IH _ _ _ _ H) as [H'|H']; [|right; now right].
      destruct missing; [auto|]. injection H' as ->. right. now left.
Qed.

Lemma visitDim_U ss d res : In d universe -> visitDim p ss d = Ok res -> incl res universe.
Proof.
  intros Hd H. unfold visitDim in H. pose proof (fromConsumers_U d (users p (fst d)) Hd) as HC.
  destruct (defOp p (fst d)) as [o|] eqn:ED; [|injection H as <-; auto].
  destruct (defOp_In _ _ _ ED) as [Ho Hv].
  assert (VI : forall v, In v (given (ins o)) -> In v allVals) by (intros; eapply val_in; eauto).
  destruct d as [u a]. apply universe_In in Hd as [Hu Ha]. cbn [fst snd] in *.
  assert (Gen : forall k,
     bind (fromShapeInput p o (u, a)) (fun s =>
            let pairs :=
              match k with
              | KAdd | KBroadcast | KMatMul => fromPairs p ss a (given (ins o))
              | _ => []
              end in
            let rs :=
              match k, ins o with
              | KReshape az, Some x :: _ => fromReshape p ss az x u a
              | _, _ => []
              end in
            Ok (fromConsumers p (u, a) (users p u) ++ fromHelper p o (u, a) ++ s ++ pairs ++ rs)) = Ok res ->
     incl res universe).
  { intros k HB. apply bind_Ok in HB as (si & Hsi & HB). cbn zeta in HB. injection HB as <-.
    apply incl_app; [auto|]. apply incl_app; [|apply incl_app; [|apply incl_app]].
    - unfold fromHelper. destruct (indexOf _ _); [|apply incl_nil]. apply incl_flat_map. intros i Hi.
      destruct (nth_error (ins o) i) as [[w|]|] eqn:E; try apply incl_nil.
      assert (Hw : In w allVals) by (apply VI, given_In; eapply nth_error_In; eauto).
      apply incl_flat_map. intros b Hb. apply in_seq in Hb.
      destruct (helper o n (snd (u, a)) i b && dynDim p w b); [|apply incl_nil]. apply insertDim_U; auto.
      pose proof (rank_max _ Hw). unfold bound. lia.
    - unfold fromShapeInput in Hsi. destruct (shapeInput p o (u, a)) as [[s i]|] eqn:ESI; [|injection Hsi as <-; apply incl_nil].
      destruct (areDimsFromConcat p s) as [l|] eqn:EA; [|injection Hsi as <-; apply incl_nil].
      destruct (nth_error l i) as [v|] eqn:EN; [|discriminate]. injection Hsi as <-.
      assert (Hs : In s allVals).
      { unfold shapeInput in ESI. apply VI, given_In.
        destruct (okind o); try discriminate; destruct (ins o) as [|i1 [|i2 [|i3 [|]]]]; try discriminate;
        try (destruct i1; discriminate); try (destruct i1; [|discriminate]); try (destruct i2; [|discriminate]);
        try (destruct i3; [|discriminate]); try discriminate; cbn.
        - injection ESI as <- <-; auto.
        - destruct (allowzero =? 0); [|discriminate]. injection ESI as <- <-; auto.
        - destruct (nth_error (tdims (types p n)) (snd (u, a))) as [[z|]|]; try discriminate.
          destruct z as [|q|]; try discriminate. destruct q; try discriminate. injection ESI as <- <-; auto.
        - injection ESI as <- <-; auto.
        - destruct (findAxis _ _ _ _); [|discriminate]. cbn in ESI. injection ESI as <- <-; auto.
        - destruct i1, i2; injection ESI as <- <-; auto. }
      apply insertDim_U.
      + unfold areDimsFromConcat in EA. destruct (defKind p s) as [[]|]; try discriminate.
        eapply dimsOf_in; eauto. eapply nth_error_In; eauto.
      + assert (i < length l)%nat by (apply nth_error_Some; congruence).
        assert (length l <= maxShape)%nat.
        { apply list_max_In, in_map_iff. exists s. rewrite EA. auto. }
        unfold bound. lia.
    - assert (HP : incl (fromPairs p ss a (given (ins o))) universe).
      { revert VI. generalize (given (ins o)). induction l as [|x l IH]; intros VI; cbn; [apply incl_nil|].
        apply incl_app; [|apply IH; intros; apply VI; now right].
        apply incl_flat_map. intros b _. apply fromPair_U. apply VI. now left. }
      destruct k; auto; apply incl_nil.
    - destruct k; try apply incl_nil. destruct (ins o) as [|[x|] rest]; try apply incl_nil.
      unfold fromReshape. destruct (negb (allowzero =? 0)); [apply incl_nil|].
      destruct ((length (dynAxes (tdims (types p x))) =? length (dynAxes (tdims (types p u))))%nat &&
         (staticSize (tdims (types p x)) =? staticSize (tdims (types p u)))); [|apply incl_nil].
      destruct (pairUp p ss x u (dynAxes (tdims (types p x))) (dynAxes (tdims (types p u))) None []) as [[i|] vis] eqn:EP; [|apply incl_nil].
      destruct ((length vis =? length (dynAxes (tdims (types p u))) - 1)%nat && negb (existsb (Nat.eqb a) vis)); [|apply incl_nil].
      assert (Hx : In x allVals) by (apply VI, given_In; now left).
      apply insertDim_U; auto. apply pairUp_missing in EP as [EP|EP]; [discriminate|].
      apply dynAxes_In in EP. assert (i < length (tdims (types p x)))%nat by (apply nth_error_Some; congruence).
      pose proof (rank_max _ Hx). unfold rankOf in *. unfold bound. lia. }
  destruct (okind o) eqn:K; try (destruct (negb (dynDim p u a)); [discriminate|];
    first [exact (Gen KOther H)|exact (Gen KAdd H)|exact (Gen (KReshape allowzero) H)]).
  - injection H as <-. auto.
  - destruct (ins o) as [|[x|] rest] eqn:EI; injection H as <-; auto. apply incl_app; auto.
    apply insertDim_U; [apply VI, given_In; now left|]. pose proof (axis_max o _ Ho K). unfold bound. lia.
  - destruct (ins o) as [|[x|] rest] eqn:EI; injection H as <-; auto. apply incl_app; auto.
    apply insertDim_U; [apply VI, given_In; now left|]. auto.
Qed.

(* Sets inside the universe. *)
Definition inU (ss : sets) : Prop := forall s, In s ss -> NoDup s /\ incl s universe.
Definition missing (s : list dim) : nat := (length universe - length s)%nat.
Definition total (ss : sets) : nat := list_sum (map missing ss).

Lemma sum_cons x l : list_sum (x :: l) = (x + list_sum l)%nat.
Proof. reflexivity. Qed.

Lemma insert_NoDup s d : NoDup s -> NoDup (insert s d).
Proof.
  intros H. unfold insert. destruct (contains s d) eqn:E; auto.
  apply (Permutation_NoDup (Permutation_cons_append s d)). constructor; auto.
  intros Hin. apply contains_In in Hin. congruence.
Qed.

Lemma fold_insert_NoDup l : forall s, NoDup s -> NoDup (fold_left insert l s).
Proof. induction l; intros; cbn; auto. apply IHl, insert_NoDup; auto. Qed.

Lemma insert_length s d : (length s <= length (insert s d))%nat.
Proof. unfold insert. destruct (contains s d); rewrite ?app_length; lia. Qed.

Lemma fold_insert_length l : forall s, (length s <= length (fold_left insert l s))%nat.
Proof. induction l; intros s; cbn; auto. specialize (IHl (insert s a)). pose proof (insert_length s a). lia. Qed.

Lemma inU_length s : NoDup s -> incl s universe -> (length s <= length universe)%nat.
Proof. intros. apply NoDup_incl_length; auto. Qed.

Lemma updateFrom_U todo : forall done res b, inU (done ++ todo) -> updateFrom p done todo = Ok (res, b) ->
  inU res /\ (total res <= total (done ++ todo))%nat /\ (b = true -> (total res < total (done ++ todo))%nat).
Proof.
  induction todo as [|s todo IH]; intros done res b HU H; cbn [updateFrom] in H.
  - injection H as <- <-. rewrite app_nil_r in *. split; auto. split; auto. discriminate.
  - apply bind_Ok in H as (new & Hnew & H). apply bind_Ok in H as ([res' b'] & Hr & H).
    cbn [fst snd] in H. injection H as <- <-.
    set (s' := fold_left insert new s) in *.
    destruct (HU s) as [ND HI]; [apply in_app_iff; right; now left|].
    assert (HI' : incl s' universe).
    { intros d Hd. apply fold_insert_In in Hd as [Hd|Hd]; auto.
      destruct (collect_In _ _ _ Hnew d Hd) as (e & ys & He & Hv & Hy). eapply visitDim_U; eauto. }
    assert (ND' : NoDup s') by (apply fold_insert_NoDup; auto).
    assert (HU' : inU ((done ++ [s']) ++ todo)).
    { intros q Hq. rewrite <- app_assoc in Hq. cbn [app] in Hq.
      apply in_app_iff in Hq as [Hq|[<-|Hq]]; auto; apply HU, in_app_iff; auto. right. now right. }
    destruct (IH _ _ _ HU' Hr) as (R1 & R2 & R3).
    pose proof (inU_length s ND HI). pose proof (inU_length s' ND' HI').
    assert (L : (length s <= length s')%nat) by apply fold_insert_length.
    assert (ET : total ((done ++ [s']) ++ todo) = (list_sum (map missing done) + missing s' + list_sum (map missing todo))%nat).
    { unfold total. rewrite <- app_assoc, !map_app, !list_sum_app. cbn [map app]. rewrite sum_cons. change (list_sum []) with O. lia. }
    assert (ET2 : total (done ++ s :: todo) = (list_sum (map missing done) + missing s + list_sum (map missing todo))%nat).
    { unfold total. rewrite !map_app, !list_sum_app. cbn [map]. rewrite sum_cons. lia. }
    rewrite ET in *. rewrite ET2. unfold missing in *. split; auto. split; [lia|].
    intros HB. destruct b'; [specialize (R3 eq_refl); lia|]. cbn [orb] in HB.
    apply negb_true_iff, Nat.eqb_neq in HB. lia.
Qed.

Lemma absorb_U rest : forall lhs l' kept, inU (lhs :: rest) -> absorb lhs rest = (l', kept) ->
  inU (l' :: kept) /\ (total (l' :: kept) <= total (lhs :: rest))%nat.
Proof.
  induction rest as [|t rest IH]; intros lhs l' kept HU H; cbn [absorb] in H.
  - injection H as <- <-. auto.
  - destruct (HU lhs) as [N1 I1]; [now left|]. destruct (HU t) as [N2 I2]; [right; now left|].
    destruct (overlap lhs t).
    + apply IH in H.
      * destruct H as [H1 H2]. split; auto. unfold total in *. cbn [map] in *. rewrite ?sum_cons in *.
        pose proof (fold_insert_length t lhs). unfold missing in *. lia.
      * intros s [<-|Hs]; [|apply HU; right; now right].
        split; [apply fold_insert_NoDup; auto|]. intros d Hd. apply fold_insert_In in Hd as [Hd|Hd]; auto.
    + destruct (absorb lhs rest) as [l'' k] eqn:EA. injection H as <- <-. apply IH in EA.
      * destruct EA as [H1 H2]. split.
        { intros s [<-|[<-|Hs]]; [apply H1; now left|auto|apply H1; now right]. }
        unfold total in *. cbn [map] in *. rewrite ?sum_cons in *. lia.
      * intros s [<-|Hs]; [auto|apply HU; right; now right].
Qed.

Lemma mergeRound_U n : forall ss, inU ss -> inU (mergeRound n ss) /\ (total (mergeRound n ss) <= total ss)%nat.
Proof.
  induction n as [|n IH]; intros ss HU; [auto|]. destruct ss as [|s rest]; [auto|]. cbn [mergeRound].
  destruct (absorb s rest) as [s' kept] eqn:EA. apply absorb_U in EA as [H1 H2]; auto.
  destruct (IH kept) as [K1 K2]; [intros q Hq; apply H1; now right|]. split.
  - intros q [<-|Hq]; [apply H1; now left|auto].
  - unfold total in *. cbn [map] in *. rewrite ?sum_cons in *. lia.
Qed.

Lemma mergeLoop_U n : forall ss, inU ss -> inU (mergeLoop n ss) /\ (total (mergeLoop n ss) <= total ss)%nat.
Proof.
  induction n as [|n IH]; intros ss HU; [auto|]. cbn [mergeLoop].
  destruct (mergeRound_U (length ss) ss HU) as [H1 H2].
  destruct (length (mergeRound (length ss) ss) <? length ss)%nat; [|auto].
  destruct (IH _ H1). split; auto. lia.
Qed.

Lemma updateFrom_fuel todo : forall done, updateFrom p done todo <> OutOfFuel.
Proof.
  assert (HV : forall ss d, visitDim p ss d <> OutOfFuel).
  { intros ss d. unfold visitDim. destruct (defOp p (fst d)) as [o|]; [|discriminate].
    assert (G : forall k, bind (fromShapeInput p o d) (fun s =>
            let pairs :=
              match k with
              | KAdd | KBroadcast | KMatMul => fromPairs p ss (snd d) (given (ins o))
              | _ => []
              end in
            let rs :=
              match k, ins o with
              | KReshape az, Some x :: _ => fromReshape p ss az x (fst d) (snd d)
              | _, _ => []
              end in
            Ok (fromConsumers p d (users p (fst d)) ++ fromHelper p o d ++ s ++ pairs ++ rs)) <> OutOfFuel).
    { intros k. unfold fromShapeInput. destruct (shapeInput p o d) as [[s i]|]; [|discriminate].
      destruct (areDimsFromConcat p s) as [l|]; [|discriminate]. destruct (nth_error l i); discriminate. }
    destruct (okind o); try (destruct (negb (dynDim p (fst d) (snd d))); [discriminate|first [exact (G KOther)|exact (G KAdd)|exact (G (KReshape allowzero))]]).
    - discriminate.
    - destruct (ins o) as [|[x|] ?]; discriminate.
    - destruct (ins o) as [|[x|] ?]; discriminate. }
  assert (HC : forall ss l, collect (visitDim p ss) l <> OutOfFuel).
  { intros ss l. induction l as [|d l IH]; cbn; [discriminate|].
    destruct (visitDim p ss d) eqn:E; try discriminate; [|exfalso; exact (HV _ _ E)].
    cbn. destruct (collect (visitDim p ss) l); try discriminate. congruence. }
  induction todo as [|s todo IH]; intros done; cbn [updateFrom]; [discriminate|].
  destruct (collect (visitDim p (done ++ s :: todo)) s) as [new| | | |] eqn:E; try discriminate; [|exfalso; exact (HC _ _ E)].
  cbn [bind]. specialize (IH (done ++ [fold_left insert new s])).
  destruct (updateFrom p (done ++ [fold_left insert new s]) todo); try discriminate. congruence.
Qed.

Lemma classify_ends fuel : forall ss, inU ss -> (total ss < fuel)%nat -> classify fuel p ss <> OutOfFuel.
Proof.
  induction fuel as [|f IH]; intros ss HU L; [lia|]. cbn [classify]. unfold updateDimSets.
  destruct (updateFrom p [] ss) as [[ss' b]| | | |] eqn:E; try discriminate; [|exfalso; exact (updateFrom_fuel _ _ E)].
  cbn [bind fst snd]. destruct b; [|discriminate].
  destruct (updateFrom_U ss [] ss' true HU E) as (H1 & H2 & H3). specialize (H3 eq_refl). cbn [app] in H3.
  destruct (mergeLoop_U (S (length ss')) ss' H1) as [M1 M2]. apply IH; auto. unfold mergeDimSets. lia.
Qed.

Lemma initial_U whole : inU (initial p whole).
Proof.
  assert (HB : forall v a, In v allVals -> isDyn p v a -> In (v, a) universe).
  { intros v a Hv Ha. apply universe_In. split; auto. pose proof (rank_max _ Hv). unfold isDyn in Ha.
    assert (a < rankOf p v)%nat by (apply nth_error_Some; congruence). unfold bound. lia. }
  assert (HS : forall v a, In v allVals -> isDyn p v a -> NoDup [(v, a)] /\ incl [(v, a)] universe).
  { intros v a Hv Ha. split; [constructor; [intros []|constructor]|]. intros d [<-|[]]. auto. }
  assert (HP : forall l par, incl l allVals -> inU (plainDims p l par)).
  { intros l par Hl s Hs. unfold plainDims in Hs. apply in_flat_map in Hs as (i & _ & Hs).
    destruct (nth_error l i) as [v|] eqn:E; [|destruct Hs]. apply in_flat_map in Hs as (a & Ha & Hs).
    apply dynAxes_In in Ha. destruct (par i a); [destruct Hs|]. destruct Hs as [<-|[]]. apply HS; auto.
    apply Hl. eapply nth_error_In; eauto. }
  assert (IA : incl (args p) allVals) by (intros v Hv; unfold allVals; rewrite !in_app_iff; auto).
  assert (IR : incl (rets p) allVals) by (intros v Hv; unfold allVals; rewrite !in_app_iff; auto).
  intros s Hs. unfold initial in Hs. rewrite !in_app_iff in Hs. destruct Hs as [Hs|[Hs|[Hs|Hs]]].
  - apply in_flat_map in Hs as (i & _ & Hs). destruct (targets p i); [|destruct Hs].
    destruct (nth_error (ops p) i) as [o|] eqn:E; [|destruct Hs]. apply nth_error_In in E.
    apply in_flat_map in Hs as (v & Hv & Hs). unfold buildValue in Hs. apply in_map_iff in Hs as (a & <- & Ha).
    apply dynAxes_In in Ha. apply HS; auto. eapply val_out; eauto.
  - exact (HP _ _ IA _ Hs).
  - destruct whole; [|destruct Hs]. exact (HP _ _ IR _ Hs).
  - split.
    + unfold paramSets in Hs. apply in_map_iff in Hs as ([q s'] & E & Hs). cbn in E. subst s'.
      assert (HN : forall l m, (forall q s, In (q, s) m -> NoDup s) ->
         forall q s, In (q, s) (fold_left (fun m e => addParam (fst e) (snd e) m) l m) -> NoDup s).
      { clear. induction l as [|e l IH]; intros m Hm q s H; cbn [fold_left] in H; [eauto|].
        eapply IH; [|exact H]. clear - Hm. induction m as [|[q0 s0] m IHm]; intros q s H; cbn [addParam] in H.
        - destruct H as [H|[]]. injection H as <- <-. constructor; [intros []|constructor].
        - destruct (Nat.eqb (fst e) q0).
          + destruct H as [H|H]; [|eapply Hm; right; eauto]. injection H as <- <-. apply insert_NoDup. eapply Hm; left; eauto.
          + destruct H as [H|H]; [injection H as <- <-; eapply Hm; left; eauto|]. eapply IHm; eauto. intros; eapply Hm; right; eauto. }
      eapply HN; [|exact Hs]. intros ? ? [].
    + intros d Hd. apply paramSets_In in Hs as (q & Hq). specialize (Hq d Hd). destruct d as [v a].
      apply in_app_iff in Hq as [Hq|Hq].
      * apply paramDims_In in Hq as (i & H1 & _ & H3). apply HB; auto. apply IA. eapply nth_error_In; eauto.
      * destruct whole; [|destruct Hq]. apply paramDims_In in Hq as (i & H1 & _ & H3). apply HB; auto. apply IR. eapply nth_error_In; eauto.
Qed.

(* In SSA form the fuel of areDims/getDims is enough. *)
Lemma dimsOf_level n : SSA p -> forall v f f',
  (forall j o, nth_error (ops p) j = Some o -> In v (outs o) -> (j < n)%nat) ->
  (n < f)%nat -> (n < f')%nat -> dimsOf f p v = dimsOf f' p v.
Proof.
  intros HS. induction n as [|n IH]; intros v f f' HL Lf Lf'; destruct f as [|f]; try lia; destruct f' as [|f']; try lia;
    cbn [dimsOf]; destruct (rankOf p v =? 1)%nat; auto; destruct (defOp p v) as [[k li lo h]|] eqn:ED; auto; destruct k; auto.
  - destruct (defOp_In _ _ _ ED) as [Ho Hv]. apply In_nth_error in Ho as [j Hj]. specialize (HL _ _ Hj Hv). lia.
  - destruct (defOp_In _ _ _ ED) as [Ho Hv]. apply In_nth_error in Ho as [j Hj]. pose proof (HL _ _ Hj Hv) as Lj.
    assert (HW : forall w, In w (given li) -> dimsOf f p w = dimsOf f' p w).
    { intros w Hw. apply IH; try lia. intros j' o' Hj' Hw'. pose proof (HS _ _ _ Hj Hw _ _ Hj' Hw'). lia. }
    induction (given li) as [|w l IHl]; auto.
    rewrite (HW w) by now left. rewrite IHl by (intros; apply HW; now right). reflexivity.
Qed.

Lemma dimsOf_enough v f : SSA p -> (length (ops p) < f)%nat -> dimsOf f p v = dimsOf (S (length (ops p))) p v.
Proof.
  intros HS L. apply (dimsOf_level (length (ops p)) HS); auto; try lia.
  intros j o Hj _. apply nth_error_Some. congruence.
Qed.

End Ends.

(* ---------- merging leaves disjoint sets ---------- *)
Definition apart (ss : sets) : Prop := ForallOrdPairs (fun a b => overlap a b = false) ss.

Lemma absorb_length rest : forall lhs l' kept, absorb lhs rest = (l', kept) ->
  (length kept <= length rest)%nat /\
  (length kept = length rest -> l' = lhs /\ kept = rest /\ Forall (fun s => overlap lhs s = false) rest).
Proof.
  induction rest as [|t rest IH]; intros lhs l' kept H; cbn [absorb] in H.
  - injection H as <- <-. split; auto.
  - destruct (overlap lhs t) eqn:E.
    + apply IH in H as [H _]. cbn [length]. split; lia.
    + destruct (absorb lhs rest) as [l'' k] eqn:EA. injection H as <- <-. apply IH in EA as [H1 H2].
      cbn [length]. split; [lia|]. intros L. destruct H2 as (-> & -> & H3); [lia|]. auto.
Qed.

Lemma mergeRound_length n : forall ss, (length ss <= n)%nat ->
  (length (mergeRound n ss) <= length ss)%nat /\
  (length (mergeRound n ss) = length ss -> mergeRound n ss = ss /\ apart ss).
Proof.
  induction n as [|n IH]; intros ss L.
  - destruct ss; cbn in *; [|lia]. split; auto. intros _. split; auto. constructor.
  - destruct ss as [|s rest]; [cbn; split; auto; intros _; split; auto; constructor|].
    cbn [mergeRound]. destruct (absorb s rest) as [s' kept] eqn:EA. cbn [length] in L.
    apply absorb_length in EA as [A1 A2]. destruct (IH kept) as [K1 K2]; [lia|]. cbn [length]. split; [lia|].
    intros E. destruct A2 as (-> & -> & A3); [lia|]. destruct K2 as [K2 K3]; [lia|]. rewrite K2. split; auto.
    constructor; auto.
Qed.

Lemma mergeLoop_apart n : forall ss, (length ss < n)%nat -> apart (mergeLoop n ss).
Proof.
  induction n as [|n IH]; intros ss L; [lia|]. cbn [mergeLoop].
  destruct (mergeRound_length (length ss) ss (le_n _)) as [H1 H2].
  destruct (length (mergeRound (length ss) ss) <? length ss)%nat eqn:E.
  - apply Nat.ltb_lt in E. apply IH. lia.
  - apply Nat.ltb_ge in E. destruct H2 as [H2 H3]; [lia|]. now rewrite H2.
Qed.

Lemma mergeDimSets_apart ss : apart (mergeDimSets ss).
Proof. apply mergeLoop_apart. lia. Qed.
