(** Proofs about Squeeze and Unsqueeze. *)
From Coq Require Import List ZArith Bool Arith Lia Permutation Sorted.
From Verif Require Import Util TensorSpec TensorLemmas ShapeOpsModel ShapeOpsSpec ShapeOpsProofs.
Import ListNotations.
Open Scope Z_scope.

Definition nm (rank b : Z) : Z := if b <? 0 then b + rank else b.
Lemma zmem_In a l : zmem a l = true <-> In a l.
Proof. unfold zmem. rewrite existsb_exists. split; [intros (x & H & E); apply Z.eqb_eq in E; now subst|intros H; exists a; split; auto; apply Z.eqb_refl]. Qed.
Lemma zmem_not a l : zmem a l = false <-> ~ In a l.
Proof. rewrite <- zmem_In. destruct (zmem a l); intuition congruence. Qed.
Lemma normAxis_spec rank a : normAxis rank a = if (- rank <=? a) && (a <? rank) then Some (nm rank a) else None.
Proof. unfold normAxis, nm. destruct (Z.ltb_spec a (- rank)), (Z.leb_spec rank a), (Z.leb_spec (- rank) a), (Z.ltb_spec a rank); cbn; try lia; auto. destruct (a <? 0); f_equal; lia. Qed.
Lemma normAll_some rank axes : axes_in_range rank axes -> normAll rank axes = Some (map (nm rank) axes).
Proof.
  induction 1 as [|a r Ha H IH]; cbn [normAll map]; auto. rewrite normAxis_spec. destruct (Z.leb_spec (- rank) a), (Z.ltb_spec a rank); try lia. cbn. now rewrite IH.
Qed.
Lemma normAll_none rank axes : ~ axes_in_range rank axes -> normAll rank axes = None.
Proof.
  induction axes as [|a r IH]; intros H; [destruct H; constructor|]. cbn [normAll]. rewrite normAxis_spec.
  destruct (Z.leb_spec (- rank) a), (Z.ltb_spec a rank); cbn; auto. rewrite IH; auto. intros Q. apply H. constructor; [lia|auto].
Qed.
Lemma axis_in_map rank axes a : axis_in rank axes a <-> In a (map (nm rank) axes).
Proof. unfold axis_in. rewrite in_map_iff. unfold nm. split; intros (b & H1 & H2); exists b; subst; auto. Qed.

Lemma zseq_sorted n : forall a, StronglySorted Z.lt (zseq a n).
Proof. induction n; intros a; cbn; constructor; auto. apply Forall_forall. intros x H. apply zseq_In in H. lia. Qed.
Lemma filter_sorted {A} (R : A -> A -> Prop) f l : StronglySorted R l -> StronglySorted R (filter f l).
Proof. induction 1 as [|a l H IH HF]; cbn; [constructor|]. destruct (f a); auto. constructor; auto. rewrite Forall_forall in *. intros x Hx. apply filter_In in Hx. apply HF. tauto. Qed.
Lemma map_fst_filter {A B} (f : A -> bool) (l : list (A * B)) : map fst (filter (fun e => f (fst e)) l) = filter f (map fst l).
Proof. induction l as [|[a b] l IH]; cbn; auto. destruct (f a); cbn; now rewrite IH. Qed.
Lemma map_fst_combine {A B} (l : list A) : forall (m : list B), length l = length m -> map fst (combine l m) = l.
Proof. induction l; intros [|b m] H; cbn in *; try discriminate; auto. f_equal. apply IHl. lia. Qed.
Lemma zenum_In {A} (l : list A) e : In e (zenum l) -> zget l (fst e) = Some (snd e).
Proof.
  unfold zenum. intros H. apply In_nth_error in H as [k H]. unfold zrange in H. rewrite Nat2Z.id in H.
  assert (G : forall (l : list A) a k e, nth_error (combine (zseq a (length l)) l) k = Some e -> fst e = a + Z.of_nat k /\ nth_error l k = Some (snd e)).
  { clear. induction l as [|x l IH]; intros a [|k] e H; cbn in *; try discriminate.
    - injection H as <-. cbn. split; [lia|auto].
    - apply IH in H. split; [lia|tauto]. }
  apply G in H as [E1 E2]. rewrite E1. cbn. assert (k < length l)%nat by (apply nth_error_Some; congruence). rewrite zget_spec by lia. now rewrite Nat2Z.id.
Qed.
Lemma keepDims_others {A} (data : list A) ax : others data (fun a => In a ax) (keepDims data ax).
Proof.
  exists (map fst (filter (fun e => negb (zmem (fst e) ax)) (zenum data))).
  assert (E : map fst (filter (fun e : Z * A => negb (zmem (fst e) ax)) (zenum data)) = filter (fun a => negb (zmem a ax)) (zrange (Z.of_nat (length data)))).
  { rewrite (map_fst_filter (fun a => negb (zmem a ax))). unfold zenum. rewrite map_fst_combine; auto. rewrite zrange_length. lia. }
  split; [|split].
  - intros a. rewrite E, filter_In, zrange_In, negb_true_iff, zmem_not. tauto.
  - rewrite E. apply filter_sorted, zseq_sorted.
  - unfold keepDims. rewrite !map_map. apply map_ext_in. intros e H. apply filter_In in H as [H _]. symmetry. now apply zenum_In.
Qed.
Lemma others_ext {A} (l : list A) P Q r : (forall a, P a <-> Q a) -> others l P r -> others l Q r.
Proof. intros H (pos & H1 & H2 & H3). exists pos. split; [|auto]. intros a. rewrite H1, H. tauto. Qed.

(** [others] determines the result. *)
Lemma sorted_unique (l m : list Z) : StronglySorted Z.lt l -> StronglySorted Z.lt m -> (forall a, In a l <-> In a m) -> l = m.
Proof.
  intros H. revert m. induction H as [|x l H IH HF]; intros m Hm HI.
  - destruct m as [|y m]; auto. destruct (proj2 (HI y)); cbn; auto.
  - destruct Hm as [|y m Hm HG]; [destruct (proj1 (HI x)); cbn; auto|]. rewrite Forall_forall in HF, HG.
    assert (x = y). { destruct (proj1 (HI x) (or_introl eq_refl)) as [E|E]; [auto|]. destruct (proj2 (HI y) (or_introl eq_refl)) as [E'|E']; [auto|]. apply HG in E. apply HF in E'. lia. }
    subst y. f_equal. apply IH; auto. intros a. split; intros Ha.
    + destruct (proj1 (HI a) (or_intror Ha)); auto. subst. apply HF in Ha. lia.
    + destruct (proj2 (HI a) (or_intror Ha)); auto. subst. apply HG in Ha. lia.
Qed.
Lemma others_unique {A} (l : list A) P r r' : others l P r -> others l P r' -> r = r'.
Proof.
  intros (p & H1 & H2 & H3) (q & Q1 & Q2 & Q3). assert (p = q) by (apply sorted_unique; auto; intros a; rewrite H1, Q1; tauto). subst q. rewrite <- H3 in Q3.
  clear - Q3. revert r' Q3. induction r; intros [|b r'] H; cbn in *; try discriminate; auto. injection H as -> H. f_equal. auto.
Qed.

(** Product of the kept dims. *)
Lemma kept_product ax (l : list Z) : forall a, (forall p v, nth_error l p = Some v -> In (a + Z.of_nat p) ax -> v = 1) ->
  prodZ (map snd (filter (fun e => negb (zmem (fst e) ax)) (combine (zseq a (length l)) l))) = prodZ l.
Proof.
  induction l as [|x l IH]; intros a H; cbn [length zseq combine filter]; [reflexivity|]. cbn [fst]. rewrite prodZ_cons.
  assert (IH' := IH (a + 1)). rewrite <- IH'.
  2:{ intros p v Hp Hin. apply (H (S p)); [auto|]. now replace (a + Z.of_nat (S p)) with (a + 1 + Z.of_nat p) by lia. }
  destruct (zmem a ax) eqn:E; cbn [negb].
  - apply zmem_In in E. rewrite (H O x eq_refl); [lia|]. now replace (a + Z.of_nat 0) with a by lia.
  - cbn [map snd]. now rewrite prodZ_cons.
Qed.

(** Squeeze of every dim equal to one. *)
Lemma onesOf_spec s : forall a, exists ax, onesOf (map Some s) a = Some ax /\ forall x, In x ax <-> exists p, nth_error s p = Some 1 /\ x = a + Z.of_nat p.
Proof.
  induction s as [|d s IH]; intros a; cbn [map onesOf].
  - exists []. split; auto. intros x. split; [intros []|intros ([|p] & H & _); discriminate].
  - destruct (IH (a + 1)) as (ax & E & H). rewrite E. cbn [obind]. eexists. split; [reflexivity|]. intros x. destruct (Z.eqb_spec d 1) as [->|N].
    + cbn [In]. rewrite H. split.
      * intros [<-|(p & Hp & ->)]; [exists O; split; [auto|lia]|exists (S p); split; [auto|lia]].
      * intros ([|p] & Hp & ->); [left; lia|right; exists p; split; [auto|lia]].
    + rewrite H. split.
      * intros (p & Hp & ->). exists (S p); split; [auto|lia].
      * intros ([|p] & Hp & ->); [cbn in Hp; congruence|exists p; split; [auto|lia]].
Qed.
Lemma kept_filter (P : Z -> bool) (s : list Z) ax : forall a, (forall p v, nth_error s p = Some v -> zmem (a + Z.of_nat p) ax = negb (P v)) ->
  map snd (filter (fun e => negb (zmem (fst e) ax)) (combine (zseq a (length s)) (map Some s))) = map Some (filter P s).
Proof.
  induction s as [|x s IH]; intros a H; cbn [length zseq map combine filter]; auto. cbn [fst]. pose proof (H O x eq_refl) as H0. replace (a + Z.of_nat 0) with a in H0 by lia. rewrite H0, negb_involutive.
  assert (IH' := IH (a + 1)). destruct (P x); cbn [map snd]; rewrite IH'; auto; intros p v Hp; rewrite <- (H (S p) v Hp); f_equal; lia.
Qed.
Lemma squeezeAll_ok s : squeezeAll (map Some s) = Some (map Some (filter (fun d => negb (d =? 1)) s)).
Proof.
  unfold squeezeAll. destruct (onesOf_spec s 0) as (ax & E & H). rewrite E. cbn [obind]. f_equal. unfold keepDims, zenum. rewrite map_length. unfold zrange. rewrite Nat2Z.id.
  apply (kept_filter (fun d => negb (d =? 1))). intros p v Hp. rewrite negb_involutive. apply eq_true_iff_eq. rewrite zmem_In, H, Z.eqb_eq. split.
  - intros (q & Hq & Eq). assert (p = q) by lia. subst. congruence.
  - intros ->. exists p. split; [auto|lia].
Qed.

(** Unsqueeze. *)
Lemma normDistinct_some rank axes : forall seen, axes_in_range rank axes -> NoDup (seen ++ map (nm rank) axes) -> normDistinct rank axes seen = Some (seen ++ map (nm rank) axes).
Proof.
  induction axes as [|a r IH]; intros seen HR ND; cbn [normDistinct map] in *; [now rewrite app_nil_r|]. inversion HR; subst. rewrite normAxis_spec. destruct (Z.leb_spec (- rank) a), (Z.ltb_spec a rank); try lia. cbn [andb obind].
  assert (~ In (nm rank a) seen) by (intros Q; apply NoDup_remove_2 in ND; apply ND, in_app_iff; auto). rewrite (proj2 (zmem_not _ _)) by auto.
  rewrite IH; auto; rewrite <- app_assoc; auto.
Qed.
Lemma normDistinct_inv rank axes : forall seen ax, NoDup seen -> normDistinct rank axes seen = Some ax -> axes_in_range rank axes /\ NoDup (seen ++ map (nm rank) axes).
Proof.
  induction axes as [|a r IH]; intros seen ax ND H; cbn [normDistinct map] in *.
  - split; [constructor|now rewrite app_nil_r].
  - rewrite normAxis_spec in H. destruct (Z.leb_spec (- rank) a), (Z.ltb_spec a rank); cbn in H; try discriminate. destruct (zmem (nm rank a) seen) eqn:E; [discriminate|]. apply zmem_not in E.
    apply IH in H as [H1' H2'].
    + split; [constructor; [lia|auto]|]. now rewrite <- app_assoc in H2'.
    + apply (Permutation_NoDup (l := nm rank a :: seen)); [apply Permutation_cons_append|constructor; auto].
Qed.
Definition free (ax : list Z) (i : Z) (m : nat) : nat := length (filter (fun a => negb (zmem a ax)) (zseq i m)).
Lemma unsqueezeLoop_ok {A} (one : A) data ax outRank m : forall i j fuel, (m < fuel)%nat -> i + Z.of_nat m = outRank -> (j <= length data)%nat -> free ax i m = (length data - j)%nat ->
  exists l, unsqueezeLoop one data outRank ax fuel i (Z.of_nat j) = Some l /\ length l = m /\
    (forall p, (p < m)%nat -> In (i + Z.of_nat p) ax -> nth_error l p = Some one) /\
    map snd (filter (fun e => negb (zmem (fst e) ax)) (combine (zseq i m) l)) = skipn j data.
Proof.
  induction m as [|m IH]; intros i j [|fuel] Hf Hi Hj HF; try lia; cbn [unsqueezeLoop].
  - unfold free in HF. cbn in HF. replace (_ || _) with false by (symmetry; apply orb_false_intro; apply Z.ltb_ge; lia). exists []. repeat split; auto; [intros p Hp; lia|]. cbn. symmetry. apply skipn_all2. lia.
  - replace (_ || _) with true by (symmetry; apply orb_true_intro; left; apply Z.ltb_lt; lia). unfold free in HF. cbn [zseq filter] in HF. destruct (zmem i ax) eqn:E; cbn [negb] in HF.
    + destruct (IH (i + 1) j fuel) as (l & El & LL & HO & HK); [lia|lia|lia|exact HF|]. rewrite El. cbn [obind]. exists (one :: l). split; [auto|]. split; [cbn; lia|]. split.
      * intros [|p] Hp Hin; [auto|]. cbn. apply HO; [lia|]. now replace (i + 1 + Z.of_nat p) with (i + Z.of_nat (S p)) by lia.
      * cbn [zseq combine filter fst]. rewrite E. cbn [negb]. exact HK.
    + cbn [length] in HF. assert (Hj' : (j < length data)%nat) by lia. destruct (nth_error data j) as [d|] eqn:ED; [|apply nth_error_None in ED; lia].
      assert (EG : zget data (Z.of_nat j) = Some d) by (rewrite zget_spec by lia; now rewrite Nat2Z.id). rewrite EG. cbn [obind].
      destruct (IH (i + 1) (S j) fuel) as (l & El & LL & HO & HK); [lia|lia|lia|unfold free; lia|]. replace (Z.of_nat j + 1) with (Z.of_nat (S j)) by lia. rewrite El. cbn [obind]. exists (d :: l). split; [auto|]. split; [cbn; lia|]. split.
      * intros [|p] Hp Hin; [apply zmem_not in E; rewrite Z.add_0_r in Hin; tauto|]. cbn. apply HO; [lia|]. now replace (i + 1 + Z.of_nat p) with (i + Z.of_nat (S p)) by lia.
      * cbn [zseq combine filter fst]. rewrite E. cbn [negb map snd]. rewrite HK. clear - ED. revert j ED. induction data as [|x data IH]; intros [|j] ED; cbn in *; try discriminate; [congruence|]. now apply IH.
Qed.
Lemma filter_split_length {A} (f : A -> bool) l : (length (filter f l) + length (filter (fun a => negb (f a)) l) = length l)%nat.
Proof. induction l as [|a l IH]; cbn; auto. destruct (f a); cbn; lia. Qed.
Lemma free_0 ax n : NoDup ax -> (forall a, In a ax -> 0 <= a < Z.of_nat (n + length ax)) -> free ax 0 (n + length ax) = n.
Proof.
  intros ND HB. unfold free. pose proof (filter_split_length (fun a => zmem a ax) (zseq 0 (n + length ax))) as H. rewrite zseq_length in H.
  assert (P : Permutation (filter (fun a => zmem a ax) (zseq 0 (n + length ax))) ax).
  { apply NoDup_Permutation; [apply NoDup_filter, NoDup_zseq|auto|]. intros a. rewrite filter_In, zmem_In, zseq_In. split; [tauto|]. intros Ha. specialize (HB a Ha). split; [lia|auto]. }
  apply Permutation_length in P. lia.
Qed.
Lemma nm_range rank a : - rank <= a < rank -> 0 <= nm rank a < rank.
Proof. unfold nm. destruct (Z.ltb_spec a 0); lia. Qed.
Lemma unsqueeze_ok {A} (one : A) data axes : let rank := Z.of_nat (length data) + Z.of_nat (length axes) in axes_in_range rank axes -> axes_distinct rank axes ->
  exists out, unsqueeze one data axes = Done out /\ Z.of_nat (length out) = rank /\ (forall a, axis_in rank axes a -> zget out a = Some one) /\ keepDims out (map (nm rank) axes) = data.
Proof.
  intros rank HR HD. unfold unsqueeze. fold rank. rewrite normDistinct_some; auto. cbn [app]. set (ax := map (nm rank) axes).
  assert (LA : length ax = length axes) by apply map_length.
  assert (HB : forall a, In a ax -> 0 <= a < rank). { intros a H. apply in_map_iff in H as (b & <- & Hb). apply nm_range. unfold axes_in_range in HR. rewrite Forall_forall in HR. auto. }
  destruct (unsqueezeLoop_ok one data ax rank (length data + length axes) 0 0 (S (length data + length axes + length data))) as (l & El & LL & HO & HK); [lia|lia|lia| |].
  { rewrite <- LA, free_0; [lia|exact HD|]. intros a H. apply HB in H. rewrite LA. unfold rank in H. lia. }
  change (Z.of_nat 0) with 0 in El. rewrite El. exists l. split; [auto|]. split; [unfold rank; lia|]. split.
  - intros a H. apply axis_in_map in H. fold ax in H. pose proof (HB a H) as Ha. rewrite zget_spec by lia. apply HO; [unfold rank in Ha; lia|]. now replace (0 + Z.of_nat (Z.to_nat a)) with a by lia.
  - unfold keepDims, zenum. rewrite LL. unfold zrange. rewrite Nat2Z.id. exact HK.
Qed.
