From Coq Require Import List ZArith Lia Bool Arith.
From Verif Require Import Util TensorSpec TensorLemmas ShapeOpsCopies LoopModel LoopProofs CumSumProofs GatherLoopProofs CopyLoopProofs ArgLoopModel ArgLoopProofs ReduceLoopSpec ReduceLoopModel.
Import ListNotations.
Open Scope Z_scope.

Lemma omap_ok {A B} (f : A -> option B) (g : A -> B) l : (forall x, In x l -> f x = Some (g x)) -> omap f l = Some (map g l).
Proof. induction l as [|x l IH]; intros H; cbn [omap map]; auto. rewrite (H x) by now left. cbn [obind]. rewrite IH by (intros; apply H; now right). reflexivity. Qed.
Lemma foldM_ext_in {A St} (f g : A -> St -> option St) l : (forall x s, In x l -> f x s = g x s) -> forall s, foldM f l s = foldM g l s.
Proof. induction l as [|x l IH]; intros H s; cbn [foldM]; auto. rewrite H by now left. destruct (g x s); auto. apply IH. intros; apply H; now right. Qed.

(** Updating cells in place. *)
Lemma acc_ok {T} (g : list Z -> list Z) (h : list Z -> T -> T) l : forall m : mem T, (forall i, In i l -> valid (mShape m) (g i)) -> (forall o, valid (mShape m) o -> exists v, mAt m o = Some v) ->
  exists m', foldM (fun i m => v <- load m (g i) ;; store m (g i) (h i v)) l m = Some m' /\ mShape m' = mShape m /\
    forall o v, valid (mShape m) o -> mAt m o = Some v -> mAt m' o = Some (fold_left (fun v i => h i v) (filter (fun i => ieqb (g i) o) l) v).
Proof.
  induction l as [|i l IH]; intros m Hl Hm; cbn [foldM].
  - exists m. split; auto.
  - pose proof (Hl i (or_introl eq_refl)) as V. destruct (Hm _ V) as (v & Ev). rewrite load_ok, Ev by auto. cbn [obind]. rewrite store_ok by auto.
    set (m1 := Mem _ _). destruct (IH m1) as (m' & E & SH & R).
    { intros j Hj. apply Hl. now right. }
    { intros o Vo. cbn [mAt m1]. destruct (ieqb (g i) o); [eexists; reflexivity|]. now apply Hm. }
    exists m'. split; [exact E|]. split; [exact SH|]. intros o w Vo Ew. cbn [filter]. destruct (ieqb (g i) o) eqn:EQ.
    + cbn [fold_left]. apply R; auto. cbn [mAt m1]. rewrite EQ. f_equal. f_equal. apply ieqb_eq in EQ. congruence.
    + apply R; auto. cbn [mAt m1]. now rewrite EQ.
Qed.
Lemma ieqb_sym a b : ieqb a b = ieqb b a.
Proof. destruct (ieqb a b) eqn:E, (ieqb b a) eqn:E'; auto; [apply ieqb_eq in E; subst; rewrite ieqb_refl in E'; discriminate|apply ieqb_eq in E'; subst; rewrite ieqb_refl in E; discriminate]. Qed.

Lemma reduceIdx_eq red keep i : reduceIdx red keep i = reduceDims red keep 0 i.
Proof. revert i; induction red as [|r red IH]; intros [|x i]; cbn [reduceIdx reduceDims]; auto. now rewrite IH. Qed.
Lemma reduceDims_length red keep one one' : forall l l', length l = length l' -> length (reduceDims red keep one l) = length (reduceDims red keep one' l').
Proof. induction red as [|r red IH]; intros [|x l] [|y l'] L; cbn in L; try discriminate; auto. cbn [reduceDims]. rewrite !app_length. f_equal; [destruct r, keep; reflexivity|]. apply IH. lia. Qed.
Lemma reduceDims_valid red keep : forall s i, length red = length s -> valid s i -> valid (reduceDims red keep 1 s) (reduceDims red keep 0 i).
Proof.
  induction red as [|r red IH]; intros [|d s] i L V; cbn in L; try discriminate; [inversion V; constructor|]. destruct i as [|x i]; [inversion V|]. apply valid_cons in V as [K V]. cbn [reduceDims].
  specialize (IH s i ltac:(lia) V). destruct r; [destruct keep|]; cbn [app]; auto; apply valid_cons; split; auto; lia.
Qed.

(** The number of elements reduced into one position. *)
Lemma reduceDims_nil red keep one : reduceDims red keep one [] = [].
Proof. now destruct red. Qed.
Lemma reduced_count red keep : forall s o, length red = length s -> okshape s -> valid (reduceDims red keep 1 s) o ->
  Z.of_nat (length (filter (fun i => ieqb (reduceDims red keep 0 i) o) (indices s))) * prodZ (reduceDims red keep 1 s) = prodZ s.
Proof.
  induction red as [|r red IH]; intros [|d s] o L OK V; cbn in L; try discriminate.
  - cbn [reduceDims] in V. inversion V. subst. reflexivity.
  - apply okshape_cons in OK as [D OK]. cbn [reduceDims] in V |- *. cbn [indices]. rewrite filter_flat, prodZ_cons.
    assert (Rep : forall (p : list Z -> bool), length (flat_map (fun x => filter (fun i => p (tl i)) (map (cons x) (indices s))) (zrange d)) = (Z.to_nat d * length (filter p (indices s)))%nat).
    { intros p. rewrite <- (zrange_length d). generalize (zrange d). induction l as [|x l IHl]; cbn [flat_map length]; auto. rewrite app_length, IHl. rewrite filter_map_cons. cbn [tl]. rewrite map_length, (filter_ext _ p) by reflexivity. rewrite Nat.mul_succ_l. lia. }
    destruct r; [destruct keep|]; cbn [app] in V |- *.
    + destruct o as [|x o]; [inversion V|]. apply valid_cons in V as [K V]. replace x with 0 in * by lia.
      specialize (IH s o ltac:(lia) OK V). specialize (Rep (fun i => ieqb (reduceDims red true 0 i) o)).
      rewrite (flat_map_ext _ (fun x => filter (fun i => ieqb (reduceDims red true 0 (tl i)) o) (map (cons x) (indices s)))).
      * rewrite Rep. rewrite prodZ_cons. rewrite <- IH. rewrite Nat2Z.inj_mul, Z2Nat.id by lia. ring.
      * intros y. rewrite !filter_map_cons. cbn [tl reduceDims app ieqb]. rewrite Z.eqb_refl. reflexivity.
    + specialize (IH s o ltac:(lia) OK V). specialize (Rep (fun i => ieqb (reduceDims red false 0 i) o)).
      rewrite (flat_map_ext _ (fun x => filter (fun i => ieqb (reduceDims red false 0 (tl i)) o) (map (cons x) (indices s)))).
      * rewrite Rep. rewrite <- IH. rewrite Nat2Z.inj_mul, Z2Nat.id by lia. ring.
      * intros y. rewrite !filter_map_cons. cbn [tl reduceDims app]. reflexivity.
    + destruct o as [|x o]; [inversion V|]. apply valid_cons in V as [K V]. specialize (IH s o ltac:(lia) OK V). unfold zrange. rewrite (flat_single _ _ 0 x).
      * rewrite filter_map_cons, map_length. cbn [reduceDims app ieqb]. rewrite Z.eqb_refl. cbn [andb]. rewrite prodZ_cons, <- IH. ring.
      * lia.
      * intros y Y. rewrite filter_map_cons. cbn [reduceDims app ieqb]. rewrite filter_false; auto. intros z _. apply andb_false_iff. left. now apply Z.eqb_neq.
Qed.

(** Normalised axes. *)
Lemma uniqueAxes_ok rank l : forall acc, Forall (fun x => - Z.of_nat rank <= x < Z.of_nat rank) l ->
  exists r, uniqueAxes rank l acc = Some r /\ forall a, (a < rank)%nat -> (In a r <-> In a acc \/ In (Z.of_nat a) l \/ In (Z.of_nat a - Z.of_nat rank) l).
Proof.
  induction l as [|x l IH]; intros acc F; cbn [uniqueAxes].
  - exists acc. split; auto. intros a _. cbn. tauto.
  - inversion F as [|? ? B F']; subst. destruct (Z.ltb_spec x (- Z.of_nat rank)); [lia|]. destruct (Z.ltb_spec (Z.of_nat rank - 1) x); [lia|]. cbn [orb].
    set (b := Z.to_nat _). destruct (IH (if existsb (Nat.eqb b) acc then acc else acc ++ [b]) F') as (r & E & R). exists r. split; auto. intros a Ha. rewrite R by auto.
    assert (IB : In a (if existsb (Nat.eqb b) acc then acc else acc ++ [b]) <-> In a acc \/ a = b).
    { destruct (existsb (Nat.eqb b) acc) eqn:EX.
      - apply existsb_exists in EX as (c & C1 & C2). apply Nat.eqb_eq in C2. subst c. split; [auto|]. intros [?| ->]; auto.
      - rewrite in_app_iff. cbn. intuition. }
    rewrite IB. cbn [In]. assert (HB : a = b <-> x = Z.of_nat a \/ x = Z.of_nat a - Z.of_nat rank).
    { unfold b. destruct (Z.leb_spec 0 x); split; intros; lia. }
    rewrite HB. intuition lia.
Qed.
Lemma red_of_axes rank axs : length (map (fun i => existsb (Nat.eqb i) axs) (seq 0 rank)) = rank /\
  forall r, (r < rank)%nat -> (nth r (map (fun i => existsb (Nat.eqb i) axs) (seq 0 rank)) false = true <-> In r axs).
Proof.
  split; [now rewrite map_length, seq_length|]. intros r Hr. erewrite nth_indep by (rewrite map_length, seq_length; lia). rewrite (map_nth (fun i => existsb (Nat.eqb i) axs) (seq 0 rank) O).
  rewrite seq_nth by auto. cbn [Nat.add]. rewrite existsb_exists. split; [intros (x & A & B); apply Nat.eqb_eq in B; now subst|]. intros H. exists r. split; auto. apply Nat.eqb_refl.
Qed.
Lemma red_unique red red' rank axes noop : describes red rank axes noop -> length red' = rank -> (forall r, (r < rank)%nat -> (nth r red' false = true <-> isReduced rank axes noop r)) -> red' = red.
Proof.
  intros [L H] L' H'. apply nth_ext with (d := false) (d' := false); [lia|]. intros r Hr. specialize (H r ltac:(lia)). specialize (H' r ltac:(lia)).
  destruct (nth r red' false), (nth r red false); auto; intuition discriminate.
Qed.
Lemma describes_lit red rank axes noop low : describes red rank axes noop -> axes <> [] -> uniqueAxes rank axes [] = Some low -> Forall (fun x => - Z.of_nat rank <= x < Z.of_nat rank) axes ->
  map (fun i => existsb (Nat.eqb i) low) (seq 0 rank) = red.
Proof.
  intros D N E F. destruct (uniqueAxes_ok rank axes [] F) as (r & E' & R). rewrite E in E'. injection E' as <-. destruct (red_of_axes rank low) as [L H]. eapply red_unique; eauto.
  intros a Ha. rewrite H, R by auto. unfold isReduced. cbn. intuition.
Qed.
Lemma describes_empty red rank noop : describes red rank [] noop -> red = map (fun i => existsb (Nat.eqb i) (if noop then [] else seq 0 rank)) (seq 0 rank).
Proof.
  intros D. symmetry. destruct (red_of_axes rank (if noop then [] else seq 0 rank)) as [L H]. eapply red_unique; eauto. intros a Ha. rewrite H by auto. unfold isReduced. destruct noop; cbn.
  - intuition discriminate.
  - rewrite in_seq. intuition lia.
Qed.

(** The output shape. *)
Lemma reducedType_length red keep ty s one : typed ty s -> length (reducedType red keep ty) = length (reduceDims red keep one s).
Proof. intros H. revert red; induction H as [|t d ty s Htd H IH]; intros [|r red]; cbn [reducedType reduceDims]; auto. rewrite !app_length, IH. destruct r, keep; reflexivity. Qed.
Lemma staticOut_gen red keep : forall o pre ty s, length red = length s -> typed ty s ->
  map (fun j => match nth (j - o) (reducedType red keep ty) None with Some d => d
                | None => nth (match lookupDim (reductionMapping red keep (length pre) o) j with Some k => k | None => O end) (pre ++ s) 0 end)
      (seq o (length (reducedType red keep ty))) = reduceDims red keep 1 s.
Proof.
  induction red as [|r red IH]; intros o pre ty s L H; inversion H as [|t d ty' s' Htd H']; subst; cbn in L; try discriminate; [reflexivity|].
  assert (N : forall o', map (fun j => match nth (j - o') (reducedType red keep ty') None with Some d => d
                | None => nth (match lookupDim (reductionMapping red keep (S (length pre)) o') j with Some k => k | None => O end) (pre ++ d :: s') 0 end)
      (seq o' (length (reducedType red keep ty'))) = reduceDims red keep 1 s').
  { intros o'. specialize (IH o' (pre ++ [d]) ty' s' ltac:(lia) H'). rewrite app_length in IH. cbn [length] in IH. rewrite Nat.add_1_r in IH. rewrite <- app_assoc in IH. exact IH. }
  cbn [reducedType reduceDims reductionMapping]. destruct r; [destruct keep|]; cbn [app length seq map].
  - f_equal; [now rewrite Nat.sub_diag|]. etransitivity; [|exact (N (S o))]. apply map_ext_in. intros j Hj. apply in_seq in Hj. replace (j - o)%nat with (S (j - S o)) by lia. reflexivity.
  - exact (N o).
  - f_equal.
    + rewrite Nat.sub_diag. cbn [nth]. destruct t as [x|]; [exact Htd|]. unfold lookupDim. cbn [find fst]. rewrite Nat.eqb_refl. cbn [option_map snd]. apply nth_middle.
    + etransitivity; [|exact (N (S o))]. apply map_ext_in. intros j Hj. apply in_seq in Hj. replace (j - o)%nat with (S (j - S o)) by lia. cbn [nth]. unfold lookupDim. cbn [find fst]. destruct (Nat.eqb_spec o j); [lia|]. reflexivity.
Qed.
Lemma staticOut_ok red keep ty s : length red = length s -> typed ty s -> staticOutShape (reducedType red keep ty) (reductionMapping red keep 0 0) s = reduceDims red keep 1 s.
Proof.
  intros L H. unfold staticOutShape. etransitivity; [|exact (staticOut_gen red keep 0 [] ty s L H)]. apply map_ext. intros j. rewrite Nat.sub_0_r. reflexivity.
Qed.

(** Run-time axes. *)
Lemma mask_ok rank lk noop (axes : mem Z) av : mShape axes = [Z.of_nat (length av)] -> (forall k, 0 <= k < Z.of_nat (length av) -> mAt axes [k] = zget av k) ->
  Forall (fun x => - Z.of_nat rank <= x < Z.of_nat rank) av -> (lk = true -> av = [] -> noop = true) ->
  exists mask, axesMask rank lk noop axes = Some mask /\ mShape mask = [Z.of_nat rank] /\
    forall r, (r < rank)%nat -> exists b, mAt mask [Z.of_nat r] = Some b /\ (b = true <-> isReduced rank av noop r).
Proof.
  intros SA HA F HK. unfold axesMask. rewrite SA. cbn [nth]. set (initVal := if negb lk && negb noop then Z.of_nat (length av) =? 0 else false).
  assert (HI : initVal = true <-> av = [] /\ noop = false).
  { unfold initVal. destruct lk, noop; cbn [negb andb]; try (split; [discriminate|intros [? ?]; discriminate]).
    - split; [discriminate|]. intros [E ?]. now specialize (HK eq_refl E).
    - rewrite Z.eqb_eq. destruct av; cbn; intuition; try discriminate; lia. }
  destruct (iterate_fill [Z.of_nat rank] (fun _ => Some initVal) (alloc [Z.of_nat rank])) as (m0 & E & SH & A); auto; [intros; eexists; reflexivity|].
  cbn [obind] in E. rewrite E. cbn [obind]. unfold iterate.
  destruct (stores_ok (fun i => [match zget av (nth 0 i 0) with Some x => if x <? 0 then x + Z.of_nat rank else x | None => 0 end]) (fun _ => Some true) (indices [Z.of_nat (length av)]) m0) as (m & E1 & SH1 & R).
  { intros i Hi. apply indices_In in Hi. split; [|eexists; reflexivity]. destruct i as [|k [|]]; try solve [inversion Hi as [|? ? ? ? ? V]; inversion V]. apply valid_cons in Hi as [K _]. cbn [nth].
    rewrite SH. destruct (zget_some av k K) as (x & Ex). rewrite Ex. assert (In x av) as IX by (unfold zget in Ex; destruct (k <? 0); [discriminate|]; eapply nth_error_In; exact Ex).
    rewrite Forall_forall in F. specialize (F x IX). apply valid_cons. split; [|constructor]. destruct (Z.ltb_spec x 0); lia. }
  rewrite (foldM_ext_in _ (fun i m => v <- Some true ;; store m [match zget av (nth 0 i 0) with Some x => if x <? 0 then x + Z.of_nat rank else x | None => 0 end] v)).
  2:{ intros i m1 Hi. apply indices_In in Hi. rewrite load_ok by (rewrite SA; auto). destruct i as [|k [|]]; try solve [inversion Hi as [|? ? ? ? ? V]; inversion V]. apply valid_cons in Hi as [K _]. cbn [nth].
      rewrite HA by auto. destruct (zget_some av k K) as (x & Ex). rewrite Ex. cbn [obind]. reflexivity. }
  exists m. split; [exact E1|]. split; [congruence|]. intros r Hr. rewrite R.
  destruct (find _ _) as [i|] eqn:EF.
  - exists true. split; auto. split; auto. intros _. apply find_some in EF as [EF1 EF2]. apply in_rev, indices_In in EF1. apply ieqb_eq in EF2.
    destruct i as [|k [|]]; try solve [inversion EF1 as [|? ? ? ? ? V]; inversion V]. apply valid_cons in EF1 as [K _]. cbn [nth] in EF2. destruct (zget_some av k K) as (x & Ex). rewrite Ex in EF2. injection EF2 as EQ.
    assert (In x av) as IX by (unfold zget in Ex; destruct (k <? 0); [discriminate|]; eapply nth_error_In; exact Ex). right. destruct (Z.ltb_spec x 0); [right|left].
    + now replace (Z.of_nat r - Z.of_nat rank) with x by lia.
    + now replace (Z.of_nat r) with x by lia.
  - exists initVal. split; [apply A; apply valid_cons; split; [lia|constructor]|]. rewrite HI. unfold isReduced. split; [auto|]. intros [?|H]; auto. exfalso.
    assert (HX : exists x, In x av /\ (if x <? 0 then x + Z.of_nat rank else x) = Z.of_nat r).
    { destruct H as [H|H]; eexists; (split; [exact H|]); [destruct (Z.ltb_spec (Z.of_nat r) 0)|destruct (Z.ltb_spec (Z.of_nat r - Z.of_nat rank) 0)]; lia. }
    destruct HX as (x & IX & EX). apply In_nth_error in IX as (k & Ek). assert (Bk : (k < length av)%nat) by (apply nth_error_Some; congruence).
    pose proof (find_none _ _ EF [Z.of_nat k]) as FN. rewrite <- in_rev in FN. specialize (FN ltac:(apply indices_In, valid_cons; split; [lia|constructor])). cbn [nth] in FN.
    unfold zget in FN. destruct (Z.ltb_spec (Z.of_nat k) 0); [lia|]. rewrite Nat2Z.id, Ek, EX, ieqb_refl in FN. discriminate.
Qed.
Lemma reduceDims_keep_seq red one : forall (l : list Z), length red = length l -> reduceDims red true one l = map (fun i => if nth i red false then one else nth i l 0) (seq 0 (length l)).
Proof.
  induction red as [|r red IH]; intros [|x l] L; cbn in L; try discriminate; auto. cbn [reduceDims length seq map nth]. rewrite IH by lia. destruct r; cbn [app]; f_equal; rewrite <- seq_shift, map_map; reflexivity.
Qed.

Section Reduce.
Context {T : Type} (op : T -> T -> T) (identity : T) (divideBy : option (T -> Z -> T)).
Context (input : mem T) (dv : list Z -> T).
Notation s := (mShape input).
Hypothesis HD : forall i, valid s i -> mAt input i = Some (dv i).
Hypothesis OKs : okshape s.
Definition finish (v : T) (n : Z) : T := match divideBy with None => v | Some div => div v n end.

Lemma scalarReduction_ok out access acc divisor : (forall i, valid s i -> access i = Some (acc i) /\ valid out (acc i)) ->
  exists res, scalarReduction op identity divideBy input out access divisor = Some res /\ mShape res = out /\
    forall o, valid out o -> mAt res o = Some (finish (fold_left op (map dv (filter (fun i => ieqb (acc i) o) (indices s))) identity) divisor).
Proof.
  intros HA. unfold scalarReduction, iterate. destruct (acc_ok acc (fun i v => op v (dv i)) (indices s) (Mem out (fun _ => Some identity))) as (m & E & SH & R).
  { intros i Hi. apply indices_In in Hi. now apply HA. }
  { intros o _. eexists; reflexivity. }
  rewrite (foldM_ext_in _ (fun i m => v <- load m (acc i) ;; store m (acc i) (op v (dv i)))).
  2:{ intros i m0 Hi. apply indices_In in Hi. destruct (HA i Hi) as [-> _]. cbn [obind]. rewrite load_ok, HD by auto. cbn [obind]. reflexivity. }
  rewrite E. cbn [obind mShape] in *. unfold finish. destruct divideBy as [div|].
  - destruct (acc_ok (fun o => o) (fun _ v => div v divisor) (indices out) m) as (m' & E' & SH' & R').
    { intros i Hi. apply indices_In in Hi. now rewrite SH. }
    { intros o Vo. rewrite SH in Vo. eexists. apply R; auto. reflexivity. }
    exists m'. split; [exact E'|]. split; [congruence|]. intros o Vo. rewrite SH in R'. erewrite R'; [|auto|apply R; [auto|reflexivity]].
    rewrite (filter_ext _ (ieqb o)) by (intros; apply ieqb_sym). rewrite filter_same by auto. cbn [fold_left]. do 2 f_equal.
    clear. generalize (filter (fun i => ieqb (acc i) o) (indices s)), identity. induction l as [|i l IH]; intros v; cbn; auto.
  - exists m. split; auto. split; [exact SH|]. intros o Vo. rewrite (R o identity Vo eq_refl). f_equal.
    clear. generalize (filter (fun i => ieqb (acc i) o) (indices s)), identity. induction l as [|i l IH]; intros v; cbn; auto.
Qed.

Lemma fold_left_mul l : forall a, fold_left Z.mul l a = a * prodZ l.
Proof. induction l as [|x l IH]; intros a; cbn [fold_left]; [change (prodZ []) with 1; lia|]. rewrite IH, prodZ_cons. lia. Qed.
Lemma reduce_finish red keep out access : length red = length s -> out = reduceDims red keep 1 s ->
  (divideBy = None \/ prodZ out <> 0) ->
  (forall i, valid s i -> access i = Some (reduceDims red keep 0 i)) ->
  exists res, ofOption (divisor <- divisorForMean divideBy s out ;; scalarReduction op identity divideBy input out access divisor) = Result res /\ mShape res = out /\
    forall o, valid out o -> let e := reducedElements red keep s dv o in mAt res o = Some (finish (fold_left op e identity) (Z.of_nat (length e))).
Proof.
  intros L -> N HA. set (out := reduceDims red keep 1 s) in *.
  assert (EX : forall divisor, exists res, scalarReduction op identity divideBy input out access divisor = Some res /\ mShape res = out /\
    forall o, valid out o -> mAt res o = Some (finish (fold_left op (reducedElements red keep s dv o) identity) divisor)).
  { intros divisor. apply scalarReduction_ok. intros i V. split; auto. now apply reduceDims_valid. }
  unfold divisorForMean, finish in *. destruct divideBy as [div|].
  - destruct N as [N|N]; [discriminate|]. rewrite !fold_left_mul, !Z.mul_1_l. destruct (Z.eqb_spec (prodZ out) 0); [contradiction|]. cbn [obind].
    destruct (EX (prodZ s / prodZ out)) as (res & -> & SH & R). exists res. split; [reflexivity|]. split; auto. intros o Vo. cbn zeta. rewrite R by auto. do 2 f_equal.
    unfold reducedElements. rewrite map_length. rewrite <- (reduced_count red keep s o L OKs Vo). fold out. now rewrite Z.div_mul.
  - cbn [obind]. destruct (EX 0) as (res & -> & SH & R). exists res. split; [reflexivity|]. split; auto.
Qed.

Lemma reduceStatic_ok red keep low ty : length red = length s -> typed ty s -> (divideBy = None \/ prodZ (reduceDims red keep 1 s) <> 0) ->
  map (fun i => existsb (Nat.eqb i) low) (seq 0 (length s)) = red ->
  exists res, reduceStatic op identity divideBy (length s) low (reducedType red keep ty) keep input = Result res /\ mShape res = reduceDims red keep 1 s /\
    forall o, valid (reduceDims red keep 1 s) o -> let e := reducedElements red keep s dv o in mAt res o = Some (finish (fold_left op e identity) (Z.of_nat (length e))).
Proof.
  intros L HT N HL. unfold reduceStatic, getReductionMapping. rewrite HL. rewrite staticOut_ok by auto. apply reduce_finish; auto. intros i V. f_equal.
  unfold outLoopIVs. rewrite <- reduceIdx_eq. pose proof (valid_length _ _ V) as LV.
  rewrite <- (outLoopIVs_ok red keep 0 [] i) by lia. rewrite reduceIdx_eq. rewrite (reduceDims_length red keep 1 0 s i) by lia. cbn [app length]. reflexivity.
Qed.

End Reduce.
