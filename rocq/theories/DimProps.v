(* C53: what the analysis of unknown dimensions says is true of every run. *)
From Coq Require Import List Arith Bool ZArith Lia.
Import ListNotations.
From Verif Require Import Util DimSpec DimModel DimProofs.
Open Scope Z_scope.

Lemma sizeAt_inBound p r v x a : Runs p r -> inBound x (rankOf p v) = Some a ->
  sizeAt (shp r v) x = Some (at_ (shp r v) a).
Proof.
  intros HR H. assert (L : rankOf p v = length (shp r v)).
  { destruct HR as (HF & _). specialize (HF v). unfold rankOf. induction HF; cbn; auto. }
  unfold inBound in H. rewrite L in H. unfold sizeAt.
  destruct ((0 <=? normAxis x (length (shp r v))) && (normAxis x (length (shp r v)) <? Z.of_nat (length (shp r v))));
    [|discriminate]. now injection H as <-.
Qed.

Lemma same_from_sets p r ss t1 x1 t2 x2 :
  WellTyped p -> Runs p r -> HelperTrue p r -> Ordinary p r -> uniform p r ss ->
  sameDim p ss t1 x1 t2 x2 = true ->
  exists n, sizeAt (shp r t1) x1 = Some n /\ sizeAt (shp r t2) x2 = Some n.
Proof.
  intros HT HR HH HO HU H.
  destruct (sameDim_sound p r HR ss t1 x1 t2 x2 HU H) as (a1 & a2 & B1 & B2 & E).
  exists (at_ (shp r t1) a1). split.
  - eapply sizeAt_inBound; eauto.
  - rewrite E. eapply sizeAt_inBound; eauto.
Qed.

(* The first phase: dimensions put in one class have the same size in every ordinary run. *)
Theorem C53_classes_sound : forall p r whole fuel ss t1 x1 t2 x2,
  WellTyped p -> Runs p r -> HelperTrue p r -> Ordinary p r ->
  classify fuel p (initial p whole) = Ok ss ->
  sameDim p ss t1 x1 t2 x2 = true ->
  exists n, sizeAt (shp r t1) x1 = Some n /\ sizeAt (shp r t2) x2 = Some n.
Proof.
  intros p r whole fuel ss t1 x1 t2 x2 HT HR HH HO HC H.
  eapply same_from_sets; eauto.
  eapply (classify_good p r HT HR HH HO) in HC; [exact (proj1 HC)|]. apply initial_good; auto.
Qed.

(* The whole analysis. *)
Theorem C53_same_dim_sound : forall p r whole fuel st t1 x1 t2 x2,
  WellTyped p -> Runs p r -> HelperTrue p r -> Ordinary p r -> OffsetSafe p r ->
  analyze fuel p whole = Ok st ->
  sameDim p (sSets st) t1 x1 t2 x2 = true ->
  exists n, sizeAt (shp r t1) x1 = Some n /\ sizeAt (shp r t2) x2 = Some n.
Proof.
  intros p r whole fuel st t1 x1 t2 x2 HT HR HH HO HS HA H.
  eapply same_from_sets; eauto.
  apply (analyze_good p r HT HR HH HO HS) in HA as [[HU _] _]. exact HU.
Qed.

Print Assumptions C53_same_dim_sound.

(* sameShape, sameDynShape and broadcastLastDim. *)
Lemma shape_ext a b : length a = length b -> (forall i, (i < length a)%nat -> at_ a i = at_ b i) -> a = b.
Proof. intros L H. apply (nth_ext a b 0 0 L). exact H. Qed.

Lemma rank_shape p r v : Runs p r -> rankOf p v = length (shp r v).
Proof. intros (HF & _). specialize (HF v). unfold rankOf. induction HF; cbn; auto. Qed.

Lemma sizeAt_nat s i : (i < length s)%nat -> sizeAt s (Z.of_nat i) = Some (at_ s i).
Proof.
  intros L. unfold sizeAt, normAxis. destruct (Z.of_nat i <? 0) eqn:E; [apply Z.ltb_lt in E; lia|].
  replace ((0 <=? Z.of_nat i) && (Z.of_nat i <? Z.of_nat (length s))) with true.
  - now rewrite Nat2Z.id.
  - symmetry. apply andb_true_iff. split; [apply Z.leb_le|apply Z.ltb_lt]; lia.
Qed.

Theorem C53_same_shape_sound : forall p r whole fuel st a b,
  WellTyped p -> Runs p r -> HelperTrue p r -> Ordinary p r -> OffsetSafe p r ->
  analyze fuel p whole = Ok st ->
  sameShape p st a b = true -> shp r a = shp r b.
Proof.
  intros p r whole fuel st a b HT HR HH HO HS HA H. unfold sameShape in H.
  apply andb_true_iff in H as [L H]. apply Nat.eqb_eq in L. rewrite !(rank_shape p r _ HR) in *.
  rewrite forallb_forall in H. apply shape_ext; auto. intros i Hi.
  assert (Hs : In i (seq 0 (length (shp r a)))) by (apply in_seq; lia).
  destruct (C53_same_dim_sound _ _ _ _ _ _ _ _ _ HT HR HH HO HS HA (H i Hs)) as (n & E1 & E2).
  rewrite sizeAt_nat in E1 by auto. rewrite sizeAt_nat in E2 by lia. congruence.
Qed.

(* sameDynShape compares the unknown dimensions only. *)
Theorem C53_same_unknown_sound : forall p r whole fuel st a b i,
  WellTyped p -> Runs p r -> HelperTrue p r -> Ordinary p r -> OffsetSafe p r ->
  analyze fuel p whole = Ok st ->
  sameDynShape p st a b = true ->
  length (shp r a) = length (shp r b) /\
  (isDyn p a i \/ isDyn p b i -> at_ (shp r a) i = at_ (shp r b) i).
Proof.
  intros p r whole fuel st a b i HT HR HH HO HS HA H. unfold sameDynShape in H.
  apply andb_true_iff in H as [L H]. apply Nat.eqb_eq in L. rewrite forallb_forall in H.
  pose proof (rank_shape p r a HR) as La. pose proof (rank_shape p r b HR) as Lb.
  split; [congruence|]. intros HD.
  assert (Hi : (i < rankOf p a)%nat).
  { destruct HD as [HD|HD]; [|rewrite L]; apply nth_error_Some; unfold isDyn in HD; congruence. }
  specialize (H i (proj2 (in_seq _ _ _) (conj (Nat.le_0_l _) Hi))). apply orb_true_iff in H as [H|H].
  - apply andb_true_iff in H as [N1 N2]. destruct HD as [HD|HD]; apply dynDim_true in HD; rewrite HD in *; discriminate.
  - destruct (C53_same_dim_sound _ _ _ _ _ _ _ _ _ HT HR HH HO HS HA H) as (n & E1 & E2).
    rewrite sizeAt_nat in E1 by lia. rewrite sizeAt_nat in E2 by lia. congruence.
Qed.

(* broadcastLastDim: [a] has 1 in the last dimension and agrees with [b] elsewhere, so
   [b] is the result of broadcasting the two. *)
Theorem C53_broadcast_last_sound : forall p r whole fuel st a b,
  WellTyped p -> Runs p r -> HelperTrue p r -> Ordinary p r -> OffsetSafe p r ->
  analyze fuel p whole = Ok st ->
  broadcastLastDim p st a b = true ->
  bcast [shp r a; shp r b] (shp r b) /\ sizeAt (shp r a) (-1) = Some 1.
Proof.
  intros p r whole fuel st a b HT HR HH HO HS HA H. unfold broadcastLastDim in H.
  apply andb_true_iff in H as [L H]. apply Nat.eqb_eq in L. rewrite !(rank_shape p r _ HR) in *.
  destruct (nth_error (tdims (types p a)) (length (shp r a) - 1)) as [[z|]|] eqn:E; try discriminate.
  destruct z as [|q|]; try discriminate. destruct q; try discriminate.
  assert (La : (0 < length (shp r a))%nat).
  { rewrite <- (rank_shape p r _ HR). unfold rankOf. destruct (tdims (types p a)); [|cbn; lia].
    destruct (length (shp r a) - 1)%nat; discriminate. }
  assert (H1 : at_ (shp r a) (length (shp r a) - 1) = 1).
  { destruct HR as (HF & _). specialize (HF a). unfold at_. clear - E HF. revert E. generalize (length (shp r a) - 1)%nat.
    induction HF as [|t d l l' Htd HF IH]; intros n E; [destruct n; discriminate|].
    destruct n as [|n]; cbn in E |- *.
    - injection E as ->. destruct Htd; congruence.
    - apply IH; auto. }
  assert (HE : forall i, (i < length (shp r a) - 1)%nat -> at_ (shp r a) i = at_ (shp r b) i).
  { intros i Hi. rewrite forallb_forall in H.
    specialize (H i (proj2 (in_seq _ _ _) (conj (Nat.le_0_l _) Hi))).
    destruct (C53_same_dim_sound _ _ _ _ _ _ _ _ _ HT HR HH HO HS HA H) as (n & E1 & E2).
    rewrite sizeAt_nat in E1 by lia. rewrite sizeAt_nat in E2 by lia. congruence. }
  split.
  - split; [cbn; lia|]. intros k Hk. unfold bcast1. cbn [map In].
    split; [auto|]. intros x [<-|[<-|[]]]; auto.
    destruct k as [|k].
    + left. pose proof (fromEnd_at (shp r a) (length (shp r a) - 1)) as HF.
      replace (length (shp r a) - 1 - (length (shp r a) - 1))%nat with O in HF by lia. rewrite HF by lia. auto.
    + right. pose proof (fromEnd_at (shp r a) (length (shp r a) - 2 - k)) as Ha.
      pose proof (fromEnd_at (shp r b) (length (shp r b) - 2 - k)) as Hb.
      replace (length (shp r a) - 1 - (length (shp r a) - 2 - k))%nat with (S k) in Ha by lia.
      replace (length (shp r b) - 1 - (length (shp r b) - 2 - k))%nat with (S k) in Hb by lia.
      rewrite Ha, Hb by lia. rewrite <- L. apply HE. lia.
  - unfold sizeAt, normAxis. cbn [Z.ltb Z.compare].
    replace ((0 <=? -1 + Z.of_nat (length (shp r a))) && (-1 + Z.of_nat (length (shp r a)) <? Z.of_nat (length (shp r a)))) with true.
    + f_equal. rewrite <- H1. f_equal. lia.
    + symmetry. apply andb_true_iff. split; [apply Z.leb_le|apply Z.ltb_lt]; lia.
Qed.

(* Offsets between unknown dimensions. *)
Lemma offset_lemma p r whole fuel st t1 x1 t2 x2 k a1 a2 :
  WellTyped p -> Runs p r -> HelperTrue p r -> Ordinary p r -> OffsetSafe p r ->
  analyze fuel p whole = Ok st ->
  inBound x1 (rankOf p t1) = Some a1 -> inBound x2 (rankOf p t2) = Some a2 ->
  isDyn p t1 a1 -> isDyn p t2 a2 ->
  getDimOffset p st t1 x1 t2 x2 = Some k ->
  at_ (shp r t2) a2 = at_ (shp r t1) a1 + k.
Proof.
  intros HT HR HH HO HS HA B1 B2 D1 D2 H. unfold getDimOffset in H. rewrite B1, B2 in H.
  pose proof HA as HA'. apply (analyze_good p r HT HR HH HO HS) in HA as [_ HRs].
  destruct (sameDim p (sSets st) t1 x1 t2 x2) eqn:ES.
  - injection H as <-.
    destruct (C53_same_dim_sound _ _ _ _ _ _ _ _ _ HT HR HH HO HS HA' ES) as (n & E1 & E2).
    rewrite (sizeAt_inBound p r _ _ _ HR B1) in E1. rewrite (sizeAt_inBound p r _ _ _ HR B2) in E2.
    injection E1 as E1. injection E2 as E2. lia.
  - assert (G : forall s a t b q, isDyn p s a -> isDyn p t b ->
       find (fun r0 => dimEq (rtgt r0) (t, b)) (relsOf (sRels st) (s, a)) = Some q ->
       at_ (shp r t) b = at_ (shp r s) a + roff q).
    { intros s a t b q Ds Dt HF. apply find_some in HF as [HF E]. apply dimEq_true in E.
      apply relsOf_In in HF as [HF Ek]. destruct (HRs q HF) as [_ Hv].
      rewrite Ek, E in Hv. rewrite (val_dyn p r s a Ds), (val_dyn p r t b Dt) in Hv.
      rewrite Hv; auto. eapply dyn_ok; eauto. }
    destruct (find (fun r0 => dimEq (rtgt r0) (t2, a2)) (relsOf (sRels st) (t1, a1))) eqn:F1.
    + injection H as <-. eapply G; eauto.
    + destruct (find (fun r0 => dimEq (rtgt r0) (t1, a1)) (relsOf (sRels st) (t2, a2))) eqn:F2; [|discriminate].
      injection H as <-. specialize (G _ _ _ _ _ D2 D1 F2). lia.
Qed.

(* The size of an unknown dimension, named by an axis that may be negative. *)
Definition unknownSize (p : prog) (r : run) (v : nat) (x n : Z) : Prop :=
  sizeAt (shp r v) x = Some n /\
  isDyn p v (Z.to_nat (normAxis x (length (tdims (types p v))))).

Lemma unknown_inBound p r v x n : Runs p r -> unknownSize p r v x n ->
  exists a, inBound x (rankOf p v) = Some a /\ isDyn p v a /\ at_ (shp r v) a = n.
Proof.
  intros HR [H1 H2]. pose proof (rank_shape p r v HR) as L. unfold sizeAt in H1. unfold inBound. rewrite L.
  unfold rankOf in L. rewrite L in H2.
  destruct ((0 <=? normAxis x (length (shp r v))) && (normAxis x (length (shp r v)) <? Z.of_nat (length (shp r v)))); [|discriminate].
  injection H1 as H1. eauto.
Qed.

Theorem C53_offset_sound : forall p r whole fuel st t1 x1 n1 t2 x2 n2 k,
  WellTyped p -> Runs p r -> HelperTrue p r -> Ordinary p r -> OffsetSafe p r ->
  analyze fuel p whole = Ok st ->
  unknownSize p r t1 x1 n1 -> unknownSize p r t2 x2 n2 ->
  getDimOffset p st t1 x1 t2 x2 = Some k -> n2 = n1 + k.
Proof.
  intros p r whole fuel st t1 x1 n1 t2 x2 n2 k HT HR HH HO HS HA U1 U2 H.
  destruct (unknown_inBound _ _ _ _ _ HR U1) as (a1 & B1 & D1 & <-).
  destruct (unknown_inBound _ _ _ _ _ HR U2) as (a2 & B2 & D2 & <-).
  eapply offset_lemma; eauto.
Qed.

Theorem C53_same_with_offset_sound : forall p r whole fuel st t1 x1 n1 o1 t2 x2 n2 o2,
  WellTyped p -> Runs p r -> HelperTrue p r -> Ordinary p r -> OffsetSafe p r ->
  analyze fuel p whole = Ok st ->
  unknownSize p r t1 x1 n1 -> unknownSize p r t2 x2 n2 ->
  sameDimWithOffset p st t1 x1 o1 t2 x2 o2 = true -> n1 + o1 = n2 + o2.
Proof.
  intros p r whole fuel st t1 x1 n1 o1 t2 x2 n2 o2 HT HR HH HO HS HA U1 U2 H.
  unfold sameDimWithOffset in H.
  destruct (inBound x1 (rankOf p t1)); [|discriminate]. destruct (inBound x2 (rankOf p t2)); [|discriminate].
  destruct (o1 - o2 =? 0) eqn:E.
  - apply Z.eqb_eq in E.
    destruct (C53_same_dim_sound _ _ _ _ _ _ _ _ _ HT HR HH HO HS HA H) as (m & E1 & E2).
    destruct U1 as [U1 _]. destruct U2 as [U2 _]. rewrite U1 in E1. rewrite U2 in E2.
    injection E1 as E1. injection E2 as E2. lia.
  - destruct (getDimOffset p st t1 x1 t2 x2) as [k|] eqn:G; [|discriminate]. apply Z.eqb_eq in H. subst k.
    pose proof (C53_offset_sound _ _ _ _ _ _ _ _ _ _ _ _ HT HR HH HO HS HA U1 U2 G). lia.
Qed.

(* RemoveSameONNXDim replaces all values found for one class by one of them: they are the
   same number in every run. *)
Theorem C53_merged_dims_equal : forall p r whole fuel st s v w,
  WellTyped p -> Runs p r -> HelperTrue p r -> Ordinary p r -> OffsetSafe p r ->
  analyze fuel p whole = Ok st -> In s (sSets st) ->
  In v (dimValues p s) -> In w (dimValues p s) ->
  exists n, dat r v = [n] /\ dat r w = [n].
Proof.
  intros p r whole fuel st s v w HT HR HH HO HS HA Hs Hv Hw.
  apply (analyze_good p r HT HR HH HO HS) in HA as [[HU HK] _].
  assert (DV : forall o a x, In o (ops p) -> okind o = KDim a -> In x (outs o) ->
     exists y, ins o = [Some y] /\ outs o = [x] /\ dat r x = [at_ (shp r y) a] /\ oneElem p x /\ isDyn p y a).
  { intros o a x Ho K Hx. destruct HR as (_ & _ & HOp & _). specialize (HOp o Ho). unfold opRuns in HOp.
    destruct HT as (_ & _ & HW). specialize (HW o Ho). rewrite K in *.
    destruct (ins o) as [|[y|] [|]]; try contradiction. destruct (outs o) as [|x' [|]]; try contradiction.
    destruct Hx as [->|[]]. destruct HOp as [_ HOp]. destruct HW. eauto 8. }
  assert (G : forall x, In x (dimValues p s) -> exists d, In d s /\ dat r x = [val p r d]).
  { intros x Hx. unfold dimValues in Hx. apply in_flat_map in Hx as (d & Hd & Hx). exists d. split; auto.
    destruct (defKind p (fst d)) as [k|] eqn:EK; [|destruct Hx].
    assert (O : In x (match find (fun u => match nth_error (ops p) u with
                             | Some {| okind := KDim a |} => Nat.eqb a (snd d)
                             | _ => false end) (users p (fst d)) with
        | Some u => match nth_error (ops p) u with Some o => outs o | None => [] end
        | None => [] end) -> dat r x = [val p r d]).
    { clear Hx. intros Hx. destruct (find _ (users p (fst d))) as [u|] eqn:EF; [|destruct Hx].
      apply find_some in EF as [EF1 EF2]. destruct (nth_error (ops p) u) as [o|] eqn:EN; [|destruct Hx].
      unfold users in EF1. apply filter_In in EF1 as [_ EF1]. rewrite EN in EF1.
      apply existsb_exists in EF1 as (z & Hz & Ez). apply Nat.eqb_eq in Ez. subst z.
      destruct o as [k' li lo h] eqn:Eo. destruct k'; try discriminate. apply Nat.eqb_eq in EF2. rewrite <- Eo in *.
      apply nth_error_In in EN.
      destruct (DV o axis x EN) as (y & I1 & I2 & I3 & I4 & I5); try (subst o; auto; fail).
      subst o. cbn [ins outs] in *. rewrite I1 in Hz. destruct Hz as [Hz|[]]. rewrite I3. f_equal.
      destruct d as [dv da]. cbn [fst snd] in *. subst dv da. now rewrite (val_dyn p r y axis I5). }
    destruct k; auto. destruct Hx as [<-|[]]. clear O.
    apply defKind_Some in EK as (o & _ & K & Ho & Hx).
    destruct (DV o axis (fst d) Ho K Hx) as (y & I1 & I2 & I3 & I4 & I5). rewrite I3. f_equal.
    unfold val. apply oneB_true in I4. rewrite I4, I3. reflexivity. }
  destruct (G v Hv) as (d1 & D1 & ->). destruct (G w Hw) as (d2 & D2 & ->).
  rewrite (HU s d1 d2 Hs D1 D2). eauto.
Qed.

(* The analysis does not depend on the order of the question. *)
Theorem C53_same_dim_symmetric : forall p st t1 x1 t2 x2,
  sameDim p (sSets st) t1 x1 t2 x2 = sameDim p (sSets st) t2 x2 t1 x1.
Proof.
  intros. unfold sameDim.
  destruct (inBound x1 (rankOf p t1)) as [a|], (inBound x2 (rankOf p t2)) as [b|]; auto.
  assert (DS : forall c d : dim, dimEq c d = dimEq d c).
  { intros. unfold dimEq. now rewrite (Nat.eqb_sym (fst c)), (Nat.eqb_sym (snd c)). }
  rewrite (DS (t1, a)). destruct (dimEq (t2, b) (t1, a)) eqn:E; auto.
  destruct (nth_error (tdims (types p t1)) a) as [[|]|], (nth_error (tdims (types p t2)) b) as [[|]|]; auto.
  - apply Z.eqb_sym.
  - unfold sameDynDim. rewrite (DS (t1, a)). f_equal. induction (sSets st); cbn; auto.
    now rewrite IHs, andb_comm.
Qed.

(* Classification always ends, whatever the program ... *)
Theorem C53_classification_ends : forall p whole, exists n, forall fuel, (n <= fuel)%nat ->
  classify fuel p (initial p whole) <> OutOfFuel.
Proof.
  intros p whole. exists (S (total p (initial p whole))). intros fuel L.
  apply classify_ends; [apply initial_U|lia].
Qed.

(* ... and when the program has an ordinary run, it ends with a result. *)
Theorem C53_classification_succeeds : forall p r whole,
  WellTyped p -> Runs p r -> HelperTrue p r -> Ordinary p r ->
  exists n ss, forall fuel, (n <= fuel)%nat -> classify fuel p (initial p whole) = Ok ss.
Proof.
  intros p r whole HT HR HH HO.
  assert (G : forall n ss, inU p ss -> good p r ss -> (total p ss < n)%nat ->
    exists m res, forall fuel, (m <= fuel)%nat -> classify fuel p ss = Ok res).
  { induction n as [|n IH]; intros ss HU HG L; [lia|].
    destruct (updateFrom_ok p r HT HR HH HO ss [] HG) as ([ss' b] & E).
    destruct (updateFrom_U p ss [] ss' b HU E) as (U1 & U2 & U3).
    assert (HG' : good p r ss') by (eapply (updateFrom_good p r HT HR HH HO) with (done := []); eauto).
    destruct b.
    - specialize (U3 eq_refl). cbn [app] in U3.
      destruct (mergeLoop_U p (S (length ss')) ss' U1) as [M1 M2].
      destruct (IH (mergeDimSets ss')) as (m & res & HM); auto.
      + apply mergeLoop_good. auto.
      + unfold mergeDimSets. lia.
      + exists (S m), res. intros fuel Lf. destruct fuel as [|f]; [lia|]. cbn [classify]. unfold updateDimSets.
        rewrite E. cbn [bind fst snd]. apply HM. lia.
    - exists 1%nat, ss'. intros fuel Lf. destruct fuel as [|f]; [lia|]. cbn [classify]. unfold updateDimSets.
      rewrite E. reflexivity. }
  eapply G; [apply initial_U|apply initial_good; auto|apply Nat.lt_succ_diag_r].
Qed.
