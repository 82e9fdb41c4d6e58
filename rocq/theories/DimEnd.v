(* C53: when the propagation of offsets ends. *)
From Coq Require Import List Arith Bool ZArith Lia.
Import ListNotations.
From Verif Require Import Util DimSpec DimModel DimProofs DimProps.
Open Scope Z_scope.

Definition covered (ss : sets) (d : dim) : Prop := exists s, In s ss /\ In d s.

Lemma overlap_true a b : overlap a b = true <-> exists d, In d a /\ In d b.
Proof.
  unfold overlap. rewrite existsb_exists. split; intros (d & H1 & H2); exists d; split; auto; apply contains_In; auto.
Qed.

Lemma overlap_sym a b : overlap a b = overlap b a.
Proof.
  destruct (overlap a b) eqn:E, (overlap b a) eqn:E'; auto.
  - apply overlap_true in E as (d & H1 & H2). assert (overlap b a = true) by (apply overlap_true; eauto). congruence.
  - apply overlap_true in E' as (d & H1 & H2). assert (overlap a b = true) by (apply overlap_true; eauto). congruence.
Qed.

Lemma apart_eq ss : apart ss -> forall a b d, In a ss -> In b ss -> In d a -> In d b -> a = b.
Proof.
  intros H a b d Ha Hb Da Db. destruct (ForallOrdPairs_In H a b Ha Hb) as [E|[E|E]]; auto;
    [|rewrite overlap_sym in E]; assert (overlap a b = true) by (apply overlap_true; eauto); congruence.
Qed.

(* ---------- what merging does to the sets ---------- *)
Definition coarser (ss out : sets) : Prop :=
  (forall s, In s ss -> exists F, In F out /\ incl s F) /\
  (forall d, covered out d -> covered ss d) /\
  ((forall s, In s ss -> s <> []) -> forall s, In s out -> s <> []).

Lemma coarser_refl ss : coarser ss ss.
Proof. split; [|split]; auto. intros s Hs. exists s. split; auto. apply incl_refl. Qed.

Lemma coarser_trans a b c : coarser a b -> coarser b c -> coarser a c.
Proof.
  intros (A1 & A2 & A3) (B1 & B2 & B3). split; [|split]; auto.
  intros s Hs. destruct (A1 s Hs) as (F & HF & I). destruct (B1 F HF) as (G & HG & J). exists G. split; auto.
  eapply incl_tran; eauto.
Qed.

Lemma absorb_coarser rest : forall lhs l' kept, absorb lhs rest = (l', kept) -> incl lhs l' /\ coarser (lhs :: rest) (l' :: kept).
Proof.
  induction rest as [|t rest IH]; intros lhs l' kept H; cbn [absorb] in H.
  - injection H as <- <-. split; [apply incl_refl|apply coarser_refl].
  - destruct (overlap lhs t) eqn:E.
    + apply IH in H as (I & H1 & H2 & H3).
      assert (J : forall d, In d (fold_left insert t lhs) <-> In d lhs \/ In d t) by (intros; apply fold_insert_In).
      split; [intros d Hd; apply I, J; auto|]. split; [|split].
      * intros s [<-|[<-|Hs]].
        -- exists l'. split; [now left|]. intros d Hd. apply I, J. auto.
        -- exists l'. split; [now left|]. intros d Hd. apply I, J. auto.
        -- apply H1. now right.
      * intros d Hd. destruct (H2 d Hd) as (s & [<-|Hs] & Hds).
        -- apply J in Hds as [Hds|Hds]; [exists lhs|exists t]; split; auto; [now left|right; now left].
        -- exists s. split; auto. right. now right.
      * intros HN. apply H3. intros s [<-|Hs]; [|apply HN; right; now right].
        intros E0. apply (HN lhs); [now left|]. destruct lhs as [|d l]; auto.
        assert (In d (fold_left insert t (d :: l))) by (apply J; left; now left). rewrite E0 in H. destruct H.
    + destruct (absorb lhs rest) as [l'' k] eqn:EA. injection H as <- <-. apply IH in EA as (I & H1 & H2 & H3).
      split; auto. split; [|split].
      * intros s [<-|[<-|Hs]].
        -- exists l''. split; [now left|auto].
        -- exists t. split; [right; now left|apply incl_refl].
        -- destruct (H1 s) as (F & HF & J); [now right|]. exists F. split; auto. destruct HF; [now left|right; now right].
      * intros d (s & [<-|[<-|Hs]] & Hd).
        -- destruct (H2 d) as (s & Hs & Hds); [exists l''; split; auto; now left|].
           exists s. split; auto. destruct Hs; [now left|right; now right].
        -- exists t. split; auto. right. now left.
        -- destruct (H2 d) as (s' & Hs' & Hds); [exists s; split; auto; now right|].
           exists s'. split; auto. destruct Hs'; [now left|right; now right].
      * intros HN s [<-|[<-|Hs]].
        -- apply H3; [|now left]. intros q [<-|Hq]; apply HN; [now left|right; now right].
        -- apply HN. right. now left.
        -- apply H3; [|now right]. intros q [<-|Hq]; apply HN; [now left|right; now right].
Qed.

Lemma mergeRound_coarser n : forall ss, coarser ss (mergeRound n ss).
Proof.
  induction n as [|n IH]; intros ss; [apply coarser_refl|]. destruct ss as [|s rest]; [apply coarser_refl|].
  cbn [mergeRound]. destruct (absorb s rest) as [s' kept] eqn:EA. apply absorb_coarser in EA as [_ EA].
  eapply coarser_trans; [exact EA|]. destruct (IH kept) as (H1 & H2 & H3). split; [|split].
  - intros q [<-|Hq]; [exists s'; split; [now left|apply incl_refl]|].
    destruct (H1 q Hq) as (F & HF & J). exists F. split; auto. now right.
  - intros d (q & [<-|Hq] & Hd); [exists s'; split; auto; now left|].
    destruct (H2 d) as (q' & Hq' & Hd'); [exists q; auto|]. exists q'. split; auto. now right.
  - intros HN q [<-|Hq]; [apply HN; now left|]. apply H3; auto. intros; apply HN; now right.
Qed.

Lemma mergeLoop_coarser n : forall ss, coarser ss (mergeLoop n ss).
Proof.
  induction n as [|n IH]; intros ss; [apply coarser_refl|]. cbn [mergeLoop].
  destruct (length (mergeRound (length ss) ss) <? length ss)%nat.
  - eapply coarser_trans; [apply mergeRound_coarser|apply IH].
  - apply mergeRound_coarser.
Qed.

Lemma mergeDimSets_coarser ss : coarser ss (mergeDimSets ss).
Proof. apply mergeLoop_coarser. Qed.

(* Each resulting set contains an original one, different ones for different sets. *)
Lemma choose {A B} (P : A -> B -> Prop) l : (forall a, In a l -> exists b, P a b) -> exists m, Forall2 P l m.
Proof.
  induction l as [|a l IH]; intros H; [exists []; constructor|].
  destruct (H a) as (b & Hb); [now left|]. destruct IH as (m & Hm); [intros; apply H; now right|].
  exists (b :: m). constructor; auto.
Qed.

Lemma count_below out ss (ok : nat -> Prop) (room : list nat) :
  apart out -> (forall s, In s ss -> s <> []) ->
  (forall F, In F out -> exists i s, In i room /\ nth_error ss i = Some s /\ incl s F) ->
  (length out <= length room)%nat.
Proof.
  intros HA HN H.
  destruct (choose (fun F i => exists s, In i room /\ nth_error ss i = Some s /\ incl s F) out) as (m & Hm).
  { intros F HF. destruct (H F HF) as (i & s & ?). eauto. }
  assert (L : length out = length m) by (clear - Hm; induction Hm; cbn; auto). rewrite L.
  apply NoDup_incl_length.
  - clear H L. induction Hm as [|F i out m HF Hm IH]; constructor.
    + intros Hin. inversion HA; subst.
      assert (G : exists F', In F' out /\ exists s, In i room /\ nth_error ss i = Some s /\ incl s F').
      { clear - Hm Hin. induction Hm as [|F j out m HF Hm IH]; [destruct Hin|]. destruct Hin as [->|Hin].
        - exists F. split; auto. now left.
        - destruct (IH Hin) as (F' & H1 & H2). exists F'. split; auto. now right. }
      destruct G as (F' & HF' & s & _ & E & I). destruct HF as (s' & _ & E' & I'). rewrite E in E'. injection E' as <-.
      rewrite Forall_forall in H1. specialize (H1 F' HF').
      destruct s as [|d s]; [apply (HN []); auto; eapply nth_error_In; eauto|].
      assert (overlap F F' = true) by (apply overlap_true; exists d; split; [apply I'|apply I]; now left). congruence.
    + apply IH. inversion HA; auto.
  - intros i Hi. clear - Hm Hi. induction Hm as [|F j out m (s & Hr & _) Hm IH]; [destruct Hi|].
    destruct Hi as [<-|Hi]; auto.
Qed.

Lemma merge_count ss new :
  (forall s, In s ss -> s <> []) -> (forall s, In s new -> s <> []) ->
  (forall d, covered new d -> covered ss d) ->
  (length (mergeDimSets (ss ++ new)) <= length ss)%nat.
Proof.
  intros HN HW HC. destruct (mergeDimSets_coarser (ss ++ new)) as (C1 & C2 & C3).
  rewrite <- (seq_length (length ss) 0). apply (count_below _ ss (fun _ => True)); auto; [apply mergeDimSets_apart|].
  intros F HF.
  assert (HF0 : F <> []).
  { apply C3; auto. intros s Hs. apply in_app_iff in Hs as [Hs|Hs]; auto. }
  destruct F as [|d F]; [congruence|].
  assert (Hd : covered ss d).
  { destruct (C2 d) as (s & Hs & Hd); [exists (d :: F); split; auto; now left|].
    apply in_app_iff in Hs as [Hs|Hs]; [exists s; auto|apply HC; exists s; auto]. }
  destruct Hd as (s & Hs & Hd). destruct (C1 s) as (F' & HF' & I); [apply in_app_iff; auto|].
  rewrite (apart_eq _ (mergeDimSets_apart (ss ++ new)) (d :: F) F' d HF HF'); [|now left|auto].
  apply In_nth_error in Hs as (i & Hi). exists i, s. split; [|auto]. apply in_seq.
  assert (i < length ss)%nat by (apply nth_error_Some; congruence). lia.
Qed.

Lemma merge_count_less ss new t0 t :
  (forall s, In s ss -> s <> []) -> (forall s, In s new -> s <> []) ->
  (forall d, covered new d -> covered ss d) ->
  (exists q, In q new /\ In t0 q /\ In t q) ->
  (forall s, In s ss -> In t0 s -> In t s -> False) ->
  (length (mergeDimSets (ss ++ new)) < length ss)%nat.
Proof.
  intros HN HW HC (q & Hq & Q0 & Qt) HX. destruct (mergeDimSets_coarser (ss ++ new)) as (C1 & C2 & C3).
  pose proof (mergeDimSets_apart (ss ++ new)) as HA.
  destruct (HC t) as (st & Hst & Ht); [exists q; auto|]. destruct (HC t0) as (s0 & Hs0 & Ht0); [exists q; auto|].
  apply In_nth_error in Hst as Hk. destruct Hk as (k & Hk).
  assert (Lk : (k < length ss)%nat) by (apply nth_error_Some; congruence).
  assert (LR : length (seq 0 k ++ seq (S k) (length ss - S k)) = (length ss - 1)%nat).
  { rewrite app_length, !seq_length. lia. }
  enough (length (mergeDimSets (ss ++ new)) <= length (seq 0 k ++ seq (S k) (length ss - S k)))%nat by lia.
  apply (count_below _ ss (fun _ => True)); auto.
  assert (In_room : forall i s, nth_error ss i = Some s -> i <> k -> In i (seq 0 k ++ seq (S k) (length ss - S k))).
  { intros i s E N. assert (i < length ss)%nat by (apply nth_error_Some; congruence).
    rewrite in_app_iff, !in_seq. lia. }
  intros F HF.
  assert (HF0 : F <> []).
  { apply C3; auto. intros s Hs. apply in_app_iff in Hs as [Hs|Hs]; auto. }
  destruct F as [|d F]; [congruence|]. set (G := d :: F) in *.
  assert (HdG : In d G) by now left.
  assert (Hd : covered ss d).
  { destruct (C2 d) as (s & Hs & Hd); [exists G; auto|].
    apply in_app_iff in Hs as [Hs|Hs]; [exists s; auto|apply HC; exists s; auto]. }
  destruct Hd as (s & Hs & Hd). destruct (C1 s) as (F' & HF' & I); [apply in_app_iff; auto|].
  assert (G = F') by (eapply apart_eq; eauto). subst F'. clear HF'.
  apply In_nth_error in Hs as (i & Hi). destruct (Nat.eq_dec i k) as [->|N].
  - rewrite Hk in Hi. injection Hi as <-.
    destruct (C1 q) as (F1 & HF1 & I1); [apply in_app_iff; auto|].
    assert (G = F1) by (eapply (apart_eq _ HA _ _ t); eauto). subst F1.
    destruct (C1 s0) as (F2 & HF2 & I2); [apply in_app_iff; auto|].
    assert (G = F2) by (eapply (apart_eq _ HA _ _ t0); eauto). subst F2.
    apply In_nth_error in Hs0 as Hj. destruct Hj as (j & Hj). exists j, s0. split; [|auto].
    eapply In_room; eauto. intros ->. rewrite Hk in Hj. injection Hj as ->. eauto.
  - exists i, s. split; [eapply In_room; eauto|auto].
Qed.

(* ---------- sharing ---------- *)
Definition lacks (rs : list rel) (d : dim) : bool := match relsOf rs d with [] => true | _ => false end.
Definition lacking (U : list dim) (rs : list rel) : nat := length (filter (lacks rs) U).

Lemma relsOf_app a b d : relsOf (a ++ b) d = relsOf a d ++ relsOf b d.
Proof. unfold relsOf. apply filter_app. Qed.

Lemma lacks_app rs more d : lacks (rs ++ more) d = lacks rs d && lacks more d.
Proof. unfold lacks. rewrite relsOf_app. destruct (relsOf rs d), (relsOf more d); reflexivity. Qed.

Lemma lacking_mono U rs more : (lacking U (rs ++ more) <= lacking U rs)%nat.
Proof.
  unfold lacking. induction U as [|d U IH]; cbn [filter]; auto. rewrite lacks_app.
  destruct (lacks rs d), (lacks more d); cbn [andb length]; lia.
Qed.

Lemma lacking_less U rs more d : In d U -> relsOf rs d = [] -> relsOf more d <> [] ->
  (lacking U (rs ++ more) < lacking U rs)%nat.
Proof.
  intros Hin E N.
  assert (A : lacks rs d = true) by (unfold lacks; now rewrite E).
  assert (B : lacks more d = false) by (unfold lacks; destruct (relsOf more d); congruence).
  unfold lacking. induction U as [|e U IH]; [destruct Hin|]. cbn [filter].
  pose proof (lacking_mono U rs more) as LM. unfold lacking in LM. rewrite lacks_app.
  destruct Hin as [->|Hin].
  - rewrite A, B. cbn [andb length]. lia.
  - specialize (IH Hin). destruct (lacks rs e), (lacks more e); cbn [andb length]; lia.
Qed.

Lemma nonempty_In {A} (l : list A) : l <> [] -> exists x, In x l.
Proof. destruct l as [|x l]; [congruence|]. exists x. now left. Qed.

Lemma shareInSet_spec U rs s : incl s U ->
  (exists more, shareInSet rs s = rs ++ more /\ (more <> [] -> (lacking U (rs ++ more) < lacking U rs)%nat)) /\
  (forall q, In q (shareInSet rs s) -> exists q', In q' rs /\ rtgt q' = rtgt q).
Proof.
  intros HI. unfold shareInSet. set (ot := firstTargets (flat_map (relsOf rs) s) []).
  set (more := flat_map _ s). split.
  - exists more. split; auto. intros HN.
    assert (exists d, In d s /\ relsOf rs d = [] /\ ot <> []) as (d & Hd & E & O).
    { apply nonempty_In in HN as (q & Hq). unfold more in Hq. apply in_flat_map in Hq as (d & Hd & Hq).
      exists d. split; auto. destruct (relsOf rs d); [|destruct Hq]. split; auto. intros E. rewrite E in Hq. destruct Hq. }
    apply (lacking_less U rs more d); auto. intros Hm.
    apply nonempty_In in O as ([off t] & O).
    assert (Hq : In (d, off, t) (relsOf more d)).
    { unfold relsOf. apply filter_In. split; [|apply dimEq_true; reflexivity]. unfold more. apply in_flat_map. exists d. split; auto.
      rewrite E. apply in_map_iff. exists (off, t). auto. }
    rewrite Hm in Hq. destruct Hq.
  - intros q Hq. apply in_app_iff in Hq as [Hq|Hq]; [exists q; auto|].
    unfold more in Hq. apply in_flat_map in Hq as (d & Hd & Hq). destruct (relsOf rs d); [|destruct Hq].
    apply in_map_iff in Hq as ([off t] & <- & Hq). cbn [fst snd]. unfold ot in Hq.
    apply firstTargets_In in Hq as [[]|(q & Hq & _ & Ht)]. apply in_flat_map in Hq as (e & _ & Hq).
    apply relsOf_In in Hq as [Hq _]. exists q. split; auto.
Qed.

Lemma share_spec U ss : (forall s, In s ss -> incl s U) -> forall rs,
  (exists more, share rs ss = rs ++ more /\ (more <> [] -> (lacking U (rs ++ more) < lacking U rs)%nat)) /\
  (forall q, In q (share rs ss) -> exists q', In q' rs /\ rtgt q' = rtgt q).
Proof.
  unfold share. induction ss as [|s ss IH]; intros HI rs; cbn [fold_left].
  - split; [exists []; rewrite app_nil_r; split; auto; congruence|eauto].
  - destruct (shareInSet_spec U rs s) as [(m1 & E1 & L1) T1]; [apply HI; now left|].
    destruct (IH (fun q Hq => HI q (or_intror Hq)) (shareInSet rs s)) as [(m2 & E2 & L2) T2]. split.
    + exists (m1 ++ m2). rewrite E2, E1, app_assoc. split; auto. intros HN. rewrite E1 in L2.
      pose proof (lacking_mono U (rs ++ m1) m2). pose proof (lacking_mono U rs m1). rewrite <- !app_assoc in *.
      destruct m1 as [|q m1].
      * rewrite app_nil_r in *. apply L2. auto.
      * assert (lacking U (rs ++ q :: m1) < lacking U rs)%nat by (apply L1; discriminate). lia.
    + intros q Hq. destruct (T2 q Hq) as (q' & H1 & H2). destruct (T1 q' H1) as (q'' & H3 & H4). exists q''. split; congruence.
Qed.

(* ---------- the loop ---------- *)
Section Loop.
Variable p : prog.
Variable U : list dim.

Definition steady (st : state) : Prop :=
  (forall s, In s (sSets st) -> s <> [] /\ incl s U) /\
  (forall q, In q (sRels st) -> covered (sSets st) (rtgt q) /\ isDyn p (fst (rtgt q)) (snd (rtgt q))).

Lemma newEqualities_spec ss rs s e : In e (newEqualities p ss rs s) ->
  exists q q', In q rs /\ In q' rs /\ fst e = rtgt q /\ snd e = rtgt q' /\
    sameDim p ss (fst (fst e)) (Z.of_nat (snd (fst e))) (fst (snd e)) (Z.of_nat (snd (snd e))) = false.
Proof.
  unfold newEqualities. destruct (length s <? 2)%nat; [intros []|]. intros H.
  apply in_flat_map in H as (off & _ & H).
  destruct (map rtgt (filter (fun r => roff r =? off) (flat_map (relsOf rs) s))) as [|t0 l] eqn:EM; [destruct H|].
  apply in_flat_map in H as (t & Ht & H).
  destruct (sameDim p ss (fst t0) (Z.of_nat (snd t0)) (fst t) (Z.of_nat (snd t))) eqn:ES; [destruct H|].
  destruct H as [<-|[]]. cbn [fst snd].
  assert (G : forall x, In x (t0 :: l) -> exists q, In q rs /\ x = rtgt q).
  { intros x Hx. rewrite <- EM in Hx. apply in_map_iff in Hx as (q & <- & Hq). apply filter_In in Hq as [Hq _].
    apply in_flat_map in Hq as (d & _ & Hq). apply relsOf_In in Hq as [Hq _]. eauto. }
  destruct (G t0) as (q & Hq & E); [now left|]. destruct (G t) as (q' & Hq' & E'); [now right|].
  exists q, q'. auto.
Qed.

Lemma dyn_inBound v a : isDyn p v a -> inBound (Z.of_nat a) (rankOf p v) = Some a.
Proof.
  intros H. unfold inBound, normAxis. destruct (Z.of_nat a <? 0) eqn:E; [apply Z.ltb_lt in E; lia|].
  assert (a < rankOf p v)%nat by (apply nth_error_Some; unfold isDyn in H; congruence).
  replace ((0 <=? Z.of_nat a) && (Z.of_nat a <? Z.of_nat (rankOf p v))) with true; [now rewrite Nat2Z.id|].
  symmetry. apply andb_true_iff. split; [apply Z.leb_le|apply Z.ltb_lt]; lia.
Qed.

Lemma dyn_different ss t0 t : isDyn p (fst t0) (snd t0) -> isDyn p (fst t) (snd t) ->
  sameDim p ss (fst t0) (Z.of_nat (snd t0)) (fst t) (Z.of_nat (snd t)) = false ->
  forall s, In s ss -> In t0 s -> In t s -> False.
Proof.
  intros D0 D1 H s Hs H0 H1. unfold sameDim in H. rewrite (dyn_inBound _ _ D0), (dyn_inBound _ _ D1) in H.
  destruct (dimEq _ _); [discriminate|]. unfold isDyn in D0, D1. rewrite D0, D1 in H. unfold sameDynDim in H.
  apply orb_false_iff in H as [_ H].
  assert (existsb (fun s0 => contains s0 (fst t0, snd t0) && contains s0 (fst t, snd t)) ss = true).
  { apply existsb_exists. exists s. split; auto. destruct t0, t. cbn [fst snd]. apply andb_true_iff. split; apply contains_In; auto. }
  congruence.
Qed.

Definition next (st : state) : state :=
  let rs := share (sRels st) (sSets st) in
  let eqs := flat_map (newEqualities p (sSets st) rs) (sSets st) in
  {| sSets := mergeDimSets (sSets st ++ map (fun e => insert [fst e] (snd e)) eqs); sRels := rs |}.

Lemma pair_In (e : dim * dim) d : In d (insert [fst e] (snd e)) <-> d = fst e \/ d = snd e.
Proof. rewrite insert_In. cbn [In]. split; intros [[H|[]]|H] || intros [H|H]; auto. Qed.

Lemma next_steady st : steady st -> steady (next st) /\ apart (sSets (next st)) /\
  (length (sSets (next st)) <= length (sSets st))%nat /\
  (lacking U (sRels (next st)) <= lacking U (sRels st))%nat /\
  (length (sRels (next st)) <> length (sRels st) -> (lacking U (sRels (next st)) < lacking U (sRels st))%nat) /\
  (flat_map (newEqualities p (sSets st) (share (sRels st) (sSets st))) (sSets st) <> [] ->
     (length (sSets (next st)) < length (sSets st))%nat).
Proof.
  intros [H1 H2]. cbn [next sSets sRels].
  destruct (share_spec U (sSets st) (fun s Hs => proj2 (H1 s Hs)) (sRels st)) as [(more & ER & LR) TR].
  set (rs := share (sRels st) (sSets st)) in *.
  set (eqs := flat_map (newEqualities p (sSets st) rs) (sSets st)).
  set (new := map (fun e => insert [fst e] (snd e)) eqs).
  assert (TG : forall q, In q rs -> covered (sSets st) (rtgt q) /\ isDyn p (fst (rtgt q)) (snd (rtgt q))).
  { intros q Hq. destruct (TR q Hq) as (q' & Hq' & <-). auto. }
  assert (EQ : forall e, In e eqs -> covered (sSets st) (fst e) /\ covered (sSets st) (snd e) /\
     forall s, In s (sSets st) -> In (fst e) s -> In (snd e) s -> False).
  { intros e He. apply in_flat_map in He as (s0 & _ & He).
    apply newEqualities_spec in He as (q & q' & Hq & Hq' & E1 & E2 & HS). destruct (TG q Hq), (TG q' Hq').
    rewrite E1, E2 in *. split; auto. split; auto. eapply dyn_different; eauto. }
  assert (NE : forall s, In s (sSets st) -> s <> []) by (intros s Hs; apply H1; auto).
  assert (NN : forall s, In s new -> s <> []).
  { intros s Hs. apply in_map_iff in Hs as (e & <- & He). intros E.
    assert (Hx : In (fst e) (insert [fst e] (snd e))) by (apply pair_In; auto). rewrite E in Hx. destruct Hx. }
  assert (CN : forall d, covered new d -> covered (sSets st) d).
  { intros d (s & Hs & Hd). apply in_map_iff in Hs as (e & <- & He). destruct (EQ e He) as (C1 & C2 & _).
    apply pair_In in Hd as [->| ->]; auto. }
  destruct (mergeDimSets_coarser (sSets st ++ new)) as (M1 & M2 & M3).
  split; [|split; [|split; [|split; [|split]]]].
  - split.
    + intros F HF. split.
      * apply M3; auto. intros s Hs. apply in_app_iff in Hs as [Hs|Hs]; auto.
      * intros d Hd. destruct (M2 d) as (s & Hs & Hds); [exists F; auto|].
        apply in_app_iff in Hs as [Hs|Hs]; [apply (H1 s Hs); auto|].
        destruct (CN d) as (s' & Hs' & Hd'); [exists s; auto|]. apply (H1 s' Hs'). auto.
    + intros q Hq. destruct (TG q Hq) as [(s & Hs & Ht) D]. split; auto.
      destruct (M1 s) as (F & HF & I); [apply in_app_iff; auto|]. exists F. split; auto.
  - apply mergeDimSets_apart.
  - apply merge_count; auto.
  - rewrite ER. apply lacking_mono.
  - intros HL. rewrite ER in *. apply LR. intros ->. rewrite app_nil_r in HL. congruence.
  - intros HE. apply nonempty_In in HE as (e & He). fold eqs in He.
    destruct (EQ e He) as (_ & _ & X).
    apply (merge_count_less (sSets st) new (fst e) (snd e)); auto.
    exists (insert [fst e] (snd e)). split; [|split; apply pair_In; auto].
    unfold new. apply in_map_iff. exists e. auto.
Qed.

Lemma propagate_ends n : forall st, steady st -> (lacking U (sRels st) + length (sSets st) < n)%nat ->
  exists st', forall fuel, (n <= fuel)%nat -> propagate fuel p st = Ok st'.
Proof.
  induction n as [|n IH]; intros st HS L; [lia|].
  destruct (next_steady st HS) as (S' & _ & L1 & L2 & L3 & L4).
  set (rs := share (sRels st) (sSets st)) in *.
  set (eqs := flat_map (newEqualities p (sSets st) rs) (sSets st)) in *.
  destruct (negb (length rs =? length (sRels st))%nat || negb (length eqs =? 0)%nat) eqn:E.
  - destruct (IH (next st) S') as (st' & HI).
    { apply orb_true_iff in E as [E|E]; apply negb_true_iff, Nat.eqb_neq in E.
      - specialize (L3 E). lia.
      - assert (eqs <> []) by (intros ->; apply E; reflexivity). specialize (L4 H). lia. }
    exists st'. intros fuel Lf. destruct fuel as [|f]; [lia|]. cbn [propagate]. fold rs eqs. rewrite E. apply HI. lia.
  - exists {| sSets := sSets st; sRels := rs |}. intros fuel Lf. destruct fuel as [|f]; [lia|].
    cbn [propagate]. fold rs eqs. rewrite E. reflexivity.
Qed.
End Loop.

(* A Cast yields no known dimension, and onnx.Dim does not read the first dimension of a
   tensor with a known dimension 1. *)
Definition NoKnownEntries (p : prog) : Prop :=
  forall o, In o (ops p) ->
    match okind o, ins o, outs o with
    | KDim O, [Some x], _ => forall i, nth_error (tdims (types p x)) i <> Some (Some 1)
    | KCast, _, [y] => forall a z, nth_error (tdims (types p y)) a <> Some (Some z)
    | _, _, _ => True
    end.

Lemma visitOffsets_dyn p r ss d rs : WellTyped p -> Runs p r -> NoKnownEntries p -> okDim p d ->
  visitOffsets p ss d = Ok rs -> rs <> [] -> isDyn p (fst d) (snd d).
Proof.
  intros HT HR HK Hok H HN. unfold okDim, defKind in Hok. unfold visitOffsets in H.
  destruct (defOp p (fst d)) as [o|] eqn:ED; [|injection H as <-; congruence]. cbn [option_map] in Hok.
  destruct (defOp_In _ _ _ ED) as [Ho Hv]. specialize (HK o Ho).
  destruct HT as (_ & _ & HW). specialize (HW o Ho). destruct HR as (_ & _ & HOp & _). specialize (HOp o Ho).
  unfold opRuns in HOp. destruct (okind o) eqn:K; auto.
  - destruct Hok.
  - destruct (ins o) as [|[x|] [|]] eqn:EI; try contradiction. destruct (outs o) as [|y [|]]; try contradiction.
    destruct Hv as [->|[]]. destruct HW as [W1 W2]. exfalso.
    injection H as <-. apply nonempty_In in HN as (q & Hq). unfold offGeneral in Hq.
    apply in_flat_map in Hq as (v & Hv & Hq). rewrite EI in Hv. cbn in Hv. destruct Hv as [<-|[]].
    apply in_flat_map in Hq as (i & Hi & Hq).
    destruct (sameDim p ss x (Z.of_nat i) (fst d) (Z.of_nat (snd d))) eqn:ES; [|destruct Hq]. clear Hq.
    unfold sameDim in ES. destruct (inBound (Z.of_nat i) (rankOf p x)) as [a1|] eqn:B1; [|discriminate].
    destruct (inBound (Z.of_nat (snd d)) (rankOf p (fst d))) as [a2|] eqn:B2; [|discriminate].
    apply inBound_spec in B2 as [B2 L2].
    unfold rankOf in B2, L2. rewrite W1 in B2, L2, ES. cbn [length] in *. assert (a2 = 0%nat) by lia. subst a2.
    unfold normAxis in B2. destruct (Z.of_nat (snd d) <? 0) eqn:E0; [apply Z.ltb_lt in E0; lia|].
    assert (Ea : axis = 0%nat) by lia. rewrite Ea in *. cbn [nth_error] in ES.
    destruct (dimEq (x, a1) (fst d, 0%nat)) eqn:EE.
    + apply dimEq_true in EE. assert (Ex : x = fst d) by congruence. rewrite Ex in W2. unfold isDyn in W2. rewrite W1 in W2. cbn in W2. congruence.
    + destruct (nth_error (tdims (types p x)) a1) as [[z|]|] eqn:EN; try discriminate.
      apply Z.eqb_eq in ES. subst z. exact (HK a1 EN).
  - destruct (ins o) as [|[x|] [|]] eqn:EI; try contradiction. destruct (outs o) as [|y [|]]; try contradiction.
    destruct Hv as [->|[]].
    injection H as <-. apply nonempty_In in HN as (q & Hq). unfold offGeneral in Hq.
    apply in_flat_map in Hq as (v & Hv & Hq). rewrite EI in Hv. cbn in Hv. destruct Hv as [<-|[]].
    apply in_flat_map in Hq as (i & Hi & Hq).
    destruct (sameDim p ss x (Z.of_nat i) (fst d) (Z.of_nat (snd d))) eqn:ES; [|destruct Hq]. clear Hq.
    unfold sameDim in ES. destruct (inBound (Z.of_nat i) (rankOf p x)) as [a1|]; [|discriminate].
    destruct (inBound (Z.of_nat (snd d)) (rankOf p (fst d))) as [a2|] eqn:B2; [|discriminate].
    apply inBound_spec in B2 as [B2 L2]. unfold normAxis in B2.
    destruct (Z.of_nat (snd d) <? 0) eqn:E0; [apply Z.ltb_lt in E0; lia|].
    assert (a2 = snd d) by lia. subst a2. unfold isDyn. apply nth_error_Some in L2.
    destruct (nth_error (tdims (types p (fst d))) (snd d)) as [[z|]|] eqn:EN; auto; [exfalso; exact (HK _ _ EN)|congruence].
Qed.

Lemma visitOffsets_target p ss d rs q : visitOffsets p ss d = Ok rs -> In q rs -> rtgt q = d.
Proof.
  intros H Hq. unfold visitOffsets in H.
  assert (G : forall o, In q (offGeneral p ss o d) -> rtgt q = d).
  { intros o Hin. unfold offGeneral in Hin. apply in_flat_map in Hin as (v & _ & Hin). apply in_flat_map in Hin as (i & _ & Hin).
    destruct (sameDim _ _ _ _ _ _); [|destruct Hin]. destruct Hin as [<-|[]]. reflexivity. }
  assert (W : forall s f, (forall c, In q (f c) -> rtgt q = d) -> withScalar s f = Ok rs -> rtgt q = d).
  { intros s f Hf HW. unfold withScalar in HW. destruct s; [|discriminate]. injection HW as <-. eauto. }
  destruct (defOp p (fst d)) as [o|]; [|injection H as <-; destruct Hq].
  destruct (okind o); try (injection H as <-; eapply G; eauto; fail); try (injection H as <-; destruct Hq; fail).
  - destruct (Z.of_nat (snd d) =? normAxis axis (rankOf p (fst d))); injection H as <-; [|eapply G; eauto].
    unfold offConcat in Hq. destruct (concatSizes _ _ _ _ _) as [[[v|] tot]|]; try (destruct Hq; fail).
    destruct (0 <? tot); [|destruct Hq]. destruct Hq as [<-|[]]. reflexivity.
  - destruct (ins o) as [|[a|] [|[b|] [|]]]; try (injection H as <-; eapply G; eauto; fail).
    destruct (offAdd p a b d) as [res|] eqn:EA; [|injection H as <-; eapply G; eauto]. subst res.
    unfold offAdd in EA. destruct (constOf p b); [injection EA as EA; eapply W; [|exact EA]; intros c [<-|[]]; reflexivity|].
    destruct (constOf p a); [injection EA as EA; eapply W; [|exact EA]; intros c [<-|[]]; reflexivity|discriminate].
  - destruct (ins o) as [|[a|] [|[b|] [|]]]; try (injection H as <-; destruct Hq; fail).
    unfold offExpand in H. destruct (defOp p b) as [[k li lo h]|]; [|injection H as <-; destruct Hq].
    destruct k; try (injection H as <-; destruct Hq; fail).
    apply bind_Ok in H as (found & _ & H). destruct found as [e|]; [|injection H as <-; destruct Hq].
    set (so := match defOp p e with Some {| okind := KReshape _; ins := Some x :: _ |} => defOp p x | o0 => o0 end) in *.
    clearbody so. destruct so as [[k2 li2 lo2 h2]|]; [|injection H as <-; destruct Hq].
    destruct k2; try (injection H as <-; destruct Hq; fail).
    destruct li2 as [|[a2|] [|[b2|] [|]]]; try (injection H as <-; destruct Hq; fail).
    assert (MK : forall v c, In q (match dimSource p v with Some sd => [(sd, c, d)] | None => [] end) -> rtgt q = d).
    { intros v c Hin. destruct (dimSource p v); [|destruct Hin]. destruct Hin as [<-|[]]. reflexivity. }
    destruct (constOf p b2); [eapply W; [|exact H]; intros c; apply MK|].
    destruct (constOf p a2); [eapply W; [|exact H]; intros c; apply MK|]. injection H as <-. destruct Hq.
Qed.

Lemma visitOffsets_fuel p ss d : visitOffsets p ss d <> OutOfFuel.
Proof.
  assert (W : forall s f, withScalar s f <> OutOfFuel) by (intros [|] f; discriminate).
  unfold visitOffsets. destruct (defOp p (fst d)) as [o|]; [|discriminate].
  destruct (okind o); try discriminate.
  - destruct (Z.of_nat (snd d) =? normAxis axis (rankOf p (fst d))); discriminate.
  - destruct (ins o) as [|[a|] [|[b|] [|]]]; try discriminate. unfold offAdd.
    destruct (constOf p b); [apply W|]. destruct (constOf p a); [apply W|discriminate].
  - destruct (ins o) as [|[a|] [|[b|] [|]]]; try discriminate. unfold offExpand.
    destruct (defOp p b) as [[k li lo h]|]; [|discriminate]. destruct k; try discriminate.
    assert (E : forall l cur, entryAt p l cur (snd d) <> OutOfFuel).
    { induction l as [|v l IH]; intros cur; cbn [entryAt]; [discriminate|]. unfold numElements.
      destruct (length (dynAxes (tdims (types p v))) =? 0)%nat; cbn [bind]; [|discriminate].
      destruct ((cur <=? Z.of_nat (snd d)) && _); [discriminate|apply IH]. }
    specialize (E (given li) 0). destruct (entryAt p (given li) 0 (snd d)) as [[e|]| | | |]; cbn [bind]; try discriminate; [|congruence].
    set (so := match defOp p e with Some {| okind := KReshape _; ins := Some x :: _ |} => defOp p x | o0 => o0 end).
    clearbody so. destruct so as [[k2 li2 lo2 h2]|]; [|discriminate]. destruct k2; try discriminate.
    destruct li2 as [|[a2|] [|[b2|] [|]]]; try discriminate.
    destruct (constOf p b2); [apply W|]. destruct (constOf p a2); [apply W|discriminate].
Qed.

(* No class is empty. *)
Definition filled (ss : sets) : Prop := forall s, In s ss -> s <> [].

Lemma updateFrom_filled p todo : forall done res, filled (done ++ todo) -> updateFrom p done todo = Ok res -> filled (fst res).
Proof.
  induction todo as [|s todo IH]; intros done res HF H; cbn [updateFrom] in H.
  - injection H as <-. rewrite app_nil_r in HF. auto.
  - apply bind_Ok in H as (new & _ & H). apply bind_Ok in H as (res' & Hr & H). injection H as <-. cbn [fst].
    eapply IH; [|exact Hr]. intros q Hq. rewrite <- app_assoc in Hq. cbn [app] in Hq.
    apply in_app_iff in Hq as [Hq|[<-|Hq]]; [apply HF, in_app_iff; auto| |apply HF, in_app_iff; right; now right].
    assert (Hs : s <> []) by (apply HF, in_app_iff; right; now left).
    apply nonempty_In in Hs as (d & Hd). intros E.
    assert (Hx : In d (fold_left insert new s)) by (apply fold_insert_In; auto). rewrite E in Hx. destruct Hx.
Qed.

Lemma classify_filled p fuel : forall ss res, filled ss -> classify fuel p ss = Ok res -> filled res.
Proof.
  induction fuel as [|f IH]; intros ss res HF H; [discriminate|]. cbn [classify] in H.
  apply bind_Ok in H as (u & Hu & H). apply (updateFrom_filled p ss [] u HF) in Hu.
  destruct (snd u); [|injection H as <-; auto]. eapply IH; [|exact H].
  destruct (mergeDimSets_coarser (fst u)) as (_ & _ & C). exact (C Hu).
Qed.

Lemma initial_filled p whole : filled (initial p whole).
Proof.
  assert (HP : forall l par, filled (plainDims p l par)).
  { intros l par s Hs. unfold plainDims in Hs. apply in_flat_map in Hs as (i & _ & Hs).
    destruct (nth_error l i); [|destruct Hs]. apply in_flat_map in Hs as (a & _ & Hs).
    destruct (par i a); [destruct Hs|]. destruct Hs as [<-|[]]. discriminate. }
  assert (HI : forall s d, insert s d <> []).
  { intros s d E. assert (Hx : In d (insert s d)) by (apply insert_In; auto). rewrite E in Hx. destruct Hx. }
  intros s Hs. unfold initial in Hs. rewrite !in_app_iff in Hs. destruct Hs as [Hs|[Hs|[Hs|Hs]]].
  - apply in_flat_map in Hs as (i & _ & Hs). destruct (targets p i); [|destruct Hs].
    destruct (nth_error (ops p) i); [|destruct Hs]. apply in_flat_map in Hs as (v & _ & Hs). unfold buildValue in Hs.
    apply in_map_iff in Hs as (a & <- & _). discriminate.
  - exact (HP _ _ _ Hs).
  - destruct whole; [|destruct Hs]. exact (HP _ _ _ Hs).
  - unfold paramSets in Hs. apply in_map_iff in Hs as ([q s'] & E & Hs). cbn in E. subst s'.
    assert (HN : forall l m, (forall q s, In (q, s) m -> s <> []) ->
       forall q s, In (q, s) (fold_left (fun m e => addParam (fst e) (snd e) m) l m) -> s <> []).
    { clear - HI. induction l as [|e l IH]; intros m Hm q s H; cbn [fold_left] in H; [eauto|].
      eapply IH; [|exact H]. clear - HI Hm. induction m as [|[q0 s0] m IHm]; intros q s H; cbn [addParam] in H.
      - destruct H as [H|[]]. injection H as <- <-. discriminate.
      - destruct (Nat.eqb (fst e) q0).
        + destruct H as [H|H]; [|eapply Hm; right; eauto]. injection H as <- <-. apply HI.
        + destruct H as [H|H]; [injection H as <- <-; eapply Hm; left; eauto|]. eapply IHm; eauto. intros; eapply Hm; right; eauto. }
    eapply HN; [|exact Hs]. intros ? ? [].
Qed.

Theorem C53_analysis_ends : forall p r whole,
  WellTyped p -> Runs p r -> HelperTrue p r -> Ordinary p r -> NoKnownEntries p ->
  exists n, forall fuel, (n <= fuel)%nat -> analyze fuel p whole <> OutOfFuel.
Proof.
  intros p r whole HT HR HH HO HK.
  destruct (C53_classification_succeeds p r whole HT HR HH HO) as (n1 & ss & HC).
  assert (HG : good p r ss).
  { eapply (classify_good p r HT HR HH HO); [|exact (HC n1 (le_n _))]. apply initial_good; auto. }
  assert (NE : filled ss).
  { eapply classify_filled; [apply initial_filled|exact (HC n1 (le_n _))]. }
  destruct (collect (visitOffsets p ss) (concat ss)) as [rs| | | |] eqn:EV.
  2-4: exists n1; intros fuel L; unfold analyze; rewrite (HC fuel L); cbn [bind]; rewrite EV; discriminate.
  2:{ exfalso. revert EV. generalize (concat ss). induction l as [|d l IH]; cbn; [discriminate|].
      pose proof (visitOffsets_fuel p ss d). destruct (visitOffsets p ss d); try discriminate; [|congruence].
      cbn [bind]. destruct (collect (visitOffsets p ss) l); try discriminate. intros _. apply IH. reflexivity. }
  assert (ST : steady p (concat ss) {| sSets := ss; sRels := rs |}).
  { split; cbn [sSets sRels].
    - intros s Hs. split.
      + apply NE. auto.
      + intros d Hd. apply in_concat. eauto.
    - intros q Hq. destruct (collect_In _ _ _ EV q Hq) as (d & ys & Hd & Hv & Hy).
      rewrite (visitOffsets_target _ _ _ _ _ Hv Hy). apply in_concat in Hd as (s & Hs & Hd). split; [exists s; auto|].
      eapply visitOffsets_dyn; eauto. destruct HG as [_ HA]. eapply HA; eauto. intros ->. destruct Hy. }
  destruct (propagate_ends p (concat ss) _ _ ST (Nat.lt_succ_diag_r _)) as (st & HP).
  exists (n1 + S (lacking (concat ss) rs + length ss))%nat. intros fuel L.
  unfold analyze. rewrite HC by lia. cbn [bind]. rewrite EV. cbn [bind]. cbn [sRels sSets] in HP. rewrite HP by lia. discriminate.
Qed.
