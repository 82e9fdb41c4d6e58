(** Proofs about memory management. *)
From Coq Require Import List Bool Arith ZArith Lia.
From Verif Require Import OwnershipModel OwnershipSpec.
Import ListNotations.

Inductive role := RData (o : option nat) | RTensor | RShape (t : nat) | RStrides (t : nat) | RList | ROmts (l : nat).
Record Inv (s : state) (w : world) (ro : nat -> option role) : Prop := {
  i_next : forall b, ro b <> None -> b < next s;
  i_live : forall b, live s b = true <-> ro b <> None;
  i_data : forall b o, ro b = Some (RData o) <-> owner w b = Some o;
  i_tens : forall t, ro t = Some RTensor <-> tensorBuf w t <> None;
  i_list : forall l, ro l = Some RList <-> listOf w l <> None;
  i_t : forall t d, tensorBuf w t = Some d -> exists v, tens s t = Some v /\ tAlloc v = d /\
          (tOwning v = true -> forall b, d = Some b -> owner w b = Some (Some t)) /\
          ro (tShape v) = Some (RShape t) /\ ro (tStrides v) = Some (RStrides t);
  i_own : forall b t, owner w b = Some (Some t) -> exists v, tensorBuf w t = Some (Some b) /\ tens s t = Some v /\ tOwning v = true;
  i_sh : forall b t, ro b = Some (RShape t) -> exists v, tensorBuf w t <> None /\ tens s t = Some v /\ tShape v = b;
  i_sd : forall b t, ro b = Some (RStrides t) -> exists v, tensorBuf w t <> None /\ tens s t = Some v /\ tStrides v = b;
  i_l : forall l ts, listOf w l = Some ts -> exists v, lists s l = Some v /\ lTensors v = ts /\
          (lOmts v = None <-> ts = []) /\ (forall a, lOmts v = Some a -> ro a = Some (ROmts l));
  i_omts : forall a l, ro a = Some (ROmts l) -> exists v, listOf w l <> None /\ lists s l = Some v /\ lOmts v = Some a
}.
Lemma inv_init : Inv init nothing (fun _ => None).
Proof. split; cbn; intros; try congruence; try tauto; try (split; intros; congruence). Qed.

Lemma upd_same {A} (f : nat -> A) k v : upd f k v k = v.
Proof. unfold upd. now rewrite Nat.eqb_refl. Qed.
Lemma upd_other {A} (f : nat -> A) k v x : x <> k -> upd f k v x = f x.
Proof. intros H. unfold upd. apply Nat.eqb_neq in H. now rewrite H. Qed.

(** The invariant depends only on the values of the maps. *)
Lemma inv_ext s w ro s' : Inv s w ro -> next s <= next s' -> (forall b, live s' b = live s b) ->
  (forall t, tens s' t = tens s t) -> (forall l, lists s' l = lists s l) -> Inv s' w ro.
Proof.
  intros [A1 A2 A3 A4 A5 A6 A7 A8 A9 A10 A11] Hn Hl Ht HL. split; auto.
  - intros b H. specialize (A1 b H). lia.
  - intros b. rewrite Hl. auto.
  - intros t d H. rewrite Ht. auto.
  - intros b t H. rewrite Ht. auto.
  - intros b t H. rewrite Ht. auto.
  - intros b t H. rewrite Ht. auto.
  - intros b t H. rewrite HL. auto.
  - intros b t H. rewrite HL. auto.
Qed.
Lemma fresh_next s w ro b : Inv s w ro -> next s <= b -> ro b = None /\ fresh w b /\ live s b = false.
Proof.
  intros I H. assert (E : ro b = None).
  { destruct (ro b) eqn:E; [|auto]. pose proof (i_next _ _ _ I b) as N. rewrite E in N. specialize (N ltac:(discriminate)). lia. }
  split; [auto|split].
  - split; [|split].
    + destruct (owner w b) eqn:X; [|auto]. apply (i_data _ _ _ I) in X. congruence.
    + destruct (tensorBuf w b) eqn:X; [|auto]. assert (Y : tensorBuf w b <> None) by congruence. apply (i_tens _ _ _ I) in Y. congruence.
    + destruct (listOf w b) eqn:X; [|auto]. assert (Y : listOf w b <> None) by congruence. apply (i_list _ _ _ I) in Y. congruence.
  - destruct (live s b) eqn:X; [|auto]. apply (i_live _ _ _ I) in X. congruence.
Qed.
Ltac eqs := unfold upd in *; repeat match goal with |- context [?a =? ?b] => destruct (Nat.eqb_spec a b); try subst | H : context [?a =? ?b] |- _ => destruct (Nat.eqb_spec a b); try subst end.

Ltac deqH H a b := let E := fresh "E" in revert H; destruct (Nat.eqb_spec a b) as [E|E]; intros H; try (cbn in H; discriminate H); try (subst a); try (cbn [orb] in H).
Section Sim.
Variable ok : nat -> bool.

(** Destroying a tensor. *)
Definition killT (t : nat) (ro : nat -> option role) : nat -> option role := fun b =>
  match ro b with
  | Some (RData (Some t')) | Some (RShape t') | Some (RStrides t') => if t' =? t then None else ro b
  | Some RTensor => if b =? t then None else ro b
  | o => o
  end.
Lemma destroy_ok s w ro t : Inv s w ro -> tensorBuf w t <> None ->
  exists s', omTensorDestroy (Some t) s = Some s' /\ Inv s' (destroyW (Some t) w) (killT t ro) /\ lists s' = lists s /\ (forall b, ro b = Some RList \/ (exists l, ro b = Some (ROmts l)) -> live s' b = live s b).
Proof.
  intros I Ht. pose proof I as [A1 A2 A3 A4 A5 A6 A7 A8 A9 A10 A11].
  destruct (tensorBuf w t) as [d|] eqn:ET; [clear Ht|congruence].
  destruct (A6 t d ET) as (v & T1 & T2 & T3 & T4 & T5).
  assert (RT : ro t = Some RTensor) by (apply A4; congruence).
  assert (LT : live s t = true) by (apply A2; congruence).
  assert (LS : live s (tShape v) = true) by (apply A2; congruence).
  assert (LD : live s (tStrides v) = true) by (apply A2; congruence).
  assert (LB : forall b, tOwning v = true -> tAlloc v = Some b -> ro b = Some (RData (Some t)) /\ live s b = true).
  { intros b Ho Hb. assert (E : ro b = Some (RData (Some t))) by (apply A3, T3; [auto|congruence]). split; [auto|apply A2; congruence]. }
  assert (N1 : tShape v <> t) by congruence. assert (N2 : tStrides v <> t) by congruence. assert (N3 : tStrides v <> tShape v) by congruence.
  cbn [omTensorDestroy]. unfold getT. rewrite LT, T1.
  set (lv' := fun b => if (b =? t) || (b =? tShape v) || (b =? tStrides v) || (if tOwning v then match tAlloc v with Some a => b =? a | None => false end else false) then false else live s b).
  assert (ST : exists s', (match (if tOwning v then free (tAlloc v) s else Some s) with Some s => match free (Some (tShape v)) s with Some s => match free (Some (tStrides v)) s with Some s => free (Some t) s | None => None end | None => None end | None => None end) = Some s'
    /\ (forall b, live s' b = lv' b) /\ tens s' = tens s /\ lists s' = lists s /\ next s' = next s).
  { destruct (tOwning v) eqn:EO; [destruct (tAlloc v) as [a|] eqn:EA|].
    - destruct (LB a eq_refl eq_refl) as [RA LA]. assert (a <> t /\ a <> tShape v /\ a <> tStrides v) as (Q1 & Q2 & Q3) by (repeat split; congruence).
      cbn [free]. rewrite LA. cbn [free live]. rewrite upd_other, LS by congruence. cbn [live]. rewrite !upd_other, LD by congruence. cbn [live]. rewrite !upd_other, LT by congruence.
      eexists. split; [reflexivity|]. cbn [live tens lists next]. split; [|auto]. intros b. unfold lv', upd.
      destruct (b =? t), (b =? tStrides v), (b =? tShape v), (b =? a); reflexivity.
    - cbn [free]. rewrite LS. cbn [live]. rewrite upd_other, LD by congruence. cbn [live]. rewrite !upd_other, LT by congruence.
      eexists. split; [reflexivity|]. cbn [live tens lists next]. split; [|auto]. intros b. unfold lv', upd.
      destruct (b =? t), (b =? tStrides v), (b =? tShape v); reflexivity.
    - cbn [free]. rewrite LS. cbn [live]. rewrite upd_other, LD by congruence. cbn [live]. rewrite !upd_other, LT by congruence.
      eexists. split; [reflexivity|]. cbn [live tens lists next]. split; [|auto]. intros b. unfold lv', upd.
      destruct (b =? t), (b =? tStrides v), (b =? tShape v); reflexivity. }
  destruct ST as (s' & E & EL & ETs & ELs & EN). exists s'. split; [exact E|].
  (* the blocks with a role attached to t are exactly the four *)
  assert (KB : forall b, lv' b = true <-> killT t ro b <> None).
  { intros b. unfold lv', killT. split.
    - intros H. deqH H b t. deqH H b (tShape v). deqH H b (tStrides v).
      assert (L : live s b = true) by (revert H; destruct (tOwning v); [destruct (tAlloc v) as [a0|]; [destruct (b =? a0)|]|]; cbn; congruence).
      pose proof (proj1 (A2 b) L) as RB. destruct (ro b) as [[[t'|]| |t'|t'| |l]|] eqn:ER; try congruence.
      + destruct (Nat.eqb_spec t' t) as [->|]; [|congruence]. exfalso. apply A3 in ER. destruct (A7 b t ER) as (v' & B1 & B2 & B3).
        rewrite T1 in B2. injection B2 as <-. rewrite B3 in H. rewrite ET in B1. injection B1 as B1. assert (EA : tAlloc v = Some b) by congruence. rewrite EA, Nat.eqb_refl in H. discriminate.
      + destruct (Nat.eqb_spec t' t) as [->|]; [|congruence]. exfalso. destruct (A8 b t ER) as (v' & _ & B2 & B3). congruence.
      + destruct (Nat.eqb_spec t' t) as [->|]; [|congruence]. exfalso. destruct (A9 b t ER) as (v' & _ & B2 & B3). congruence.
    - intros H. assert (RB : ro b <> None) by (destruct (ro b); [congruence|auto]).
      assert (LL : live s b = true) by (apply A2; auto). rewrite LL.
      destruct (Nat.eqb_spec b t) as [E1|E1]; [rewrite E1, RT in H; rewrite ?Nat.eqb_refl in H; cbn in H; congruence|].
      destruct (Nat.eqb_spec b (tShape v)) as [E2|E2]; [rewrite E2, T4 in H; rewrite ?Nat.eqb_refl in H; cbn in H; congruence|].
      destruct (Nat.eqb_spec b (tStrides v)) as [E3|E3]; [rewrite E3, T5 in H; rewrite ?Nat.eqb_refl in H; cbn in H; congruence|]. cbn [orb].
      destruct (tOwning v) eqn:EO; [|reflexivity]. destruct (tAlloc v) as [a|] eqn:EA; [|reflexivity].
      destruct (Nat.eqb_spec b a) as [E4|E4]; [|reflexivity]. destruct (LB a eq_refl eq_refl) as [RA _]. rewrite E4, RA in H; rewrite ?Nat.eqb_refl in H; cbn in H; congruence. }
  assert (KO : forall b r, killT t ro b = Some r -> ro b = Some r).
  { intros b r. unfold killT. destruct (ro b) as [[[?|]| |?|?| |?]|]; try (destruct (_ =? _)); congruence. }
  split; [|split; [auto|]].
  2:{ intros b Hb. rewrite EL. unfold lv'.
      destruct (Nat.eqb_spec b t) as [->|]; [exfalso; destruct Hb as [Hb|[l Hb]]; congruence|].
      destruct (Nat.eqb_spec b (tShape v)) as [->|]; [exfalso; destruct Hb as [Hb|[l Hb]]; congruence|].
      destruct (Nat.eqb_spec b (tStrides v)) as [->|]; [exfalso; destruct Hb as [Hb|[l Hb]]; congruence|]. cbn [orb].
      destruct (tOwning v) eqn:EO; [|reflexivity]. destruct (tAlloc v) as [a|] eqn:EA; [|reflexivity].
      destruct (Nat.eqb_spec b a) as [->|]; [|reflexivity]. destruct (LB a eq_refl eq_refl) as [RA _]. exfalso; destruct Hb as [Hb|[l Hb]]; congruence. }
  split; cbn [owner tensorBuf listOf destroyW].
  - intros b H. rewrite EN. apply A1. destruct (killT t ro b) eqn:K; [apply KO in K; congruence|congruence].
  - intros b. rewrite EL. apply KB.
  - intros b o. unfold lose. split.
    + intros H. pose proof (KO _ _ H) as R. apply A3 in R. rewrite R. destruct o as [t'|]; [|reflexivity].
      unfold killT in H. apply A3 in R. rewrite R in H. destruct (t' =? t); congruence.
    + intros H. destruct (owner w b) as [[t'|]|] eqn:EW; [|injection H as <-|discriminate].
      * apply A3 in EW. unfold killT. rewrite EW. destruct (t' =? t); congruence.
      * apply A3 in EW. unfold killT. rewrite EW. reflexivity.
  - intros t'. unfold killT. destruct (Nat.eq_dec t' t) as [->|N].
    + rewrite upd_same, RT, Nat.eqb_refl. split; congruence.
    + rewrite upd_other by auto. rewrite <- A4. split.
      * intros H. destruct (ro t') as [[[?|]| |?|?| |?]|]; try (destruct (_ =? _)); congruence.
      * intros H. rewrite H. apply Nat.eqb_neq in N. now rewrite N.
  - intros l. rewrite <- A5. unfold killT. split.
    + intros H. destruct (ro l) as [[[?|]| |?|?| |?]|]; try (destruct (_ =? _)); congruence.
    + intros H. now rewrite H.
  - intros t' d' H. assert (N : t' <> t) by (intros ->; rewrite upd_same in H; discriminate). rewrite upd_other in H by auto.
    destruct (A6 t' d' H) as (v' & B1 & B2 & B3 & B4 & B5). exists v'. rewrite ETs. split; [auto|split; [auto|split; [|split]]].
    + intros Ho b Hb. specialize (B3 Ho b Hb). unfold lose. rewrite B3. apply Nat.eqb_neq in N. now rewrite N.
    + unfold killT. rewrite B4. apply Nat.eqb_neq in N. now rewrite N.
    + unfold killT. rewrite B5. apply Nat.eqb_neq in N. now rewrite N.
  - intros b t' H. unfold lose in H. destruct (owner w b) as [[t2|]|] eqn:EW; try discriminate. revert H.
    destruct (Nat.eqb_spec t2 t) as [->|N]; [discriminate|]. intros H. injection H as ->. destruct (A7 b t' EW) as (v' & B1 & B2 & B3).
    exists v'. rewrite upd_other, ETs by auto. auto.
  - intros b t' H. pose proof (KO _ _ H) as R. destruct (A8 b t' R) as (v' & B1 & B2 & B3). exists v'. rewrite ETs. split; [|auto].
    unfold killT in H. rewrite R in H. revert H. destruct (Nat.eqb_spec t' t) as [->|N]; [discriminate|]. intros H. rewrite upd_other; auto.
  - intros b t' H. pose proof (KO _ _ H) as R. destruct (A9 b t' R) as (v' & B1 & B2 & B3). exists v'. rewrite ETs. split; [|auto].
    unfold killT in H. rewrite R in H. revert H. destruct (Nat.eqb_spec t' t) as [->|N]; [discriminate|]. intros H. rewrite upd_other; auto.
  - intros l ts H. destruct (A10 l ts H) as (v' & B1 & B2 & B3 & B4). exists v'. rewrite ELs. split; [auto|split; [auto|split; [auto|]]].
    intros a Ha. unfold killT. now rewrite (B4 a Ha).
  - intros a l H. apply KO in H. destruct (A11 a l H) as (v' & B). exists v'. rewrite ELs. exact B.
Qed.

(** Destroying a list. *)
Definition killL (l : nat) (ro : nat -> option role) : nat -> option role := fun b =>
  match ro b with
  | Some (ROmts l') => if l' =? l then None else ro b
  | Some RList => if b =? l then None else ro b
  | o => o
  end.
Lemma shallow_ok s w ro l : Inv s w ro -> listOf w l <> None ->
  exists s', omTensorListDestroyShallow (Some l) s = Some s' /\ Inv s' (dropList l w) (killL l ro).
Proof.
  intros I HL. pose proof I as [A1 A2 A3 A4 A5 A6 A7 A8 A9 A10 A11].
  destruct (listOf w l) as [ts|] eqn:EL; [clear HL|congruence].
  destruct (A10 l ts EL) as (v & L1 & L2 & L3 & L4).
  assert (RL : ro l = Some RList) by (apply A5; congruence).
  assert (LL : live s l = true) by (apply A2; congruence).
  cbn [omTensorListDestroyShallow]. unfold getL. rewrite LL, L1.
  set (lv' := fun b => if (b =? l) || match lOmts v with Some a => b =? a | None => false end then false else live s b).
  assert (ST : exists s', (match (match lOmts v with None => Some s | a => free a s end) with Some s => free (Some l) s | None => None end) = Some s'
    /\ (forall b, live s' b = lv' b) /\ tens s' = tens s /\ lists s' = lists s /\ next s' = next s).
  { unfold lv'. destruct (lOmts v) as [a|] eqn:EA.
    - pose proof (L4 a eq_refl) as RA. assert (LA : live s a = true) by (apply A2; congruence). assert (a <> l) by congruence.
      cbn [free]. rewrite LA. cbn [live]. rewrite upd_other, LL by congruence. eexists. split; [reflexivity|]. cbn [live tens lists next]. split; [|auto].
      intros b. unfold upd. destruct (b =? l), (b =? a); reflexivity.
    - cbn [free]. rewrite LL. eexists. split; [reflexivity|]. cbn [live tens lists next]. split; [|auto]. intros b. unfold upd. destruct (b =? l); reflexivity. }
  destruct ST as (s' & E & ELv & ETs & ELs & EN). exists s'. split; [exact E|].
  assert (KO : forall b r, killL l ro b = Some r -> ro b = Some r).
  { intros b r. unfold killL. destruct (ro b) as [[[?|]| |?|?| |?]|]; try (destruct (_ =? _)); congruence. }
  assert (KD : forall b r, ro b = Some r -> (match r with ROmts _ | RList => False | _ => True end) -> killL l ro b = Some r).
  { intros b r H Hr. unfold killL. rewrite H. destruct r; tauto. }
  split; cbn [owner tensorBuf listOf dropList].
  - intros b H. rewrite EN. apply A1. destruct (killL l ro b) eqn:K; [apply KO in K; congruence|congruence].
  - intros b. rewrite ELv. unfold lv', killL. split.
    + intros H. deqH H b l.
      assert (L : live s b = true) by (revert H; destruct (match lOmts v with Some a => b =? a | None => false end); [intros Q; discriminate Q|auto]).
      pose proof (proj1 (A2 b) L) as RB. destruct (ro b) as [[[t'|]| |t'|t'| |l']|] eqn:ER; try congruence.
      destruct (Nat.eqb_spec l' l) as [->|]; [|congruence]. exfalso. destruct (A11 b l ER) as (v' & _ & B2 & B3).
      assert (v' = v) by congruence. subst v'. rewrite B3, Nat.eqb_refl in H. discriminate.
    + intros H. assert (RB : ro b <> None) by (destruct (ro b); [congruence|auto]).
      rewrite (proj2 (A2 b) RB). destruct (Nat.eqb_spec b l) as [E1|E1]; [rewrite E1, RL in H; rewrite ?Nat.eqb_refl in H; cbn in H; congruence|]. cbn [orb].
      destruct (lOmts v) as [a|] eqn:EA; [|reflexivity]. destruct (Nat.eqb_spec b a) as [E2|E2]; [|reflexivity].
      rewrite E2, (L4 a eq_refl) in H; rewrite ?Nat.eqb_refl in H; cbn in H; congruence.
  - intros b o. rewrite <- A3. split; [apply KO|intros H; apply KD; [auto|exact Logic.I]].
  - intros t. rewrite <- A4. split; [apply KO|intros H; apply KD; [auto|exact Logic.I]].
  - intros l'. unfold killL. destruct (Nat.eq_dec l' l) as [->|N].
    + rewrite upd_same, RL, Nat.eqb_refl. split; congruence.
    + rewrite upd_other by auto. rewrite <- A5. split.
      * intros H. destruct (ro l') as [[[?|]| |?|?| |?]|]; try (destruct (_ =? _)); congruence.
      * intros H. rewrite H. apply Nat.eqb_neq in N. now rewrite N.
  - intros t d H. destruct (A6 t d H) as (v' & B1 & B2 & B3 & B4 & B5). exists v'. rewrite ETs. split; [auto|split; [auto|split; [auto|split]]]; apply KD; auto.
  - intros b t H. rewrite ETs. auto.
  - intros b t H. apply KO in H. rewrite ETs. auto.
  - intros b t H. apply KO in H. rewrite ETs. auto.
  - intros l' ts' H. assert (N : l' <> l) by (intros ->; rewrite upd_same in H; discriminate). rewrite upd_other in H by auto.
    destruct (A10 l' ts' H) as (v' & B1 & B2 & B3 & B4). exists v'. rewrite ELs. split; [auto|split; [auto|split; [auto|]]].
    intros a Ha. unfold killL. rewrite (B4 a Ha). apply Nat.eqb_neq in N. now rewrite N.
  - intros a l' H. pose proof (KO _ _ H) as R. destruct (A11 a l' R) as (v' & B1 & B2 & B3). exists v'. rewrite ELs. split; [|auto].
    unfold killL in H. rewrite R in H. revert H. destruct (Nat.eqb_spec l' l) as [->|N]; [discriminate|]. intros H. rewrite upd_other; auto.
Qed.
Lemma destroyAll_ok a l : forall ts s w ro, Inv s w ro -> NoDup (filter (fun p => match p with Some _ => true | None => false end) ts) ->
  (forall t, In (Some t) ts -> tensorBuf w t <> None) -> (ts <> [] -> exists a', a = Some a' /\ ro a' = Some (ROmts l)) -> listOf w l <> None ->
  exists s' ro', destroyAll a ts s = Some s' /\ Inv s' (fold_left (fun w p => destroyW p w) ts w) ro' /\ listOf (fold_left (fun w p => destroyW p w) ts w) l <> None.
Proof.
  induction ts as [|p ts IH]; intros s w ro I ND HT HA HL.
  - exists s, ro. auto.
  - destruct (HA ltac:(discriminate)) as (a' & -> & RA). cbn [destroyAll].
    assert (LA : live s a' = true) by (apply (i_live _ _ _ I); congruence). rewrite LA. destruct p as [t|].
    + destruct (destroy_ok s w ro t I (HT t (or_introl eq_refl))) as (s1 & E & I1 & _ & _). rewrite E. cbn [fold_left].
      cbn [filter] in ND. apply NoDup_cons_iff in ND as [NI ND].
      apply (IH s1 _ (killT t ro)); auto.
      * intros t' Ht'. cbn [destroyW tensorBuf]. rewrite upd_other; [apply HT; right; auto|]. intros ->. apply NI. apply filter_In. auto.
      * intros _. exists a'. split; [auto|]. unfold killT. now rewrite RA.
    + cbn [omTensorDestroy fold_left destroyW]. cbn [filter] in ND. apply (IH s w ro); auto.
      * intros t Ht. apply HT. right. auto.
      * intros _. exists a'. auto.
Qed.

(** Allocation. *)
Definition bump (s : state) : state := {| next := next s; clock := S (clock s); live := live s; tens := tens s; lists := lists s |}.
Definition grow (s : state) : state := {| next := S (next s); clock := S (clock s); live := upd (live s) (next s) true; tens := tens s; lists := lists s |}.
Lemma malloc_eq s : malloc ok s = if ok (clock s) then (grow s, Some (next s)) else (bump s, None).
Proof. reflexivity. Qed.

Lemma create_ok s w ro d o (own' : nat -> option (option nat)) : Inv s w ro ->
  (exists s', omTensorCreate ok d o s = Some (s', None) /\ Inv s' w ro /\ next s <= next s') \/
  (exists s', omTensorCreate ok d o s = Some (s', Some (next s)) /\ next s < next s' /\
    (forall b, live s' b = if (b =? next s) || (b =? S (next s)) || (b =? S (S (next s))) then true else live s b) /\
    (forall t, tens s' t = upd (tens s) (next s) (Some {| tShape := S (next s); tStrides := S (S (next s)); tAlloc := d; tOwning := o |}) t) /\
    lists s' = lists s /\ next s' = S (S (S (next s)))).
Proof.
  intros I. unfold omTensorCreate. rewrite malloc_eq. destruct (ok (clock s)).
  2:{ left. eexists. split; [reflexivity|]. split; [|cbn; lia]. apply (inv_ext s); auto. }
  rewrite malloc_eq. destruct (ok (clock (grow s))).
  2:{ left. cbn [free live bump grow]. rewrite upd_same. eexists. split; [reflexivity|]. split; [|cbn; lia]. apply (inv_ext s); auto.
      - cbn. lia.
      - cbn [live]. intros b. destruct (fresh_next s w ro (next s) I (le_n _)) as (_ & _ & L). unfold upd. destruct (Nat.eqb_spec b (next s)) as [->|]; auto. }
  rewrite malloc_eq. destruct (ok (clock (grow (grow s)))).
  2:{ left. cbn [free live bump grow next]. rewrite upd_same. cbn [live]. rewrite upd_other, upd_other, upd_same by lia. eexists. split; [reflexivity|]. split; [|cbn; lia]. apply (inv_ext s); auto.
      - cbn. lia.
      - cbn [live]. intros b. destruct (fresh_next s w ro (next s) I (le_n _)) as (_ & _ & L). destruct (fresh_next s w ro (S (next s)) I ltac:(lia)) as (_ & _ & L').
        unfold upd. destruct (Nat.eqb_spec b (next s)) as [->|]; auto. destruct (Nat.eqb_spec b (S (next s))) as [->|]; auto. }
  right. eexists. split; [reflexivity|]. cbn [next grow setT]. split; [lia|]. split; [|auto].
  intros b. cbn [live grow next setT]. unfold upd. destruct (b =? next s), (b =? S (next s)), (b =? S (S (next s))); reflexivity.
Qed.
(** A new tensor, its buffer given (or fresh). *)
Lemma new_tensor s w ro s' t sh sd d o : Inv s w ro -> next s <= t -> next s <= sh -> next s <= sd -> t <> sh -> t <> sd -> sh <> sd -> t < next s' -> sh < next s' -> sd < next s' ->
  (forall b, live s' b = if (b =? t) || (b =? sh) || (b =? sd) then true else live s b) ->
  (forall x, tens s' x = upd (tens s) t (Some {| tShape := sh; tStrides := sd; tAlloc := d; tOwning := o |}) x) -> lists s' = lists s ->
  (o = true -> givable w d) ->
  exists ro', Inv s' {| owner := give t o d (owner w); tensorBuf := upd (tensorBuf w) t (Some d); listOf := listOf w |} ro'.
Proof.
  intros I Ht Hsh Hsd N1 N2 N3 X1 X2 X3 EL ET ELs HG.
  destruct (fresh_next s w ro t I Ht) as (Ft & (Fo & Fb & Fl) & _). destruct (fresh_next s w ro sh I Hsh) as (Fsh & (Fo2 & Fb2 & Fl2) & _). destruct (fresh_next s w ro sd I Hsd) as (Fsd & (Fo3 & Fb3 & Fl3) & _).
  pose proof I as [A1 A2 A3 A4 A5 A6 A7 A8 A9 A10 A11].
  set (gv := match d with Some b => if o then Some b else None | None => None end).
  exists (fun b => if b =? t then Some RTensor else if b =? sh then Some (RShape t) else if b =? sd then Some (RStrides t) else if match gv with Some g => b =? g | None => false end then Some (RData (Some t)) else ro b).
  assert (G : forall b, match gv with Some g => b =? g | None => false end = true -> owner w b = Some None /\ ro b = Some (RData None) /\ d = Some b /\ o = true).
  { intros b H. unfold gv in H. destruct d as [g|]; [|discriminate]. destruct o; [|discriminate]. apply Nat.eqb_eq in H. subst b. pose proof (HG eq_refl g eq_refl) as Q. split; [auto|]. split; [apply A3; auto|auto]. }
  assert (GO : forall b, give t o d (owner w) b = if match gv with Some g => b =? g | None => false end then Some (Some t) else owner w b).
  { intros b. unfold give, gv, upd. destruct d as [g|]; [|reflexivity]. destruct o; reflexivity. }
  split; cbn [owner tensorBuf listOf].
  - intros b H. assert (next s <= next s') by lia. destruct (Nat.eqb_spec b t); [lia|]. destruct (Nat.eqb_spec b sh); [lia|]. destruct (Nat.eqb_spec b sd); [lia|].
    destruct (match gv with Some g => b =? g | None => false end) eqn:EG; [destruct (G b EG) as (_ & R & _)|]; [assert (b < next s) by (apply A1; congruence); lia|]. specialize (A1 b H). lia.
  - intros b. rewrite EL. destruct (Nat.eqb_spec b t); [split; [discriminate|auto]|]. destruct (Nat.eqb_spec b sh); [split; [discriminate|auto]|]. destruct (Nat.eqb_spec b sd); [split; [discriminate|auto]|]. cbn [orb].
    destruct (match gv with Some g => b =? g | None => false end) eqn:EG; [|apply A2]. destruct (G b EG) as (_ & R & _). split; [discriminate|]. intros _. apply A2. congruence.
  - intros b o'. rewrite GO. destruct (Nat.eqb_spec b t) as [->|].
    { destruct (match gv with Some g => t =? g | None => false end) eqn:EG; [destruct (G t EG); congruence|]. split; intros; congruence. }
    destruct (Nat.eqb_spec b sh) as [->|].
    { destruct (match gv with Some g => sh =? g | None => false end) eqn:EG; [destruct (G sh EG); congruence|]. split; intros; congruence. }
    destruct (Nat.eqb_spec b sd) as [->|].
    { destruct (match gv with Some g => sd =? g | None => false end) eqn:EG; [destruct (G sd EG); congruence|]. split; intros; congruence. }
    destruct (match gv with Some g => b =? g | None => false end) eqn:EG; [split; intros; congruence|apply A3].
  - intros x. destruct (Nat.eqb_spec x t) as [->|]; [rewrite upd_same; split; congruence|]. rewrite upd_other by auto.
    destruct (Nat.eqb_spec x sh) as [->|]; [split; intros; congruence|]. destruct (Nat.eqb_spec x sd) as [->|]; [split; intros; congruence|].
    destruct (match gv with Some g => x =? g | None => false end) eqn:EG; [|apply A4]. destruct (G x EG) as (_ & R & _). split; [discriminate|]. intros Q. apply A4 in Q. congruence.
  - intros x. destruct (Nat.eqb_spec x t) as [->|]; [split; intros; congruence|].
    destruct (Nat.eqb_spec x sh) as [->|]; [split; intros; congruence|]. destruct (Nat.eqb_spec x sd) as [->|]; [split; intros; congruence|].
    destruct (match gv with Some g => x =? g | None => false end) eqn:EG; [|apply A5]. destruct (G x EG) as (_ & R & _). split; [discriminate|]. intros Q. apply A5 in Q. congruence.
  - intros x dx H. rewrite ET. destruct (Nat.eq_dec x t) as [->|Nx].
    + rewrite upd_same in H; rewrite upd_same. injection H as <-. eexists. split; [reflexivity|]. cbn [tAlloc tOwning tShape tStrides]. split; [reflexivity|]. split; [|split].
      * intros Ho b Hb. rewrite GO. unfold gv. rewrite Hb, Ho, Nat.eqb_refl. reflexivity.
      * destruct (Nat.eqb_spec sh t); [congruence|]. now rewrite Nat.eqb_refl.
      * destruct (Nat.eqb_spec sd t); [congruence|]. destruct (Nat.eqb_spec sd sh); [congruence|]. now rewrite Nat.eqb_refl.
    + rewrite upd_other in H by auto; rewrite upd_other by auto. destruct (A6 x dx H) as (v & B1 & B2 & B3 & B4 & B5). exists v. split; [auto|split; [auto|split; [|split]]].
      * intros Ho b Hb. specialize (B3 Ho b Hb). rewrite GO. destruct (match gv with Some g => b =? g | None => false end) eqn:EG; [|auto]. destruct (G b EG). congruence.
      * destruct (Nat.eqb_spec (tShape v) t); [congruence|]. destruct (Nat.eqb_spec (tShape v) sh); [congruence|]. destruct (Nat.eqb_spec (tShape v) sd); [congruence|].
        destruct (match gv with Some g => tShape v =? g | None => false end) eqn:EG; [|auto]. destruct (G _ EG) as (_ & R & _). congruence.
      * destruct (Nat.eqb_spec (tStrides v) t); [congruence|]. destruct (Nat.eqb_spec (tStrides v) sh); [congruence|]. destruct (Nat.eqb_spec (tStrides v) sd); [congruence|].
        destruct (match gv with Some g => tStrides v =? g | None => false end) eqn:EG; [|auto]. destruct (G _ EG) as (_ & R & _). congruence.
  - intros b x H. rewrite GO in H. destruct (match gv with Some g => b =? g | None => false end) eqn:EG.
    + injection H as <-. destruct (G b EG) as (_ & _ & -> & ->). rewrite ET, !upd_same. eexists. split; [reflexivity|split; reflexivity].
    + destruct (A7 b x H) as (v & B1 & B2 & B3). assert (x <> t) by congruence. exists v. rewrite ET, !upd_other by auto. auto.
  - intros b x. destruct (Nat.eqb_spec b t); [discriminate|]. destruct (Nat.eqb_spec b sh) as [->|].
    + intros H. injection H as <-. rewrite ET, !upd_same. eexists. split; [discriminate|]. split; reflexivity.
    + destruct (Nat.eqb_spec b sd); [discriminate|]. destruct (match gv with Some g => b =? g | None => false end); [discriminate|]. intros H. destruct (A8 b x H) as (v & B1 & B2 & B3). assert (x <> t) by congruence.
      exists v. rewrite ET, !upd_other by auto. auto.
  - intros b x. destruct (Nat.eqb_spec b t); [discriminate|]. destruct (Nat.eqb_spec b sh) as [->|]; [discriminate|]. destruct (Nat.eqb_spec b sd) as [->|].
    + intros H. injection H as <-. rewrite ET, !upd_same. eexists. split; [discriminate|]. split; reflexivity.
    + destruct (match gv with Some g => b =? g | None => false end); [discriminate|]. intros H. destruct (A9 b x H) as (v & B1 & B2 & B3). assert (x <> t) by congruence.
      exists v. rewrite ET, !upd_other by auto. auto.
  - intros l ts H. destruct (A10 l ts H) as (v & B1 & B2 & B3 & B4). exists v. rewrite ELs. split; [auto|split; [auto|split; [auto|]]].
    intros a Ha. specialize (B4 a Ha). destruct (Nat.eqb_spec a t); [congruence|]. destruct (Nat.eqb_spec a sh); [congruence|]. destruct (Nat.eqb_spec a sd); [congruence|].
    destruct (match gv with Some g => a =? g | None => false end) eqn:EG; [|auto]. destruct (G _ EG) as (_ & R & _). congruence.
  - intros a l. destruct (Nat.eqb_spec a t); [discriminate|]. destruct (Nat.eqb_spec a sh); [discriminate|]. destruct (Nat.eqb_spec a sd); [discriminate|].
    destruct (match gv with Some g => a =? g | None => false end); [discriminate|]. rewrite ELs. apply A11.
Qed.
(** A new data buffer of the client. *)
Lemma new_data s w ro : Inv s w ro -> exists ro', Inv (grow s) {| owner := upd (owner w) (next s) (Some None); tensorBuf := tensorBuf w; listOf := listOf w |} ro'.
Proof.
  intros I. destruct (fresh_next s w ro (next s) I (le_n _)) as (F & (Fo & Fb & Fl) & _). pose proof I as [A1 A2 A3 A4 A5 A6 A7 A8 A9 A10 A11].
  exists (upd ro (next s) (Some (RData None))). split; cbn [owner tensorBuf listOf grow next live tens lists].
  - intros b H. eqs; [lia|]. specialize (A1 b H). lia.
  - intros b. eqs; [split; [discriminate|auto]|apply A2].
  - intros b o. eqs; [split; intros; congruence|apply A3].
  - intros b. eqs; [split; intros; congruence|apply A4].
  - intros b. eqs; [split; intros; congruence|apply A5].
  - intros t d H. destruct (A6 t d H) as (v & B1 & B2 & B3 & B4 & B5). exists v. split; [auto|split; [auto|split; [|split]]].
    + intros Ho b Hb. specialize (B3 Ho b Hb). rewrite upd_other; congruence.
    + rewrite upd_other; congruence.
    + rewrite upd_other; congruence.
  - intros b t H. eqs; [discriminate|apply A7; auto].
  - intros b t H. eqs; [discriminate|apply A8; auto].
  - intros b t H. eqs; [discriminate|apply A9; auto].
  - intros l ts H. destruct (A10 l ts H) as (v & B1 & B2 & B3 & B4). exists v. split; [auto|split; [auto|split; [auto|]]]. intros a Ha. specialize (B4 a Ha). rewrite upd_other; congruence.
  - intros a l H. eqs; [discriminate|apply A11; auto].
Qed.
(** A data buffer of the client is freed. *)
Lemma free_data s w ro b : Inv s w ro -> owner w b = Some None -> exists s' ro', free (Some b) s = Some s' /\
  Inv s' {| owner := upd (owner w) b None; tensorBuf := tensorBuf w; listOf := listOf w |} ro'.
Proof.
  intros I H. pose proof I as [A1 A2 A3 A4 A5 A6 A7 A8 A9 A10 A11]. assert (RB : ro b = Some (RData None)) by (apply A3; auto).
  cbn [free]. rewrite (proj2 (A2 b)) by congruence. eexists. exists (upd ro b None). split; [reflexivity|].
  split; cbn [owner tensorBuf listOf next live tens lists].
  - intros x Hx. eqs; [congruence|]. apply A1; auto.
  - intros x. eqs; [split; [discriminate|congruence]|apply A2].
  - intros x o. eqs; [split; intros; congruence|apply A3].
  - intros x. unfold upd. destruct (Nat.eqb_spec x b) as [->|]; [|apply A4]. split; [discriminate|]. intros Q. apply A4 in Q. congruence.
  - intros x. unfold upd. destruct (Nat.eqb_spec x b) as [->|]; [|apply A5]. split; [discriminate|]. intros Q. apply A5 in Q. congruence.
  - intros t d Ht. destruct (A6 t d Ht) as (v & B1 & B2 & B3 & B4 & B5). exists v. split; [auto|split; [auto|split; [|split]]].
    + intros Ho x Hx. specialize (B3 Ho x Hx). rewrite upd_other; congruence.
    + rewrite upd_other; congruence.
    + rewrite upd_other; congruence.
  - intros x t Hx. eqs; [discriminate|apply A7; auto].
  - intros x t Hx. eqs; [discriminate|apply A8; auto].
  - intros x t Hx. eqs; [discriminate|apply A9; auto].
  - intros l ts Hl. destruct (A10 l ts Hl) as (v & B1 & B2 & B3 & B4). exists v. split; [auto|split; [auto|split; [auto|]]]. intros a Ha. specialize (B4 a Ha). rewrite upd_other; congruence.
  - intros a l Ha. eqs; [discriminate|apply A11; auto].
Qed.

(** The invariant depends only on the values of the world's maps. *)
Definition weq (w1 w2 : world) : Prop :=
  (forall b, owner w1 b = owner w2 b) /\ (forall t, tensorBuf w1 t = tensorBuf w2 t) /\ (forall l, listOf w1 l = listOf w2 l).
Lemma inv_weq s w1 w2 ro : weq w1 w2 -> Inv s w1 ro -> Inv s w2 ro.
Proof.
  intros (E1 & E2 & E3) [A1 A2 A3 A4 A5 A6 A7 A8 A9 A10 A11]. split; auto; intros.
  - rewrite <- E1; auto.
  - rewrite <- E2; auto.
  - rewrite <- E3; auto.
  - rewrite <- E2 in H. destruct (A6 _ _ H) as (v & B1 & B2 & B3 & B4). exists v. split; [auto|split; [auto|split; [|auto]]]. intros. rewrite <- E1. auto.
  - rewrite <- E1 in H. destruct (A7 _ _ H) as (v & B1 & B2). exists v. rewrite <- E2. auto.
  - destruct (A8 _ _ H) as (v & B1 & B2). exists v. rewrite <- E2. auto.
  - destruct (A9 _ _ H) as (v & B1 & B2). exists v. rewrite <- E2. auto.
  - rewrite <- E3 in H. auto.
  - destruct (A11 _ _ H) as (v & B1 & B2). exists v. rewrite <- E3. auto.
Qed.

(** A tensor's buffer and ownership change; the buffer it owned is freed ([to] = None)
    or goes back to the client. *)
Lemma set_tensor s w ro s' t d0 v d o to : Inv s w ro -> tensorBuf w t = Some d0 -> tens s t = Some v -> (to = None \/ to = Some None) ->
  (o = true -> forall b, d = Some b -> lose t to (owner w) b = Some None) ->
  next s' = next s -> lists s' = lists s ->
  (forall x, tens s' x = upd (tens s) t (Some {| tShape := tShape v; tStrides := tStrides v; tAlloc := d; tOwning := o |}) x) ->
  (forall b, live s' b = match owner w b, to with Some (Some t'), None => if t' =? t then false else live s b | _, _ => live s b end) ->
  exists ro', Inv s' {| owner := give t o d (lose t to (owner w)); tensorBuf := upd (tensorBuf w) t (Some d); listOf := listOf w |} ro'.
Proof.
  intros I Hb Hv Hto HG EN ELs ET EL. pose proof I as [A1 A2 A3 A4 A5 A6 A7 A8 A9 A10 A11].
  set (gv := match d with Some b => if o then Some b else None | None => None end).
  set (ro1 := fun b => match ro b with Some (RData (Some t')) => if t' =? t then match to with Some x => Some (RData x) | None => None end else ro b | x => x end).
  exists (fun b => if match gv with Some g => b =? g | None => false end then Some (RData (Some t)) else ro1 b).
  assert (D1 : forall b o', ro1 b = Some (RData o') <-> lose t to (owner w) b = Some o').
  { intros b o'. unfold ro1, lose. destruct (owner w b) as [[t'|]|] eqn:EW.
    - apply A3 in EW. rewrite EW. destruct (t' =? t); [|split; intros; congruence]. destruct Hto as [->| ->]; split; intros; congruence.
    - apply A3 in EW. rewrite EW. split; intros; congruence.
    - split; [|discriminate]. intros H. destruct (ro b) as [[[t'|]| |?|?| |?]|] eqn:ER; try discriminate; apply A3 in ER; congruence. }
  assert (N1 : forall b r, (match r with RData _ => False | _ => True end) -> (ro1 b = Some r <-> ro b = Some r)).
  { intros b r Hr. unfold ro1. destruct (ro b) as [[[t'|]| |?|?| |?]|]; try tauto.
    destruct (t' =? t); [|tauto]. destruct Hto as [->| ->]; split; intros; try congruence; injection H as <-; tauto. }
  assert (G : forall b, match gv with Some g => b =? g | None => false end = true -> lose t to (owner w) b = Some None /\ ro1 b = Some (RData None) /\ d = Some b /\ o = true).
  { intros b H. unfold gv in H. destruct d as [g|]; [|discriminate]. destruct o; [|discriminate]. apply Nat.eqb_eq in H. subst b. pose proof (HG eq_refl g eq_refl) as Q. split; [auto|]. split; [apply D1; auto|auto]. }
  assert (GO : forall b, give t o d (lose t to (owner w)) b = if match gv with Some g => b =? g | None => false end then Some (Some t) else lose t to (owner w) b).
  { intros b. unfold give, gv, upd. destruct d as [g|]; [|reflexivity]. destruct o; reflexivity. }
  assert (R1 : forall b, ro1 b <> None -> ro b <> None) by (intros b; unfold ro1; destruct (ro b); congruence).
  assert (LV : forall b, live s' b = true <-> ro1 b <> None).
  { intros b. rewrite EL. unfold ro1. destruct (owner w b) as [[t'|]|] eqn:EW.
    - pose proof EW as Q. apply A3 in Q. rewrite Q. assert (L : live s b = true) by (apply A2; congruence).
      destruct Hto as [->| ->]; destruct (t' =? t); split; try congruence; rewrite L; auto.
    - apply A3 in EW. rewrite A2, EW. tauto.
    - rewrite A2. destruct (ro b) as [[[t'|]| |?|?| |?]|] eqn:ER; try tauto. apply A3 in ER. congruence. }
  assert (NG : forall b r, (match r with RData _ => False | _ => True end) -> ((if match gv with Some g => b =? g | None => false end then Some (RData (Some t)) else ro1 b) = Some r <-> ro b = Some r)).
  { intros b r Hr. destruct (match gv with Some g => b =? g | None => false end) eqn:EG.
    - destruct (G b EG) as (_ & R & _). assert (Q : ro b = Some r -> False) by (intros Q; apply (N1 b r Hr) in Q; rewrite R in Q; injection Q as <-; auto). split; [|tauto]. intros Q'. injection Q' as <-. tauto.
    - apply N1; auto. }
  split; cbn [owner tensorBuf listOf].
  - intros b H. rewrite EN. apply A1, R1. destruct (match gv with Some g => b =? g | None => false end) eqn:EG; [|auto]. destruct (G b EG) as (_ & R & _). congruence.
  - intros b. rewrite LV. destruct (match gv with Some g => b =? g | None => false end) eqn:EG; [|tauto]. destruct (G b EG) as (_ & R & _). rewrite R. split; discriminate.
  - intros b o'. rewrite GO. destruct (match gv with Some g => b =? g | None => false end) eqn:EG; [split; intros; congruence|apply D1].
  - intros x. rewrite NG by exact Logic.I. rewrite A4. destruct (Nat.eq_dec x t) as [->|]; [rewrite upd_same, Hb; split; discriminate|rewrite upd_other by auto; tauto].
  - intros x. rewrite NG by exact Logic.I. apply A5.
  - intros x dx H. rewrite ET. destruct (Nat.eq_dec x t) as [->|Nx].
    + rewrite upd_same in H. rewrite upd_same. injection H as <-. eexists. split; [reflexivity|]. cbn [tAlloc tOwning tShape tStrides]. split; [reflexivity|].
      destruct (A6 t d0 Hb) as (v' & B1 & B2 & B3 & B4 & B5). assert (v' = v) by congruence. subst v'. split; [|split; apply NG; auto].
      intros Ho b Hb'. rewrite GO. unfold gv. rewrite Hb', Ho, Nat.eqb_refl. reflexivity.
    + rewrite upd_other in H by auto. rewrite upd_other by auto. destruct (A6 x dx H) as (v' & B1 & B2 & B3 & B4 & B5). exists v'. split; [auto|split; [auto|split; [|split; apply NG; auto]]].
      intros Ho b Hb'. specialize (B3 Ho b Hb'). rewrite GO.
      assert (L : lose t to (owner w) b = Some (Some x)) by (unfold lose; rewrite B3; apply Nat.eqb_neq in Nx; now rewrite Nx).
      destruct (match gv with Some g => b =? g | None => false end) eqn:EG; [|auto]. destruct (G b EG). congruence.
  - intros b x H. rewrite GO in H. destruct (match gv with Some g => b =? g | None => false end) eqn:EG.
    + injection H as <-. destruct (G b EG) as (_ & _ & -> & ->). rewrite ET, !upd_same. eexists. split; [reflexivity|split; reflexivity].
    + unfold lose in H. destruct (owner w b) as [[t'|]|] eqn:EW; try discriminate. revert H. destruct (Nat.eqb_spec t' t) as [->|N]; intros H; [destruct Hto as [->| ->]; discriminate|].
      injection H as ->. destruct (A7 b x EW) as (v' & B1 & B2 & B3). exists v'. rewrite ET, !upd_other by auto. auto.
  - intros b x H. apply NG in H; [|exact Logic.I]. destruct (A8 b x H) as (v' & B1 & B2 & B3). rewrite ET. destruct (Nat.eq_dec x t) as [->|N].
    + rewrite !upd_same. assert (v' = v) by congruence. subst v'. eexists. split; [discriminate|]. split; [reflexivity|exact B3].
    + exists v'. rewrite !upd_other by auto. auto.
  - intros b x H. apply NG in H; [|exact Logic.I]. destruct (A9 b x H) as (v' & B1 & B2 & B3). rewrite ET. destruct (Nat.eq_dec x t) as [->|N].
    + rewrite !upd_same. assert (v' = v) by congruence. subst v'. eexists. split; [discriminate|]. split; [reflexivity|exact B3].
    + exists v'. rewrite !upd_other by auto. auto.
  - intros l ts H. destruct (A10 l ts H) as (v' & B1 & B2 & B3 & B4). exists v'. rewrite ELs. split; [auto|split; [auto|split; [auto|]]].
    intros a Ha. apply NG; auto.
  - intros a l H. apply NG in H; [|exact Logic.I]. rewrite ELs. apply A11, H.
Qed.

(** A new list. *)
Lemma new_list s w ro s' l a ts : Inv s w ro -> next s <= l -> (forall x, a = Some x -> next s <= x /\ x <> l /\ x < next s') -> l < next s' -> next s <= next s' ->
  (a = None <-> ts = []) -> (forall b, live s' b = if (b =? l) || match a with Some x => b =? x | None => false end then true else live s b) ->
  tens s' = tens s -> (forall x, lists s' x = upd (lists s) l (Some {| lOmts := a; lTensors := ts |}) x) ->
  exists ro', Inv s' {| owner := owner w; tensorBuf := tensorBuf w; listOf := upd (listOf w) l (Some ts) |} ro'.
Proof.
  intros I Hl Ha Hl' Hn Hts EL ET ELs. destruct (fresh_next s w ro l I Hl) as (F & (Fo & Fb & Fl) & _). pose proof I as [A1 A2 A3 A4 A5 A6 A7 A8 A9 A10 A11].
  assert (FA : forall x, a = Some x -> ro x = None /\ fresh w x) by (intros x Hx; destruct (Ha x Hx) as (Q & _); destruct (fresh_next s w ro x I Q) as (R & R' & _); auto).
  exists (fun b => if b =? l then Some RList else if match a with Some x => b =? x | None => false end then Some (ROmts l) else ro b).
  set (isa := fun b => match a with Some x => b =? x | None => false end).
  assert (IA : forall b, isa b = true -> a = Some b) by (intros b H; unfold isa in H; destruct a; [apply Nat.eqb_eq in H; congruence|discriminate]).
  assert (NR : forall b r, (match r with ROmts _ | RList => False | _ => True end) -> ((if b =? l then Some RList else if isa b then Some (ROmts l) else ro b) = Some r <-> ro b = Some r)).
  { intros b r Hr. destruct (Nat.eqb_spec b l) as [->|].
    - split; [intros H; injection H as <-; tauto|congruence].
    - destruct (isa b) eqn:EA; [|tauto]. apply IA in EA. destruct (FA b EA) as [R _]. split; [intros H; injection H as <-; tauto|congruence]. }
  split; cbn [owner tensorBuf listOf]; fold isa.
  - intros b H. change (match a with Some x => b =? x | None => false end) with (isa b) in H. destruct (Nat.eqb_spec b l) as [E1|E1]; [lia|].
    destruct (isa b) eqn:EA; [apply IA in EA; apply Ha in EA; lia|]. specialize (A1 b H). lia.
  - intros b. change (match a with Some x => b =? x | None => false end) with (isa b). rewrite EL. fold (isa b). destruct (b =? l); [split; [discriminate|auto]|]. cbn [orb]. change (match a with Some x => b =? x | None => false end) with (isa b).
    destruct (isa b); [split; [discriminate|auto]|apply A2].
  - intros b o. change (match a with Some x => b =? x | None => false end) with (isa b). rewrite NR by exact Logic.I. apply A3.
  - intros b. change (match a with Some x => b =? x | None => false end) with (isa b). rewrite NR by exact Logic.I. apply A4.
  - intros b. change (match a with Some x => b =? x | None => false end) with (isa b). destruct (Nat.eqb_spec b l) as [->|]; [rewrite upd_same; split; [discriminate|auto]|]. rewrite upd_other by auto.
    destruct (isa b) eqn:EA; [|apply A5]. apply IA in EA. destruct (FA b EA) as [_ (_ & _ & R)]. split; [discriminate|congruence].
  - intros t d H. destruct (A6 t d H) as (v & B1 & B2 & B3 & B4 & B5). exists v. rewrite ET. split; [auto|split; [auto|split; [auto|split; apply NR; auto]]].
  - intros b t H. rewrite ET. auto.
  - intros b t H. apply (NR b) in H; [|exact Logic.I]. rewrite ET. auto.
  - intros b t H. apply (NR b) in H; [|exact Logic.I]. rewrite ET. auto.
  - intros l' ts' H. rewrite ELs. destruct (Nat.eq_dec l' l) as [->|N].
    + rewrite upd_same in H. rewrite upd_same. injection H as <-. eexists. split; [reflexivity|]. cbn [lTensors lOmts]. split; [reflexivity|]. split; [exact Hts|].
      intros x ->. destruct (Ha x eq_refl) as (_ & Q & _). apply Nat.eqb_neq in Q. rewrite Q, Nat.eqb_refl. reflexivity.
    + rewrite upd_other in H by auto. rewrite upd_other by auto. destruct (A10 l' ts' H) as (v & B1 & B2 & B3 & B4). exists v. split; [auto|split; [auto|split; [auto|]]].
      intros x Hx. specialize (B4 x Hx). change (match a with Some y => x =? y | None => false end) with (isa x). destruct (Nat.eqb_spec x l) as [->|]; [congruence|].
      destruct (isa x) eqn:EA; [|auto]. apply IA in EA. destruct (FA x EA). congruence.
  - intros x l' H. change (match a with Some y => x =? y | None => false end) with (isa x) in H. rewrite ELs. revert H. destruct (Nat.eqb_spec x l) as [->|]; [discriminate|].
    destruct (isa x) eqn:EA; intros H.
    + injection H as <-. apply IA in EA. rewrite !upd_same. eexists. split; [discriminate|]. split; [reflexivity|exact EA].
    + destruct (A11 x l' H) as (v & B1 & B2 & B3). assert (l' <> l) by congruence. exists v. rewrite !upd_other by auto. auto.
Qed.

(** Every allowed call is defined, and does what [effect] says. *)
Theorem simulation s w ro c : Inv s w ro -> allowed w c ->
  exists s' r w' ro', step ok c s = Some (s', r) /\ effect w c r (omTensorGetDataPtr r s') w' /\ Inv s' w' ro'.
Proof.
  intros I HA. pose proof I as [A1 A2 A3 A4 A5 A6 A7 A8 A9 A10 A11].
  destruct c as [|b|d o|ty|t o d|t o|t|ts|l|l|l i]; cbn [step allowed] in *.
  - (* UserAlloc *) rewrite malloc_eq. destruct (ok (clock s)).
    + destruct (new_data s w ro I) as [ro' I']. exists (grow s), (Some (next s)), {| owner := upd (owner w) (next s) (Some None); tensorBuf := tensorBuf w; listOf := listOf w |}, ro'. split; [reflexivity|]. split; [|auto].
      apply E_alloc. apply (fresh_next s w ro _ I (le_n _)).
    + exists (bump s), None, w, ro. split; [reflexivity|]. split; [apply E_fail; exact Logic.I|]. apply (inv_ext s); auto.
  - (* UserFree *) destruct (free_data s w ro b I HA) as (s' & ro' & E & I'). cbn [free] in E. unfold noret. cbn [free]. rewrite E. eexists _, _, _, ro'. split; [reflexivity|]. split; [apply E_free|exact I'].
  - (* Create *) destruct (create_ok s w ro d o (owner w) I) as [(s' & E & I' & _)|(s' & E & Hn & EL & ET & ELs & EN)]; rewrite E.
    + eexists _, _, w, ro. split; [reflexivity|]. split; [apply E_fail; exact Logic.I|auto].
    + destruct (new_tensor s w ro s' (next s) (S (next s)) (S (S (next s))) d o I) as [ro' I']; try lia; auto.
      eexists _, _, _, ro'. split; [reflexivity|]. split; [|exact I'].
      assert (GD : omTensorGetDataPtr (Some (next s)) s' = d) by (cbn [omTensorGetDataPtr]; unfold getT; rewrite EL, ET, Nat.eqb_refl, upd_same; reflexivity). rewrite GD. apply E_create. apply (fresh_next s w ro _ I (le_n _)).
  - (* CreateEmpty *) unfold omTensorCreateEmpty. destruct ty; cbn [negb].
    2:{ eexists _, _, w, ro. split; [reflexivity|]. split; [apply E_fail; exact Logic.I|auto]. }
    rewrite malloc_eq. destruct (ok (clock s)).
    2:{ cbn [free]. eexists _, _, w, ro. split; [reflexivity|]. split; [apply E_fail; exact Logic.I|]. apply (inv_ext s); auto. }
    destruct (fresh_next s w ro (next s) I (le_n _)) as (F & FR & FL).
    destruct (new_data s w ro I) as [ro1 I1]. set (w1 := {| owner := upd (owner w) (next s) (Some None); tensorBuf := tensorBuf w; listOf := listOf w |}) in *.
    assert (OW : owner w1 (next s) = Some None) by (cbn; apply upd_same).
    destruct (create_ok (grow s) w1 ro1 (Some (next s)) true (owner w) I1) as [(s' & E & I' & _)|(s' & E & Hn & EL & ET & ELs & EN)]; rewrite E.
    + destruct (free_data s' w1 ro1 (next s) I' OW) as (s2 & ro2 & E2 & I2). rewrite E2. eexists _, _, w, ro2. split; [reflexivity|]. split; [apply E_fail; exact Logic.I|].
      eapply inv_weq; [|exact I2]. split; [|split]; cbn; auto. intros b. destruct FR as (Fo & _). unfold upd. destruct (Nat.eqb_spec b (next s)) as [->|]; auto.
    + cbn [next grow] in *. destruct (new_tensor (grow s) w1 ro1 s' (S (next s)) (S (S (next s))) (S (S (S (next s)))) (Some (next s)) true I1) as [ro' I']; cbn [next grow]; try lia; auto.
      { intros _ b Hb. injection Hb as <-. exact OW. }
      eexists _, _, _, ro'. split; [reflexivity|]. split.
      * assert (GD : omTensorGetDataPtr (Some (S (next s))) s' = Some (next s)) by (cbn [omTensorGetDataPtr]; unfold getT; rewrite EL, ET, Nat.eqb_refl, upd_same; reflexivity). rewrite GD. apply E_empty; [apply (fresh_next s w ro _ I); lia|exact FR|lia].
      * eapply inv_weq; [|exact I']. split; [|split]; cbn; auto. intros b. unfold upd. destruct (b =? next s); auto.
  - (* SetDataPtr *) destruct t as [t|]; [|eexists _, _, w, ro; split; [reflexivity|]; split; [apply E_null; exact Logic.I|exact I]].
    destruct HA as [HT HG]. destruct (tensorBuf w t) as [d0|] eqn:ET; [|congruence]. destruct (A6 t d0 ET) as (v & T1 & T2 & T3 & T4 & T5).
    assert (LT : live s t = true) by (apply A2; rewrite (proj2 (A4 t)); congruence).
    unfold noret. cbn [omTensorSetDataPtr]. unfold getT. rewrite LT, T1.
    assert (ST : exists s1, (if tOwning v then free (tAlloc v) s else Some s) = Some s1 /\ next s1 = next s /\ lists s1 = lists s /\ tens s1 = tens s /\
       (forall b, live s1 b = match owner w b with Some (Some t') => if t' =? t then false else live s b | _ => live s b end)).
    { assert (OW : forall b, owner w b = Some (Some t) -> tOwning v = true /\ tAlloc v = Some b).
      { intros b H. destruct (A7 b t H) as (v' & B1 & B2 & B3). assert (v' = v) by congruence. subst v'. split; [auto|congruence]. }
      destruct (tOwning v) eqn:EO; [destruct (tAlloc v) as [a|] eqn:EA|].
      - assert (OA : owner w a = Some (Some t)) by (apply T3; congruence). assert (RA : ro a = Some (RData (Some t))) by (apply A3; auto).
        cbn [free]. rewrite (proj2 (A2 a)) by congruence. eexists. split; [reflexivity|]. cbn [next lists tens live]. repeat split; auto.
        intros b. unfold upd. destruct (Nat.eqb_spec b a) as [->|N]; [rewrite OA, Nat.eqb_refl; reflexivity|].
        destruct (owner w b) as [[t'|]|] eqn:EW; auto. destruct (Nat.eqb_spec t' t) as [->|]; auto. destruct (OW b EW). congruence.
      - exists s. cbn [free]. repeat split; auto. intros b. destruct (owner w b) as [[t'|]|] eqn:EW; auto. destruct (Nat.eqb_spec t' t) as [->|]; auto. destruct (OW b EW). congruence.
      - exists s. repeat split; auto. intros b. destruct (owner w b) as [[t'|]|] eqn:EW; auto. destruct (Nat.eqb_spec t' t) as [->|]; auto. destruct (OW b EW). congruence. }
    destruct ST as (s1 & E1 & EN & ELs & ETs & EL). rewrite E1.
    destruct (set_tensor s w ro (setT s1 t {| tShape := tShape v; tStrides := tStrides v; tAlloc := d; tOwning := o |}) t d0 v d o None I ET T1 (or_introl eq_refl)) as [ro' I'].
    + intros Ho b Hb. specialize (HG Ho b Hb). unfold lose. now rewrite HG.
    + exact EN.
    + exact ELs.
    + intros x. cbn [setT tens]. now rewrite ETs.
    + intros b. cbn [setT live]. rewrite EL. destruct (owner w b) as [[t'|]|]; reflexivity.
    + eexists _, _, _, ro'. split; [reflexivity|]. split; [apply E_setptr|exact I'].
  - (* SetOwning *) destruct t as [t|]; [|eexists _, _, w, ro; split; [reflexivity|]; split; [apply E_null; exact Logic.I|exact I]].
    destruct HA as (d0 & ET & HG). destruct (A6 t d0 ET) as (v & T1 & T2 & T3 & T4 & T5).
    assert (LT : live s t = true) by (apply A2; rewrite (proj2 (A4 t)); congruence).
    unfold noret. cbn [omTensorSetOwning]. unfold getT. rewrite LT, T1.
    destruct (set_tensor s w ro (setT s t {| tShape := tShape v; tStrides := tStrides v; tAlloc := tAlloc v; tOwning := o |}) t d0 v d0 o (Some None) I ET T1 (or_intror eq_refl)) as [ro' I']; auto.
    + intros Ho b Hb. unfold lose. destruct (HG Ho b Hb) as [Q|Q]; rewrite Q; [auto|]. now rewrite Nat.eqb_refl.
    + intros x. cbn [setT tens]. now rewrite T2.
    + intros b. cbn [setT live]. destruct (owner w b) as [[t'|]|]; reflexivity.
    + eexists _, _, _, ro'. split; [reflexivity|]. split; [apply E_setown; exact ET|]. eapply inv_weq; [|exact I']. split; [|split]; cbn [owner tensorBuf listOf]; auto.
      * intros b. assert (OW : forall b, owner w b = Some (Some t) -> d0 = Some b).
        { intros b' H. destruct (A7 b' t H) as (v' & B1 & _). congruence. }
        destruct o.
        -- unfold give. destruct d0 as [g|].
           ++ unfold upd. destruct (Nat.eqb_spec b g) as [->|]; [reflexivity|]. unfold lose. destruct (owner w b) as [[t'|]|] eqn:EW; auto. destruct (Nat.eqb_spec t' t) as [->|]; auto. specialize (OW b EW). congruence.
           ++ unfold lose. destruct (owner w b) as [[t'|]|] eqn:EW; auto. destruct (Nat.eqb_spec t' t) as [->|]; auto. specialize (OW b EW). congruence.
        -- unfold give. destruct d0; reflexivity.
      * intros x. unfold upd. destruct (Nat.eqb_spec x t) as [E1|E1]; [rewrite E1; symmetry; exact ET|reflexivity].
  - (* Destroy *) destruct t as [t|]; [|eexists _, _, w, ro; split; [reflexivity|]; split; [apply E_null; exact Logic.I|exact I]].
    destruct (destroy_ok s w ro t I HA) as (s' & E & I' & _). unfold noret. rewrite E. eexists _, _, _, _. split; [reflexivity|]. split; [apply E_destroy|exact I'].
  - (* ListCreate *) unfold omTensorListCreate. rewrite malloc_eq. destruct (ok (clock s)).
    2:{ eexists _, _, w, ro. split; [reflexivity|]. split; [apply E_fail; exact Logic.I|]. apply (inv_ext s); auto. }
    destruct (fresh_next s w ro (next s) I (le_n _)) as (F & FR & FL). destruct ts as [|p ts].
    + destruct (new_list s w ro (setL (grow s) (next s) {| lOmts := None; lTensors := [] |}) (next s) None [] I) as [ro' I']; cbn [next grow setL lists live tens]; try lia; try tauto; try discriminate; auto.
      { intros b. unfold upd. destruct (b =? next s); reflexivity. }
      eexists _, _, _, ro'. split; [reflexivity|]. split; [apply E_list; exact FR|exact I'].
    + rewrite malloc_eq. destruct (ok (clock (grow s))).
      * destruct (new_list s w ro (setL (grow (grow s)) (next s) {| lOmts := Some (S (next s)); lTensors := p :: ts |}) (next s) (Some (S (next s))) (p :: ts) I) as [ro' I']; cbn [next grow setL lists live tens]; try lia; try (split; discriminate); auto.
        { intros x Hx. injection Hx as <-. lia. }
        { intros b. unfold upd. destruct (b =? next s), (b =? S (next s)); reflexivity. }
        eexists _, _, _, ro'. split; [reflexivity|]. split; [apply E_list; exact FR|exact I'].
      * cbn [free live bump grow]. rewrite upd_same. eexists _, _, w, ro. split; [reflexivity|]. split; [apply E_fail; exact Logic.I|]. apply (inv_ext s); auto.
        -- cbn. lia.
        -- cbn [live]. intros b. unfold upd. destruct (Nat.eqb_spec b (next s)) as [->|]; auto.
  - (* ListDestroy *) destruct l as [l|]; [|eexists _, _, w, ro; split; [reflexivity|]; split; [apply E_null; exact Logic.I|exact I]].
    destruct HA as (ts & EL & ND & HT). destruct (A10 l ts EL) as (v & L1 & L2 & L3 & L4).
    assert (LL : live s l = true) by (apply A2; rewrite (proj2 (A5 l)); congruence).
    unfold noret. cbn [omTensorListDestroy]. unfold getL. rewrite LL, L1, L2.
    destruct (destroyAll_ok (lOmts v) l ts s w ro I ND HT) as (s1 & ro1 & E1 & I1 & HL1).
    { intros Hne. destruct (lOmts v) as [a|] eqn:EA; [|exfalso; apply Hne, L3; auto]. exists a. split; [auto|apply L4; auto]. }
    { congruence. }
    rewrite E1. destruct (shallow_ok s1 _ ro1 l I1 HL1) as (s2 & E2 & I2). rewrite E2.
    eexists _, _, _, _. split; [reflexivity|]. split; [apply E_ldestroy; exact EL|exact I2].
  - (* ListDestroyShallow *) destruct l as [l|]; [|eexists _, _, w, ro; split; [reflexivity|]; split; [apply E_null; exact Logic.I|exact I]].
    destruct (shallow_ok s w ro l I HA) as (s' & E & I'). unfold noret. rewrite E. eexists _, _, _, _. split; [reflexivity|]. split; [apply E_lshallow|exact I'].
  - (* ListGet *) destruct l as [l|]; [|eexists _, _, w, ro; split; [reflexivity|]; split; [apply E_null; exact Logic.I|exact I]].
    destruct (listOf w l) as [ts|] eqn:EL; [|congruence]. destruct (A10 l ts EL) as (v & L1 & L2 & L3 & L4).
    assert (LL : live s l = true) by (apply A2; rewrite (proj2 (A5 l)); congruence).
    cbn [omTensorListGetOmtByIndex]. unfold getL. rewrite LL, L1, L2.
    destruct ((i <? 0)%Z || (Z.of_nat (length ts) <=? i)%Z) eqn:EB.
    + eexists _, _, w, ro. split; [reflexivity|]. split; [eapply E_get; [exact EL|now rewrite EB]|auto].
    + destruct (lOmts v) as [a|] eqn:EA.
      * rewrite (proj2 (A2 a)) by (rewrite (L4 a eq_refl); discriminate). eexists _, _, w, ro. split; [reflexivity|]. split; [eapply E_get; [exact EL|now rewrite EB]|auto].
      * exfalso. rewrite (proj1 L3 eq_refl) in EB. cbn in EB. apply orb_false_iff in EB as [EB1 EB2]. apply Z.ltb_ge in EB1. apply Z.leb_gt in EB2. lia.
Qed.

Lemma effect_det w c r d w1 w2 : effect w c r d w1 -> effect w c r d w2 -> w1 = w2.
Proof.
  intros H1 H2. destruct H1; inversion H2; subst; try reflexivity; try tauto; try congruence.
  all: match goal with A : ?x = Some ?a, B : ?x = Some ?b |- _ => assert (a = b) by congruence; subst; reflexivity end.
Qed.
Theorem history_inv s w : history ok s w -> exists ro, Inv s w ro.
Proof.
  induction 1 as [|s w c s' r w' H IH HA HS HE].
  - eexists. apply inv_init.
  - destruct IH as [ro I]. destruct (simulation s w ro c I HA) as (s2 & r2 & w2 & ro2 & E & HE2 & I2).
    rewrite HS in E. injection E as <- <-. exists ro2. now rewrite (effect_det _ _ _ _ _ _ HE HE2).
Qed.
End Sim.
