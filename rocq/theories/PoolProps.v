(* C17: the pool of disposable constants, over all histories and all schedules. *)
From Coq Require Import String List Arith Bool Lia Permutation.
Import ListNotations.
From Coq Require Import ZArith.
From Verif Require Import PoolSpec PoolModel PoolProofs.
Local Open Scope nat_scope.

(* The data behind a handle is still held in memory. *)
Definition retained (h : heap) (id : nat) : Prop :=
  exists s b, h id = Some s /\ sBuf s = Some b.

(* A buffer is in memory as long as some attribute holds it. *)
Definition bufferRetained (h : heap) (b : nat) : Prop :=
  exists id s bytes, h id = Some s /\ sBuf s = Some (b, bytes).

(* What callers have to respect, as stated in DisposablePool.hpp 13-25 and 60-75.
   - A creating thread supplies a buffer, and finishes the creation it began.
   - A pass puts into the module only handles that it holds or that are there already.
   - Collection and scrubbing "stop the world": no pass holds a handle, and the places
     passed by the caller are the only ones in the module where handles occur.
   - A scrub walks its table in some order that lists each handle of the module once,
     uses at least one thread, and waits for all of them.
   - The pool is closed only when it is empty. *)
Definition allowed (st : state) (e : event) : Prop :=
  match e with
  | EBeginCreate s => sBuf s <> None
  | EFinishCreate id => In id (pending st)
  | EOtherPool => True
  | ERead id => In id (opIds (modul st))
  | EEdit m => uniqueNames m /\ incl (opIds m) (opIds (modul st) ++ held st)
  | EPassEnd => True
  | ECollect places => held st = [] /\ listed places (modul st)
  | EScrub places order threads sched =>
      held st = [] /\ listed places (modul st) /\
      NoDup order /\ (forall id, In id order <-> In id (opIds (modul st))) /\
      1 <= threads /\ Forall (fun k => k < threads) sched /\
      (forall c, runSchedule (startScrub st order threads) sched = Ok c -> allDone c = true)
  | EClose => pool st = []
  end.

Fixpoint obeys (st : state) (es : list event) : Prop :=
  match es with
  | [] => True
  | e :: r => allowed st e /\ forall st', run1 st e = Ok st' -> obeys st' r
  end.

(* A state that some compilation reaches: it starts from a module without handles. *)
Definition reachable (st : state) : Prop :=
  exists m es, opIds m = [] /\ uniqueNames m /\ obeys (initial m) es /\ run (initial m) es = Ok st.

(* ---- invariant ---- *)
Record Inv (st : state) : Prop := {
  ivPoolND : NoDup (pool st);
  ivPendND : NoDup (pending st);
  ivDisj : forall id, In id (pool st) -> ~ In id (pending st);
  ivFresh : forall id, counter st < id -> store st id = None;
  ivLive : forall id, In id (pool st) \/ In id (pending st) -> exists v, readAt (store st) id = Some v;
  ivDead : forall id, ~ In id (pool st) -> ~ In id (pending st) -> readAt (store st) id = None;
  ivMod : incl (opIds (modul st)) (pool st);
  ivHeld : incl (held st) (pool st);
  ivNames : uniqueNames (modul st);
  ivClosed : active st = false -> pool st = []
}.

Lemma readAt_some_store h id v : readAt h id = Some v -> h id <> None.
Proof. unfold readAt. destruct (h id); congruence. Qed.

Lemma readAt_retained h id : retained h id <-> exists v, readAt h id = Some v.
Proof.
  unfold retained, readAt, toDense. split.
  - intros (s & [b bytes] & -> & ->). eauto.
  - intros [v H]. destruct (h id) as [s|]; [|discriminate].
    destruct (sBuf s) as [[b bytes]|] eqn:E; [|discriminate]. eauto.
Qed.

Lemma inv_bound st id : Inv st -> In id (pool st) \/ In id (pending st) -> id <= counter st.
Proof.
  intros I H. destruct (ivLive st I id H) as [v Hv]. apply readAt_some_store in Hv.
  destruct (Nat.le_gt_cases id (counter st)) as [|L]; auto.
  exfalso. apply Hv. apply (ivFresh st I). lia.
Qed.

Lemma inv_initial m : opIds m = [] -> uniqueNames m -> Inv (initial m).
Proof.
  intros H U. split; cbn; auto; try constructor; try tauto.
  - rewrite H. intros x [].
  - intros x [].
Qed.

Lemma removeId_in id l x : In x (removeId id l) <-> In x l /\ x <> id.
Proof.
  unfold removeId. rewrite filter_In. rewrite negb_true_iff, Nat.eqb_neq. tauto.
Qed.

Lemma removeId_NoDup id l : NoDup l -> NoDup (removeId id l).
Proof. apply NoDup_filter. Qed.

Lemma inv_beginCreate st s : Inv st -> sBuf s <> None -> Inv (beginCreate st s).
Proof.
  intros I Hs. set (id := S (counter st)).
  assert (NP : ~ In id (pool st)) by (intros H; pose proof (inv_bound st id I (or_introl H)); lia).
  assert (NQ : ~ In id (pending st)) by (intros H; pose proof (inv_bound st id I (or_intror H)); lia).
  assert (Other : forall j, j <> id -> readAt (upd (store st) id s) j = readAt (store st) j).
  { intros j Hj. unfold readAt. rewrite upd_other; auto. }
  split; cbn [beginCreate pool pending counter store modul held active]; fold id.
  - apply (ivPoolND st I).
  - constructor; [exact NQ | apply (ivPendND st I)].
  - intros j Hj [<-|H]; [tauto|]. exact (ivDisj st I j Hj H).
  - intros j Hj. rewrite upd_other by lia. apply (ivFresh st I). lia.
  - intros j Hj. destruct (Nat.eq_dec j id) as [->|Hne].
    + unfold readAt. rewrite upd_same. unfold toDense. destruct (sBuf s) as [[b v]|]; [eauto | congruence].
    + rewrite (Other j Hne). apply (ivLive st I). cbn [In] in Hj.
      destruct Hj as [|[E|]]; auto. congruence.
  - intros j H1 H2. cbn [In] in H2. rewrite Other by (intros ->; apply H2; auto).
    apply (ivDead st I); tauto.
  - apply (ivMod st I).
  - apply (ivHeld st I).
  - apply (ivNames st I).
  - apply (ivClosed st I).
Qed.

Lemma inv_finishCreate st id :
  Inv st -> In id (pending st) ->
  exists st' r, finishCreate st id = Ok (st', r) /\ Inv st' /\
    match r with
    | Handle j => j = id /\ active st = true /\ store st' = store st
    | Dense v => active st = false /\ readAt (store st) id = Some v /\ store st' = disposeAt (store st) id
    end.
Proof.
  intros I Hid. unfold finishCreate. rewrite (proj2 (memb_spec id (pending st)) Hid). cbn [negb].
  assert (NP : ~ In id (pool st)) by (intros H; exact (ivDisj st I id H Hid)).
  destruct (active st) eqn:A.
  - rewrite (proj2 (memb_false id (pool st)) NP). do 2 eexists. split; [reflexivity|].
    split; [|auto].
    split; cbn [pool pending counter store modul held active].
    + constructor; [exact NP | apply (ivPoolND st I)].
    + apply removeId_NoDup, (ivPendND st I).
    + intros j [<-|Hj] H; apply removeId_in in H; [tauto|]. exact (ivDisj st I j Hj (proj1 H)).
    + apply (ivFresh st I).
    + intros j Hj. apply (ivLive st I). cbn [In] in Hj. rewrite removeId_in in Hj.
      destruct Hj as [[<-|]|[]]; auto.
    + intros j H1 H2. rewrite removeId_in in H2. cbn [In] in H1. apply (ivDead st I); [tauto|].
      intros H. apply H2. split; [exact H|]. intros ->. apply H1. auto.
    + intros j Hj. right. apply (ivMod st I). exact Hj.
    + intros j [<-|Hj]; [left; auto | right; apply (ivHeld st I); exact Hj].
    + apply (ivNames st I).
    + discriminate.
  - destruct (ivLive st I id (or_intror Hid)) as [v Hv]. rewrite Hv.
    do 2 eexists. split; [reflexivity|]. split; [|auto].
    pose proof (ivClosed st I A) as E0.
    split; cbn [pool pending counter store modul held active].
    + apply (ivPoolND st I).
    + apply removeId_NoDup, (ivPendND st I).
    + rewrite E0. intros j [].
    + intros j Hj. apply disposeAt_none. apply (ivFresh st I). exact Hj.
    + intros j Hj. rewrite removeId_in in Hj.
      assert (j <> id) by (destruct Hj as [Hj|[]]; [intros ->; tauto | auto]).
      rewrite readAt_dispose_other by auto. apply (ivLive st I). tauto.
    + intros j H1 H2. destruct (Nat.eq_dec j id) as [->|Hne]; [apply readAt_dispose_same|].
      rewrite readAt_dispose_other by auto. apply (ivDead st I); [exact H1|].
      intros H. apply H2. apply removeId_in. auto.
    + apply (ivMod st I).
    + apply (ivHeld st I).
    + apply (ivNames st I).
    + auto.
Qed.

Lemma walk_same places st id :
  Inv st -> listed places (modul st) -> In id (walkIds places (modul st)) <-> In id (opIds (modul st)).
Proof.
  intros I L. split; [apply walkIds_in | apply walkIds_complete; auto; apply (ivNames st I)].
Qed.

Lemma collect_ok st places :
  Inv st -> held st = [] -> listed places (modul st) ->
  exists st', collect places st = Ok st' /\ Inv st' /\ modul st' = modul st /\
    pending st' = pending st /\ active st' = active st /\ counter st' = counter st /\
    (forall id, In id (opIds (modul st)) \/ In id (pending st) -> store st' id = store st id) /\
    (forall id, In id (pool st') <-> In id (opIds (modul st))) /\ held st' = [].
Proof.
  intros I Hh L. unfold collect.
  assert (F : forallb (fun id => memb id (pool st)) (walkIds places (modul st)) = true).
  { apply forallb_forall. intros id Hid. apply memb_spec. apply (ivMod st I). apply (walk_same places st id I L). exact Hid. }
  rewrite F. destruct (eraseUnreachable (walkIds places (modul st)) (store st) (pool st)) as [h p] eqn:E.
  destruct (eraseUnreachable_spec _ _ _ _ _ E) as (A & B & C & D & G).
  assert (P : forall id, In id p <-> In id (opIds (modul st))).
  { intros id. rewrite A, (walk_same places st id I L). split; [tauto|].
    intros H. split; [apply (ivMod st I); exact H | exact H]. }
  assert (K : forall id, In id (opIds (modul st)) \/ In id (pending st) -> h id = store st id).
  { intros id [H|H].
    - apply C. left. apply (walk_same places st id I L). exact H.
    - apply C. right. intros H'. exact (ivDisj st I id H' H). }
  assert (R : forall id, In id (opIds (modul st)) \/ In id (pending st) -> readAt h id = readAt (store st) id).
  { intros id H. unfold readAt. rewrite (K id H). reflexivity. }
  eexists. split; [reflexivity|]. split; [|cbn [modul pending active counter store pool held]; auto 10].
  split; cbn [pool pending counter store modul held active].
  - apply B. apply (ivPoolND st I).
  - apply (ivPendND st I).
  - intros id Hid. apply (ivDisj st I). apply A in Hid. tauto.
  - intros id Hid. apply G. apply (ivFresh st I). exact Hid.
  - intros id Hid. rewrite P in Hid. rewrite (R id Hid). apply (ivLive st I).
    destruct Hid as [H|H]; [left; apply (ivMod st I); exact H | auto].
  - intros id H1 H2. destruct (in_dec Nat.eq_dec id (pool st)) as [Hp|Hp].
    + apply D; [exact Hp|]. rewrite (walk_same places st id I L). rewrite <- P. exact H1.
    + unfold readAt. rewrite C by auto. apply (ivDead st I); auto.
  - intros id Hid. apply P. exact Hid.
  - rewrite Hh. intros x [].
  - apply (ivNames st I).
  - intros Ha. pose proof (ivClosed st I Ha) as E0. destruct p as [|x r]; auto.
    exfalso. destruct (proj1 (A x) (or_introl eq_refl)) as [H _]. rewrite E0 in H. destruct H.
Qed.

Lemma scrub_start st order threads :
  Inv st -> NoDup order -> (forall id, In id order <-> In id (opIds (modul st))) ->
  SInv order (store st) (startScrub st order threads) /\
  (forall id, In id order -> exists v, readAt (store st) id = Some v).
Proof.
  intros I ND O. split; [apply start_inv; reflexivity|].
  intros id Hid. apply (ivLive st I). left. apply (ivMod st I). apply O. exact Hid.
Qed.

Lemma scrub_ok st places order threads sched :
  Inv st -> held st = [] -> listed places (modul st) ->
  NoDup order -> (forall id, In id order <-> In id (opIds (modul st))) ->
  1 <= threads -> Forall (fun k => k < threads) sched ->
  exists c, runSchedule (startScrub st order threads) sched = Ok c /\
    (allDone c = true ->
       Permutation (conversions c) order /\
       exists st', finishScrub places st c = Ok st' /\ Inv st' /\
         observe (readAt (store st')) (modul st') = observe (readAt (store st)) (modul st) /\
         opIds (modul st') = [] /\ pool st' = [] /\ pending st' = pending st /\
         active st' = active st /\ counter st' = counter st /\ held st' = [] /\
         (forall id, readAt (store st') id = None \/ readAt (store st') id = readAt (store st) id)).
Proof.
  intros I Hh L ND O Ht F.
  destruct (scrub_start st order threads I ND O) as [SI LV].
  destruct (runSchedule_inv order (store st) ND LV sched _ SI) as (c & Rc & Ic & Lc).
  { cbn [startScrub workers]. rewrite repeat_length. exact F. }
  exists c. split; [exact Rc|]. intros D.
  assert (NE : workers c <> []).
  { intros E. rewrite E in Lc. cbn [startScrub workers] in Lc. rewrite repeat_length in Lc. cbn in Lc. lia. }
  split; [exact (done_conversions order (store st) ND c Ic NE D)|].
  unfold finishScrub.
  destruct (replaceOps_ok places (tableOf c) (readAt (store st)) (modul st) L (ivNames st I)) as (m & Em & Om & Idm & Um).
  { intros id Hid. pose proof (proj2 (O id) Hid) as Ho. destruct (LV id Ho) as [v Hv].
    exists v. destruct (done_table order (store st) ND c id Ic NE D Ho) as (T & _). rewrite T. auto. }
  rewrite Em. cbn [bind].
  assert (Fb : forallb (fun e => memb (fst e) (pool st)) (entries c) = true).
  { apply forallb_forall. intros e He. apply memb_spec. apply (ivMod st I), O.
    rewrite <- (siIds _ _ _ Ic). apply in_map. exact He. }
  rewrite Fb. destruct (eraseUnreachable [] (sheap c) (pool st)) as [h p] eqn:E.
  destruct (eraseUnreachable_spec _ _ _ _ _ E) as (A & B & C & Dd & G).
  assert (P0 : p = []). { destruct p as [|x r]; auto. destruct (proj1 (A x) (or_introl eq_refl)) as [_ []]. }
  subst p.
  assert (OP : forall id, ~ In id (pool st) -> h id = store st id).
  { intros id H. rewrite C by auto. apply (siFrame _ _ _ Ic). intros H'. apply H. apply (ivMod st I), O. exact H'. }
  assert (Dead : forall id, In id (pool st) -> readAt h id = None) by (intros id H; apply Dd; auto).
  eexists. split; [reflexivity|]. split.
  - split; cbn [pool pending counter store modul held active].
    + constructor.
    + apply (ivPendND st I).
    + intros id [].
    + intros id Hid. apply G. apply (siNone _ _ _ Ic). apply (ivFresh st I). exact Hid.
    + intros id [[]|H]. unfold readAt. rewrite OP; [apply (ivLive st I); auto|].
      intros H'. exact (ivDisj st I id H' H).
    + intros id _ H2. destruct (in_dec Nat.eq_dec id (pool st)) as [Hp|Hp]; [apply Dead; exact Hp|].
      unfold readAt. rewrite OP by auto. apply (ivDead st I); auto.
    + rewrite Idm. intros x [].
    + rewrite Hh. intros x [].
    + exact Um.
    + auto.
  - cbn [pool pending counter store modul held active]. repeat split; auto.
    + rewrite <- Om. apply observe_ext. rewrite Idm. intros id [].
    + intros id. destruct (in_dec Nat.eq_dec id (pool st)) as [Hp|Hp]; [left; apply Dead; exact Hp|].
      right. unfold readAt. rewrite OP by auto. reflexivity.
Qed.

Lemma inv_step st e :
  Inv st -> allowed st e ->
  exists st', run1 st e = Ok st' /\ Inv st' /\ counter st <= counter st' /\
    (forall id, id <= counter st ->
       readAt (store st') id = None \/ readAt (store st') id = readAt (store st) id).
Proof.
  intros I H. destruct e; cbn [allowed run1] in *.
  - eexists. split; [reflexivity|]. split; [apply inv_beginCreate; auto|].
    cbn [beginCreate counter store]. split; [lia|]. intros id Hid. right. unfold readAt.
    rewrite upd_other by lia. reflexivity.
  - destruct (inv_finishCreate st id I H) as (st' & r & E & I' & R). rewrite E. cbn [bind fst].
    exists st'. split; [reflexivity|]. split; [exact I'|]. unfold finishCreate in E.
    destruct (negb (memb id (pending st))); [discriminate|].
    destruct (active st).
    + destruct (memb id (pool st)); [discriminate|]. injection E as <- <-. cbn. auto.
    + destruct (readAt (store st) id); [|discriminate]. injection E as <- <-.
      cbn [counter store]. split; [lia|]. intros j _.
      destruct (Nat.eq_dec j id) as [->|Hne]; [left; apply readAt_dispose_same | right; apply readAt_dispose_other; auto].
  - eexists. split; [reflexivity|]. split; [|cbn; auto].
    destruct I as [i1 i2 i3 i4 i5 i6 i7 i8 i9 i10]. split; auto.
    cbn [bump counter store]. intros id Hid. apply i4. lia.
  - eexists. split; [reflexivity|]. split; [|cbn; auto].
    pose proof I as [i1 i2 i3 i4 i5 i6 i7 i8 i9 i10]. split; auto.
    cbn [hold held pool]. intros j [<-|Hj]; [apply i7; exact H | apply i8; exact Hj].
  - eexists. split; [reflexivity|]. split; [|cbn; auto]. destruct H as [U Hi].
    pose proof I as [i1 i2 i3 i4 i5 i6 i7 i8 i9 i10]. split; auto.
    cbn [edit modul pool]. intros j Hj. apply Hi, in_app_or in Hj. destruct Hj as [Hj|Hj]; auto.
  - eexists. split; [reflexivity|]. split; [|cbn; auto].
    destruct I as [i1 i2 i3 i4 i5 i6 i7 i8 i9 i10]. split; auto.
    cbn [hold held pool]. intros x [].
  - destruct H as [Hh L]. destruct (collect_ok st places I Hh L) as (st' & E & I' & M & Pe & Ac & Co & K & P & Hh').
    exists st'. split; [exact E|]. split; [exact I'|]. rewrite Co. split; [lia|]. intros id _.
    destruct (in_dec Nat.eq_dec id (opIds (modul st))) as [Hm|Hm].
    { right. unfold readAt. rewrite K by auto. reflexivity. }
    destruct (in_dec Nat.eq_dec id (pending st)) as [Hq|Hq].
    { right. unfold readAt. rewrite K by auto. reflexivity. }
    left. apply (ivDead st' I'); [rewrite P; exact Hm | rewrite Pe; exact Hq].
  - destruct H as (Hh & L & ND & O & Ht & F & Dn).
    destruct (scrub_ok st places order threads sched I Hh L ND O Ht F) as (c & Ec & Fin).
    destruct (Fin (Dn c Ec)) as (_ & st' & Es & I' & _ & _ & _ & _ & _ & Co & _ & Rd).
    exists st'. rewrite Ec. cbn [bind]. split; [exact Es|]. split; [exact I'|].
    rewrite Co. split; [lia|]. intros id _. apply Rd.
  - unfold close. rewrite H. eexists. split; [reflexivity|]. split; [|cbn; auto].
    pose proof I as [i1 i2 i3 i4 i5 i6 i7 i8 i9 i10]. rewrite H in *.
    split; cbn [pool pending counter store modul held active]; auto.
Qed.

Lemma inv_run es : forall st,
  Inv st -> obeys st es ->
  exists st', run st es = Ok st' /\ Inv st' /\ counter st <= counter st' /\
    (forall id, id <= counter st ->
       readAt (store st') id = None \/ readAt (store st') id = readAt (store st) id).
Proof.
  induction es as [|e r IH]; intros st I Ob; cbn [run].
  - exists st. auto.
  - destruct Ob as [A Ob]. destruct (inv_step st e I A) as (s1 & E1 & I1 & C1 & V1). rewrite E1. cbn [bind].
    destruct (IH s1 I1 (Ob s1 E1)) as (s2 & E2 & I2 & C2 & V2). exists s2.
    split; [exact E2|]. split; [exact I2|]. split; [lia|].
    intros id Hid. destruct (V2 id ltac:(lia)) as [H|H]; [auto|]. rewrite H. apply V1. exact Hid.
Qed.

Lemma reachable_inv st : reachable st -> Inv st.
Proof.
  intros (m & es & H1 & H2 & H3 & H4).
  destruct (inv_run es _ (inv_initial m H1 H2) H3) as (st' & E & I & _).
  rewrite H4 in E. injection E as <-. exact I.
Qed.

(* ---- theorems ---- *)

(* Any history of creations (by any threads), module edits, collections, scrubs and
   closes that respects the callers' obligations runs without an assertion failure,
   and at its end every constant that the module refers to, or that a running pass
   holds, can be read. *)
Theorem C17_history_safe : forall m es,
  opIds m = [] -> uniqueNames m -> obeys (initial m) es ->
  exists st, run (initial m) es = Ok st /\
    forall id, In id (opIds (modul st)) \/ In id (held st) ->
      exists v, readAt (store st) id = Some v.
Proof.
  intros m es H1 H2 H3.
  destruct (inv_run es _ (inv_initial m H1 H2) H3) as (st & E & I & _).
  exists st. split; [exact E|]. intros id Hid. apply (ivLive st I). left.
  destruct Hid; [apply (ivMod st I) | apply (ivHeld st I)]; auto.
Qed.

(* The values behind a handle never change: whatever happens after [st], a constant
   that existed in [st] and that the module still refers to reads the same. *)
Theorem C17_values_never_change : forall st es st' id,
  reachable st -> obeys st es -> run st es = Ok st' ->
  id <= counter st -> In id (opIds (modul st')) \/ In id (held st') ->
  readAt (store st') id = readAt (store st) id.
Proof.
  intros st es st' id R Ob E Hid Hu. pose proof (reachable_inv st R) as I.
  destruct (inv_run es st I Ob) as (s & Es & I' & _ & V). rewrite E in Es. injection Es as <-.
  destruct (V id Hid) as [H|H]; [|exact H]. exfalso.
  destruct (ivLive st' I' id) as [v Hv].
  - left. destruct Hu; [apply (ivMod st' I') | apply (ivHeld st' I')]; auto.
  - congruence.
Qed.

(* Collection succeeds, leaves the module as it is, changes nothing that a reader of
   the module sees, and afterwards exactly the constants that the module refers to (or
   that are still being created by some thread) are held in memory. *)
Theorem C17_collect : forall st places,
  reachable st -> held st = [] -> listed places (modul st) ->
  exists st', collect places st = Ok st' /\
    modul st' = modul st /\
    observe (readAt (store st')) (modul st') = observe (readAt (store st)) (modul st) /\
    (forall id, In id (opIds (modul st)) -> exists v, readAt (store st') id = Some v) /\
    (forall id, retained (store st') id <-> In id (opIds (modul st)) \/ In id (pending st)).
Proof.
  intros st places R Hh L. pose proof (reachable_inv st R) as I.
  destruct (collect_ok st places I Hh L) as (st' & E & I' & M & Pe & Ac & Co & K & P & Hh').
  exists st'. split; [exact E|]. split; [exact M|]. split; [|split].
  - rewrite M. apply observe_ext. intros id Hid. unfold readAt. rewrite K by auto. reflexivity.
  - intros id Hid. apply (ivLive st' I'). left. apply P. exact Hid.
  - intros id. rewrite readAt_retained. split.
    + intros [v Hv]. destruct (in_dec Nat.eq_dec id (opIds (modul st))) as [Hm|Hm]; auto.
      destruct (in_dec Nat.eq_dec id (pending st)) as [Hq|Hq]; auto.
      rewrite (ivDead st' I') in Hv; [discriminate | rewrite P; exact Hm | rewrite Pe; exact Hq].
    + intros H. apply (ivLive st' I'). rewrite P, Pe. exact H.
Qed.

(* The collector that the compiler runs after every pass: same guarantee, and when the
   pool has been closed the module has no handles, so skipping the collection is right. *)
Theorem C17_after_pass : forall st,
  reachable st -> held st = [] -> listed onnxPlaces (modul st) ->
  exists st', runAfterPass st = Ok st' /\ modul st' = modul st /\
    observe (readAt (store st')) (modul st') = observe (readAt (store st)) (modul st) /\
    (forall id, retained (store st') id <-> In id (opIds (modul st)) \/ In id (pending st)) /\
    (active st = false -> opIds (modul st) = []).
Proof.
  intros st R Hh L. pose proof (reachable_inv st R) as I. unfold runAfterPass.
  destruct (active st) eqn:A.
  - destruct (C17_collect st onnxPlaces R Hh L) as (st' & E & M & Ob & _ & Ret).
    exists st'. repeat (split; [assumption|]). discriminate.
  - exists st. pose proof (ivClosed st I A) as P0.
    assert (M0 : opIds (modul st) = []).
    { destruct (opIds (modul st)) as [|x r] eqn:E; [reflexivity|]. exfalso.
      assert (H : In x (pool st)) by (apply (ivMod st I); rewrite E; left; auto).
      rewrite P0 in H. destruct H. }
    do 3 (split; [reflexivity|]). split; [|auto].
    intros id. rewrite readAt_retained, M0. split.
    + intros [v Hv]. destruct (in_dec Nat.eq_dec id (pending st)) as [Hq|Hq]; auto.
      rewrite (ivDead st I) in Hv; [discriminate | rewrite P0; auto | exact Hq].
    + intros [[]|H]. apply (ivLive st I). auto.
Qed.

(* In terms of the underlying buffers, which several constants may share: after a
   collection with no creation under way, a buffer is in memory if and only if a
   constant that the module refers to uses it. *)
Theorem C17_collect_buffers : forall st places,
  reachable st -> held st = [] -> pending st = [] -> listed places (modul st) ->
  exists st', collect places st = Ok st' /\
    forall b, bufferRetained (store st') b <->
      exists id s bytes, In id (opIds (modul st)) /\ store st id = Some s /\ sBuf s = Some (b, bytes).
Proof.
  intros st places R Hh Hp L.
  destruct (C17_collect st places R Hh L) as (st1 & E1 & _ & _ & _ & Ret).
  pose proof (reachable_inv st R) as I.
  destruct (collect_ok st places I Hh L) as (st' & E & I' & M & Pe & Ac & Co & K & P & Hh').
  assert (st1 = st') by congruence. subst st1.
  exists st'. split; [exact E|]. intros b. split.
  - intros (id & s & bytes & Hs & Hb).
    assert (In id (opIds (modul st))) as Hin.
    { destruct (proj1 (Ret id)) as [H|H]; [exists s, (b, bytes); auto | exact H | rewrite Hp in H; destruct H]. }
    exists id, s, bytes. rewrite <- (K id) by auto. auto.
  - intros (id & s & bytes & Hin & Hs & Hb). exists id, s, bytes. rewrite (K id) by auto. auto.
Qed.

(* Scrubbing: for any iteration order of the table, any number of threads and any
   schedule, no worker reads data that was released.  When the workers are done, each
   constant of the module has been converted exactly once, and the rest of scrub
   succeeds: the module contains no handle any more, a reader sees the same module as
   before, all data is released except what other threads are creating, and the pool
   can be closed. *)
Theorem C17_scrub : forall st places order threads sched,
  reachable st -> held st = [] -> listed places (modul st) ->
  NoDup order -> (forall id, In id order <-> In id (opIds (modul st))) ->
  1 <= threads -> Forall (fun k => k < threads) sched ->
  exists c, runSchedule (startScrub st order threads) sched = Ok c /\
    (allDone c = true ->
       Permutation (conversions c) order /\
       exists st', finishScrub places st c = Ok st' /\
         observe (readAt (store st')) (modul st') = observe (readAt (store st)) (modul st) /\
         opIds (modul st') = [] /\
         (forall id, retained (store st') id <-> In id (pending st)) /\
         exists st'', close st' = Ok st'').
Proof.
  intros st places order threads sched R Hh L ND O Ht F. pose proof (reachable_inv st R) as I.
  destruct (scrub_ok st places order threads sched I Hh L ND O Ht F) as (c & Ec & Fin).
  exists c. split; [exact Ec|]. intros D.
  destruct (Fin D) as (Pm & st' & Es & I' & Ob & Id & P0 & Pe & _).
  split; [exact Pm|]. exists st'. repeat (split; [assumption|]). split.
  - intros id. rewrite readAt_retained. split.
    + intros [v Hv]. destruct (in_dec Nat.eq_dec id (pending st)) as [Hq|Hq]; auto.
      rewrite (ivDead st' I') in Hv; [discriminate | rewrite P0; auto | rewrite Pe; exact Hq].
    + intros H. apply (ivLive st' I'). rewrite Pe. auto.
  - unfold close. rewrite P0. eauto.
Qed.

(* A schedule in which every step is taken by a worker that is not done. *)
Fixpoint busy (c : scrubbing) (sched : list nat) : Prop :=
  match sched with
  | [] => True
  | k :: r =>
      (exists w, nth_error (workers c) k = Some w /\ w <> WDone) /\
      (forall c', workerStep c k = Ok c' -> busy c' r)
  end.

Lemma busy_bound order h0 :
  NoDup order -> (forall id, In id order -> exists v, readAt h0 id = Some v) ->
  forall sched c, SInv order h0 c -> busy c sched -> length sched <= work order c.
Proof.
  intros ND LV. induction sched as [|k r IH]; intros c I B; cbn [length]; [lia|].
  destruct B as [(w & Hk & Hw) B].
  destruct (step_ok order h0 ND LV c k w I Hk) as (c1 & S1 & I1 & _).
  pose proof (step_decreases order h0 c k w c1 I Hk Hw S1).
  pose proof (IH c1 I1 (B c1 S1)). lia.
Qed.

(* Scrubbing ends: however the workers are scheduled, they take at most
   threads + 4 * constants steps before all are done, and from every point of any
   schedule the workers can finish (no worker is ever stuck). *)
Theorem C17_scrub_ends : forall st order threads,
  reachable st -> NoDup order -> (forall id, In id order <-> In id (opIds (modul st))) ->
  (forall sched, busy (startScrub st order threads) sched ->
     length sched <= threads + 4 * length order) /\
  (forall sched, Forall (fun k => k < threads) sched ->
     exists rest c, runSchedule (startScrub st order threads) (sched ++ rest) = Ok c /\ allDone c = true).
Proof.
  intros st order threads R ND O. pose proof (reachable_inv st R) as I.
  destruct (scrub_start st order threads I ND O) as [SI LV]. split.
  - intros sched B. pose proof (busy_bound order (store st) ND LV sched _ SI B) as H.
    assert (W : work order (startScrub st order threads) = threads + 4 * length order).
    { unfold work, startScrub. cbn [workers nextIdx]. rewrite Nat.sub_0_r. f_equal.
      clear. induction threads as [|t IH]; [reflexivity|]. cbn [repeat total fold_right weight].
      fold (total (repeat WFetch t)). lia. }
    lia.
  - intros sched F.
    destruct (runSchedule_inv order (store st) ND LV sched _ SI) as (c & Ec & Ic & Lc).
    { cbn [startScrub workers]. rewrite repeat_length. exact F. }
    destruct (can_finish order (store st) ND LV c Ic) as (rest & c' & Er & D & _).
    exists rest, c'. split; [|exact D].
    assert (App : forall s1 c0 c1, runSchedule c0 s1 = Ok c1 -> runSchedule c0 (s1 ++ rest) = runSchedule c1 rest).
    { clear. induction s1 as [|k r IH]; cbn [runSchedule app]; intros c0 c1 E.
      - injection E as <-. reflexivity.
      - destruct (workerStep c0 k) as [c2|x]; cbn [bind] in *; [apply IH; exact E | discriminate]. }
    rewrite (App _ _ _ Ec). exact Er.
Qed.

(* Creating a constant, with any events of other threads in between.  A thread that
   finishes a creation gets a handle to its data while the pool is open, and after the
   pool is closed it gets the element values themselves and nothing stays in memory. *)
Theorem C17_create : forall st s es st1,
  reachable st -> sBuf s <> None ->
  obeys (beginCreate st s) es -> run (beginCreate st s) es = Ok st1 ->
  In (S (counter st)) (pending st1) ->
  exists st2 r, finishCreate st1 (S (counter st)) = Ok (st2, r) /\
    match r with
    | Handle id => active st1 = true /\ id = S (counter st) /\ readAt (store st2) id = toDense s
    | Dense v => active st1 = false /\ Some v = toDense s /\ ~ retained (store st2) (S (counter st))
    end.
Proof.
  intros st s es st1 R Hs Ob E Hp. pose proof (reachable_inv st R) as I.
  pose proof (inv_beginCreate st s I Hs) as I0.
  destruct (inv_run es _ I0 Ob) as (st1' & E' & I1 & _ & V). rewrite E in E'. injection E' as <-.
  destruct (inv_finishCreate st1 _ I1 Hp) as (st2 & r & Ef & I2 & Hr).
  assert (V1 : readAt (store st1) (S (counter st)) = toDense s).
  { destruct (V (S (counter st))) as [H|H]; [cbn [beginCreate counter]; lia | |].
    - destruct (ivLive st1 I1 _ (or_intror Hp)) as [v Hv]. congruence.
    - rewrite H. cbn [beginCreate store]. unfold readAt. rewrite upd_same. reflexivity. }
  exists st2, r. split; [exact Ef|]. destruct r as [id|v].
  - destruct Hr as (-> & A & St). rewrite St. auto.
  - destruct Hr as (A & Rv & St). split; [exact A|]. split; [congruence|].
    rewrite readAt_retained, St, readAt_dispose_same. intros [x Hx]. discriminate.
Qed.

(* Closing is final: after a successful close, whatever happens next, every creation
   yields the element values and never a handle. *)
Lemma run_closed es : forall st st', active st = false -> run st es = Ok st' -> active st' = false.
Proof.
  induction es as [|e r IH]; cbn [run]; intros st st' A E.
  - injection E as <-. exact A.
  - destruct (run1 st e) as [s1|] eqn:E1; cbn [bind] in E; [|discriminate].
    apply (IH s1 st'); [|exact E]. clear E IH.
    destruct e; cbn [run1] in E1; try (injection E1 as <-; exact A).
    + unfold finishCreate in E1. destruct (negb (memb id (pending st))); [discriminate|].
      rewrite A in E1. destruct (readAt (store st) id); [|discriminate].
      cbn [bind fst] in E1. injection E1 as <-. reflexivity.
    + unfold collect in E1. destruct (forallb _ _); [|discriminate].
      destruct (eraseUnreachable _ _ _). injection E1 as <-. exact A.
    + destruct (runSchedule _ _) as [c|]; cbn [bind] in E1; [|discriminate].
      unfold finishScrub in E1. destruct (replaceOps _ _ _) as [m|]; cbn [bind] in E1; [|discriminate].
      destruct (forallb _ _); [|discriminate].
      destruct (eraseUnreachable _ _ _). injection E1 as <-. exact A.
    + unfold close in E1. destruct (pool st); [|discriminate]. injection E1 as <-. reflexivity.
Qed.

Theorem C17_closing_is_final : forall st st1 es st2 id st3 r,
  close st = Ok st1 -> run st1 es = Ok st2 -> finishCreate st2 id = Ok (st3, r) ->
  exists v, r = Dense v.
Proof.
  intros st st1 es st2 id st3 r Hc E F.
  assert (A1 : active st1 = false).
  { unfold close in Hc. destruct (pool st); [|discriminate]. injection Hc as <-. reflexivity. }
  pose proof (run_closed es st1 st2 A1 E) as A2. unfold finishCreate in F.
  destruct (negb (memb id (pending st2))); [discriminate|]. rewrite A2 in F.
  destruct (readAt (store st2) id); [|discriminate]. injection F as <- <-. eauto.
Qed.

(* Two creations never yield the same handle. *)
Theorem C17_create_distinct : forall st s es st1,
  reachable st -> sBuf s <> None ->
  obeys (beginCreate st s) es -> run (beginCreate st s) es = Ok st1 ->
  S (counter st) < S (counter st1).
Proof.
  intros st s es st1 R Hs Ob E. pose proof (reachable_inv st R) as I.
  pose proof (inv_beginCreate st s I Hs) as I0.
  destruct (inv_run es _ I0 Ob) as (st1' & E' & I1 & C & _). rewrite E in E'. injection E' as <-.
  cbn [beginCreate counter] in C. lia.
Qed.

(* ---- a concrete compilation ---- *)
Definition demoStorage (b : nat) (l : list Z) : storage :=
  {| sBuf := Some (b, l); sView := map (Z.mul 2); sCount := length l |}.

Definition constOp (a : attr) : op := Op "onnx.Constant" [("value"%string, a)] [].
Definition demoModule (l : list attr) : op :=
  Op "builtin.module" [("name"%string, AOther 7)]
     [Op "func.func" [] (map constOp l ++ [Op "onnx.If" [] [Op "onnx.ConstantOfShape" [("value"%string, ADisp 2)] []]])].

(* Three constants are created, 1 and 3 sharing a buffer; the module uses 1 twice and 2
   once; 3 is not used. *)
Definition demoBefore : list event :=
  [EBeginCreate (demoStorage 10 [1; 2]%Z); EBeginCreate (demoStorage 11 [5]%Z);
   EFinishCreate 2; EFinishCreate 1; EBeginCreate (demoStorage 10 [1; 2]%Z); EFinishCreate 3;
   EEdit (demoModule [ADisp 1; ADense [9%Z]; ADisp 1]); EPassEnd].

Definition emptyModule : op := Op "builtin.module" [] [].

Lemma demo_obeys : obeys (initial emptyModule) demoBefore.
Proof.
  unfold demoBefore. cbn [obeys].
  repeat (split; [first [ discriminate | exact I | cbn; tauto
                        | split; [cbn; repeat (constructor; cbn; try tauto; try (intros [H|[]]; discriminate)) | intros x Hx; cbn in *; tauto] ]|];
          intros st' E; cbv in E; injection E as <-).
  exact I.
Qed.

Definition demoState : state :=
  match run (initial emptyModule) demoBefore with Ok s => s | Crash _ => initial emptyModule end.

Lemma demo_reachable : reachable demoState.
Proof.
  exists emptyModule, demoBefore. split; [reflexivity|]. split; [cbn; split; [constructor | exact I]|].
  split; [exact demo_obeys | reflexivity].
Qed.

Lemma demo_listed : listed onnxPlaces (modul demoState).
Proof.
  change (modul demoState) with (demoModule [ADisp 1; ADense [9%Z]; ADisp 1]).
  cbn. repeat split; intros k a H; repeat (destruct H as [H|H]; [injection H as <- <-; cbn; eauto|]); destruct H.
Qed.

Example C17_example_collect :
  reachable demoState /\ held demoState = [] /\ listed onnxPlaces (modul demoState) /\
  pool demoState = [3; 1; 2] /\
  match collect onnxPlaces demoState with
  | Ok st => pool st = [1; 2] /\ readAt (store st) 1 = Some [2; 4]%Z /\ readAt (store st) 3 = None
  | Crash _ => False
  end.
Proof.
  split; [exact demo_reachable|]. split; [reflexivity|]. split; [exact demo_listed|].
  split; [reflexivity|]. cbv. repeat split.
Qed.

(* Two workers, interleaved step by step.  (Both constants fit in one batch, so the
   second worker finds nothing to do.) *)
Example C17_example_scrub :
  (forall id, In id [2; 1] <-> In id (opIds (modul demoState))) /\
  match runSchedule (startScrub demoState [2; 1] 2) [0; 1; 0; 0; 1; 0; 0; 0; 0; 0] with
  | Ok c => allDone c = true /\ conversions c = [1; 2] /\
      match finishScrub onnxPlaces demoState c with
      | Ok st => modul st =
          Op "builtin.module" [("name"%string, AOther 7)]
            [Op "func.func" [] [constOp (ADense [2; 4]%Z); constOp (ADense [9%Z]); constOp (ADense [2; 4]%Z);
               Op "onnx.If" [] [Op "onnx.ConstantOfShape" [("value"%string, ADense [10]%Z)] []]]]
          /\ pool st = []
      | Crash _ => False
      end
  | Crash _ => False
  end.
Proof.
  split.
  - intros id. change (opIds (modul demoState)) with [1; 1; 2]. cbn. tauto.
  - cbv. repeat split.
Qed.

Example C17_example_close :
  match run demoState [EScrub onnxPlaces [2; 1] 2 [0; 1; 0; 0; 1; 0; 0; 0; 0; 0]; EClose;
                       EBeginCreate (demoStorage 4 [3]%Z)] with
  | Ok st => match finishCreate st 4 with Ok (st', r) => r = Dense [6%Z] | Crash _ => False end
  | Crash _ => False
  end.
Proof. cbv. reflexivity. Qed.

(* ---- the callers' obligations are needed ---- *)

(* A handle stored anywhere else than in the places given to the collector (here in an
   attribute of another operation) loses its data. *)
Definition strayModule : op :=
  Op "builtin.module" [] [Op "onnx.LeakyRelu" [("alpha"%string, ADisp 1)] []].

Theorem C17_unlisted_reference_refuted :
  exists st st', reachable st /\ held st = [] /\ collect onnxPlaces st = Ok st' /\
    In 1 (opIds (modul st')) /\ readAt (store st) 1 = Some [2%Z] /\ readAt (store st') 1 = None.
Proof.
  set (es := [EBeginCreate (demoStorage 10 [1%Z]); EFinishCreate 1; EEdit strayModule; EPassEnd]).
  assert (Ob : obeys (initial emptyModule) es).
  { unfold es. cbn [obeys].
    split; [discriminate|]. intros s1 E; cbv in E; injection E as <-.
    split; [cbn; tauto|]. intros s2 E; cbv in E; injection E as <-.
    split.
    { split; [cbn; repeat (constructor; cbn; try tauto) | intros x Hx; cbn in *; tauto]. }
    intros s3 E; cbv in E; injection E as <-.
    split; [exact I|]. intros s4 E; cbv in E; injection E as <-. exact I. }
  destruct (run (initial emptyModule) es) as [st|] eqn:E; [|cbv in E; discriminate].
  exists st. destruct (collect onnxPlaces st) as [st'|] eqn:E2;
    [|cbv in E; injection E as <-; cbv in E2; discriminate].
  exists st'. split.
  { exists emptyModule, es. split; [reflexivity|]. split; [cbn; split; [constructor | exact I]|]. auto. }
  cbv in E. injection E as <-. cbv in E2. injection E2 as <-. cbn. auto 10.
Qed.

(* A pass that keeps a handle across a collection and puts it into the module
   afterwards finds its data gone. *)
Theorem C17_handle_across_collection_refuted :
  exists st st' m, reachable st /\ held st = [1] /\ listed onnxPlaces (modul st) /\
    collect onnxPlaces st = Ok st' /\ opIds m = [1] /\ listed onnxPlaces m /\
    observe (readAt (store (edit st' m))) m <> observe (readAt (store st)) m.
Proof.
  set (es := [EBeginCreate (demoStorage 10 [1%Z]); EFinishCreate 1]).
  assert (Ob : obeys (initial emptyModule) es).
  { unfold es. cbn [obeys].
    split; [discriminate|]. intros s1 E; cbv in E; injection E as <-.
    split; [cbn; tauto|]. intros s2 E; cbv in E; injection E as <-. exact I. }
  destruct (run (initial emptyModule) es) as [st|] eqn:E; [|cbv in E; discriminate].
  exists st. destruct (collect onnxPlaces st) as [st'|] eqn:E2;
    [|cbv in E; injection E as <-; cbv in E2; discriminate].
  exists st', (constOp (ADisp 1)). split.
  { exists emptyModule, es. split; [reflexivity|]. split; [cbn; split; [constructor | exact I]|]. auto. }
  cbv in E. injection E as <-. cbv in E2. injection E2 as <-.
  split; [reflexivity|]. split; [cbn; split; [intros k a []|exact I]|].
  split; [reflexivity|]. split; [reflexivity|]. split.
  - cbn. split; [|exact I]. intros k a [H|[]]. injection H as <- <-. right. split; [reflexivity | eauto].
  - cbn. discriminate.
Qed.

Print Assumptions C17_history_safe.
Print Assumptions C17_values_never_change.
Print Assumptions C17_collect.
Print Assumptions C17_after_pass.
Print Assumptions C17_collect_buffers.
Print Assumptions C17_scrub.
Print Assumptions C17_scrub_ends.
Print Assumptions C17_create.
Print Assumptions C17_closing_is_final.
Print Assumptions C17_create_distinct.
Print Assumptions C17_unlisted_reference_refuted.
Print Assumptions C17_handle_across_collection_refuted.
