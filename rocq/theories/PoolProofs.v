(* Proofs about the pool of disposable constants: the module walk, collection, and
   the invariant of the scrubbing workers. *)
From Coq Require Import String List Arith Bool Lia Permutation.
Import ListNotations.
From Coq Require Import ZArith.
From Verif Require Import PoolSpec PoolModel.
Local Open Scope nat_scope.

(* ---- induction over attributes and operations ---- *)
Section AttrInd.
  Context (P : attr -> Prop).
  Context (H1 : forall id, P (ADisp id)) (H2 : forall v, P (ADense v))
          (H3 : forall l, Forall P l -> P (AArray l)) (H4 : forall n, P (AOther n)).
  Fixpoint attr_ind' (a : attr) : P a :=
    match a with
    | ADisp id => H1 id
    | ADense v => H2 v
    | AArray l => H3 l ((fix go l : Forall P l :=
        match l with [] => Forall_nil _ | x :: r => Forall_cons _ (attr_ind' x) (go r) end) l)
    | AOther n => H4 n
    end.
End AttrInd.

Section OpInd.
  Context (P : op -> Prop).
  Context (H : forall n attrs body, Forall P body -> P (Op n attrs body)).
  Fixpoint op_ind' (o : op) : P o :=
    match o with
    | Op n attrs body => H n attrs body ((fix go l : Forall P l :=
        match l with [] => Forall_nil _ | x :: r => Forall_cons _ (op_ind' x) (go r) end) body)
    end.
End OpInd.

Lemma listed_body places n attrs body :
  listed places (Op n attrs body) -> Forall (listed places) body.
Proof.
  cbn [listed]. intros [_ H]. induction body as [|x r IH]; constructor; destruct H; auto.
Qed.

Lemma uniqueNames_body n attrs body :
  uniqueNames (Op n attrs body) -> Forall uniqueNames body.
Proof.
  cbn [uniqueNames]. intros [_ H]. induction body as [|x r IH]; constructor; destruct H; auto.
Qed.

Lemma listed_attrs places n attrs body :
  listed places (Op n attrs body) ->
  forall k a, In (k, a) attrs ->
    attrIds a = [] \/ (place places n = Some k /\ exists id, a = ADisp id).
Proof. cbn [listed]. tauto. Qed.

Lemma uniqueNames_attrs n attrs body :
  uniqueNames (Op n attrs body) -> NoDup (map fst attrs).
Proof. cbn [uniqueNames]. tauto. Qed.

(* ---- observation depends only on the handles that occur ---- *)
Lemma observeAttr_ext r1 r2 a :
  (forall id, In id (attrIds a) -> r1 id = r2 id) -> observeAttr r1 a = observeAttr r2 a.
Proof.
  induction a as [id|v|l IH|n] using attr_ind'; intros H; cbn [observeAttr]; auto.
  - rewrite H; [reflexivity | cbn; auto].
  - f_equal. apply map_ext_in. intros a Ha. rewrite Forall_forall in IH. apply (IH a Ha).
    intros id Hid. apply H. cbn [attrIds]. apply in_flat_map. eauto.
Qed.

Lemma observe_ext r1 r2 o :
  (forall id, In id (opIds o) -> r1 id = r2 id) -> observe r1 o = observe r2 o.
Proof.
  induction o as [n attrs body IH] using op_ind'. intros H. cbn [observe]. f_equal.
  - apply map_ext_in. intros [k a] Ha. cbn [fst snd]. f_equal. apply observeAttr_ext.
    intros id Hid. apply H. cbn [opIds]. apply in_or_app. left. apply in_flat_map.
    exists (k, a). auto.
  - apply map_ext_in. intros o Ho. rewrite Forall_forall in IH. apply (IH o Ho).
    intros id Hid. apply H. cbn [opIds]. apply in_or_app. right. apply in_flat_map. eauto.
Qed.

(* ---- the walk meets exactly the handles of the module ---- *)
Lemma find_unique (k : string) (attrs : list (string * attr)) a :
  NoDup (map fst attrs) -> In (k, a) attrs ->
  find (fun p => String.eqb (fst p) k) attrs = Some (k, a).
Proof.
  induction attrs as [|[k' a'] r IH]; cbn [map fst find]; intros N I; [destruct I|].
  inversion N as [|? ? Hn N']; subst. destruct I as [E|I].
  - inversion E; subst. rewrite String.eqb_refl. reflexivity.
  - destruct (String.eqb_spec k' k) as [->|Hne].
    + exfalso. apply Hn. change k with (fst (k, a)). apply in_map. exact I.
    + apply IH; auto.
Qed.

Lemma hit_in places n attrs k id :
  hit places n attrs = Some (k, id) -> In (k, ADisp id) attrs /\ place places n = Some k.
Proof.
  unfold hit. destruct (place places n) as [k'|] eqn:Ep; [|discriminate].
  destruct (find (fun p => String.eqb (fst p) k') attrs) as [[k'' a]|] eqn:Ef; [|discriminate].
  destruct a; try discriminate. intros E. injection E as -> ->.
  apply find_some in Ef. destruct Ef as [Hin He]. cbn [fst] in He.
  apply String.eqb_eq in He. subst. auto.
Qed.

Lemma hit_complete places n attrs k id :
  NoDup (map fst attrs) -> In (k, ADisp id) attrs -> place places n = Some k ->
  hit places n attrs = Some (k, id).
Proof.
  intros N I P. unfold hit. rewrite P. rewrite (find_unique k attrs _ N I). reflexivity.
Qed.

Lemma walkIds_in places o id :
  In id (walkIds places o) -> In id (opIds o).
Proof.
  induction o as [n attrs body IH] using op_ind'. cbn [walkIds opIds].
  rewrite !in_app_iff. intros [H|H].
  - right. apply in_flat_map in H. destruct H as (o & Ho & H). apply in_flat_map.
    rewrite Forall_forall in IH. exists o. split; auto.
  - left. destruct (hit places n attrs) as [[k i]|] eqn:E; [|destruct H].
    destruct H as [<-|[]]. apply hit_in in E. destruct E as [E _].
    apply in_flat_map. exists (k, ADisp i). split; [exact E | cbn; auto].
Qed.

Lemma walkIds_complete places o id :
  listed places o -> uniqueNames o -> In id (opIds o) -> In id (walkIds places o).
Proof.
  induction o as [n attrs body IH] using op_ind'. intros L U.
  cbn [opIds walkIds]. rewrite !in_app_iff. intros [H|H].
  - right. apply in_flat_map in H. destruct H as ([k a] & Ha & Hid). cbn [snd] in Hid.
    destruct (listed_attrs _ _ _ _ L k a Ha) as [E|(P & i & ->)].
    + rewrite E in Hid. destruct Hid.
    + destruct Hid as [<-|[]].
      rewrite (hit_complete places n attrs k i (uniqueNames_attrs _ _ _ U) Ha P). cbn; auto.
  - left. apply in_flat_map in H. destruct H as (o & Ho & Hid). apply in_flat_map.
    exists o. split; auto. rewrite Forall_forall in IH. apply IH; auto.
    + apply listed_body in L. rewrite Forall_forall in L. auto.
    + apply uniqueNames_body in U. rewrite Forall_forall in U. auto.
Qed.

(* ---- heaps ---- *)
Lemma upd_same h id s : upd h id s id = Some s.
Proof. unfold upd. rewrite Nat.eqb_refl. reflexivity. Qed.
Lemma upd_other h id s j : j <> id -> upd h id s j = h j.
Proof. unfold upd. intros H. destruct (Nat.eqb_spec j id); congruence. Qed.

Lemma disposeAt_other h id j : j <> id -> disposeAt h id j = h j.
Proof. unfold disposeAt. intros H. destruct (h id); [apply upd_other; auto | auto]. Qed.

Lemma readAt_dispose_same h id : readAt (disposeAt h id) id = None.
Proof.
  unfold readAt, disposeAt. destruct (h id) as [s|] eqn:E.
  - rewrite upd_same. reflexivity.
  - rewrite E. reflexivity.
Qed.

Lemma readAt_dispose_other h id j : j <> id -> readAt (disposeAt h id) j = readAt h j.
Proof. unfold readAt. intros H. rewrite disposeAt_other; auto. Qed.

Lemma disposeAt_none h id j : h j = None -> disposeAt h id j = None.
Proof.
  intros H. destruct (Nat.eq_dec j id) as [->|Hne].
  - unfold disposeAt. rewrite H. exact H.
  - rewrite disposeAt_other; auto.
Qed.

Lemma memb_spec x l : memb x l = true <-> In x l.
Proof.
  unfold memb. rewrite existsb_exists. split.
  - intros (y & Hy & E). apply Nat.eqb_eq in E. subst. auto.
  - intros H. exists x. rewrite Nat.eqb_refl. auto.
Qed.

Lemma memb_false x l : memb x l = false <-> ~ In x l.
Proof. rewrite <- memb_spec. destruct (memb x l); split; congruence. Qed.

Lemma eraseUnreachable_spec reach h p h' p' :
  eraseUnreachable reach h p = (h', p') ->
  (forall id, In id p' <-> In id p /\ In id reach) /\
  (NoDup p -> NoDup p') /\
  (forall id, In id reach \/ ~ In id p -> h' id = h id) /\
  (forall id, In id p -> ~ In id reach -> readAt h' id = None) /\
  (forall id, h id = None -> h' id = None).
Proof.
  revert h h' p'. induction p as [|x r IH]; intros h h' p'; cbn [eraseUnreachable].
  - intros E. injection E as <- <-. cbn [In]. repeat split; tauto.
  - destruct (memb x reach) eqn:M.
    + destruct (eraseUnreachable reach h r) as [h1 p1] eqn:E1. intros E. injection E as <- <-.
      destruct (IH _ _ _ E1) as (A & B & C & D & F). apply memb_spec in M.
      split; [|split; [|split; [|split]]].
      * intros id. cbn [In]. rewrite A. split; [intros [->|]; tauto | tauto].
      * intros N. inversion N; subst. constructor; [rewrite A; tauto | auto].
      * intros id H. apply C. cbn [In] in H. tauto.
      * intros id H1 H2. apply D; [|exact H2]. cbn [In] in H1. destruct H1 as [->|]; tauto.
      * exact F.
    + intros E. destruct (IH _ _ _ E) as (A & B & C & D & F). apply memb_false in M.
      split; [|split; [|split; [|split]]].
      * intros id. rewrite A. cbn [In]. split; [tauto|]. intros [[->|H] H']; tauto.
      * intros N. inversion N; auto.
      * intros id H. cbn [In] in H. rewrite C by tauto. apply disposeAt_other.
        intros ->. destruct H; tauto.
      * intros id H1 H2. cbn [In] in H1.
        destruct (in_dec Nat.eq_dec id r) as [Hr|Hr]; [apply D; auto|].
        destruct H1 as [<-|]; [|tauto].
        assert (Hx : h' x = disposeAt h x x) by (apply C; auto).
        unfold readAt. rewrite Hx. apply readAt_dispose_same.
      * intros id H. apply F. apply disposeAt_none. exact H.
Qed.

(* ---- lists ---- *)
Lemma setNth_length {A} (l : list A) i x : length (setNth l i x) = length l.
Proof. revert i. induction l as [|y r IH]; intros [|i]; cbn; auto. Qed.

Lemma setNth_same {A} (l : list A) i x y :
  nth_error l i = Some y -> nth_error (setNth l i x) i = Some x.
Proof. revert i. induction l as [|z r IH]; intros [|i]; cbn; try discriminate; auto. Qed.

Lemma setNth_other {A} (l : list A) i j x :
  i <> j -> nth_error (setNth l i x) j = nth_error l j.
Proof.
  revert i j. induction l as [|z r IH]; intros [|i] [|j] H; cbn; auto; try lia.
Qed.

Lemma setNth_fst {A B} (l : list (A * B)) i a b b' :
  nth_error l i = Some (a, b) -> map fst (setNth l i (a, b')) = map fst l.
Proof.
  revert i. induction l as [|z r IH]; intros [|i]; cbn; try discriminate.
  - intros E. injection E as ->. reflexivity.
  - intros E. f_equal. apply IH. exact E.
Qed.

(* ---- fetchBatch ---- *)
Lemma growBatch_range fuel sz n e count agg :
  e <= n -> e <= growBatch fuel sz n e count agg <= n.
Proof.
  revert e count agg. induction fuel as [|f IH]; intros e count agg H; cbn [growBatch]; [lia|].
  destruct ((count <? 10) && (agg <? 1000) && negb (Nat.eqb e n)) eqn:E; [|lia].
  apply andb_prop in E. destruct E as [_ E]. apply negb_true_iff, Nat.eqb_neq in E.
  specialize (IH (S e) (S count) (agg + sz) ltac:(lia)). lia.
Qed.

Lemma batchEnd_range c :
  nextIdx c <= length (entries c) -> nextIdx c <= batchEnd c <= length (entries c).
Proof. intros H. unfold batchEnd. apply growBatch_range. exact H. Qed.

Lemma growBatch_first f sz n e : e < n -> e < growBatch (S f) sz n e 0 0.
Proof.
  intros H. cbn [growBatch]. change (0 <? 10) with true. change (0 <? 1000) with true.
  destruct (Nat.eqb_spec e n); [lia|]. cbn [andb negb].
  pose proof (growBatch_range f sz n (S e) 1 (0 + sz)). lia.
Qed.

Lemma batchEnd_progress c :
  nextIdx c < length (entries c) -> nextIdx c < batchEnd c.
Proof. intros H. unfold batchEnd. apply growBatch_first. exact H. Qed.

(* ---- the workers' invariant ---- *)
Inductive phase := Untouched | Reading | Converted | Finished.

Section Scrub.
  Context (order : list nat) (h0 : heap).
  Context (NDorder : NoDup order)
          (live0 : forall id, In id order -> exists v, readAt h0 id = Some v).

  Definition isPhase (c : scrubbing) (j : nat) (p : phase) : Prop :=
    exists id, nth_error order j = Some id /\
      nth_error (entries c) j =
        Some (id, match p with Untouched | Reading => None | _ => readAt h0 id end) /\
      readAt (sheap c) id = match p with Finished => None | _ => readAt h0 id end /\
      (In id (conversions c) <-> p <> Untouched).

  Definition covers (w : worker) (j : nat) : Prop :=
    match w with
    | WConvert i hi | WReading i hi | WDispose i hi => i <= j < hi
    | _ => False
    end.

  Definition workerOK (c : scrubbing) (w : worker) : Prop :=
    match w with
    | WFetch => True
    | WDone => nextIdx c = length order
    | WConvert i hi => i < hi <= nextIdx c /\ isPhase c i Untouched /\
                       forall j, i < j < hi -> isPhase c j Untouched
    | WReading i hi => i < hi <= nextIdx c /\ isPhase c i Reading /\
                       forall j, i < j < hi -> isPhase c j Untouched
    | WDispose i hi => i < hi <= nextIdx c /\ isPhase c i Converted /\
                       forall j, i < j < hi -> isPhase c j Untouched
    end.

  Record SInv (c : scrubbing) : Prop := {
    siIds : map fst (entries c) = order;
    siNext : nextIdx c <= length order;
    siRest : forall j, nextIdx c <= j < length order -> isPhase c j Untouched;
    siWorkers : forall k w, nth_error (workers c) k = Some w -> workerOK c w;
    siDisjoint : forall k k' w w' j, nth_error (workers c) k = Some w ->
        nth_error (workers c) k' = Some w' -> covers w j -> covers w' j -> k = k';
    siTaken : forall j, j < nextIdx c ->
        (exists k w, nth_error (workers c) k = Some w /\ covers w j) \/ isPhase c j Finished;
    siFrame : forall id, ~ In id order -> sheap c id = h0 id;
    siNone : forall id, h0 id = None -> sheap c id = None;
    siConvND : NoDup (conversions c);
    siConv : incl (conversions c) order
  }.

  Lemma entries_length c : SInv c -> length (entries c) = length order.
  Proof. intros H. rewrite <- (siIds c H). symmetry. apply map_length. Qed.

  Lemma order_inj i j id : nth_error order i = Some id -> nth_error order j = Some id -> i = j.
  Proof.
    intros Hi Hj. apply (proj1 (NoDup_nth_error order) NDorder i j).
    - apply nth_error_Some. congruence.
    - congruence.
  Qed.

  Lemma isPhase_keep c c' j p :
    isPhase c j p ->
    nth_error (entries c') j = nth_error (entries c) j ->
    (forall id, nth_error order j = Some id ->
       readAt (sheap c') id = readAt (sheap c) id /\
       (In id (conversions c') <-> In id (conversions c))) ->
    isPhase c' j p.
  Proof.
    intros (id & A & B & C & D) E F. destruct (F id A) as [F1 F2].
    exists id. rewrite E, F1, F2. auto.
  Qed.

  Lemma isPhase_det c j p q : isPhase c j p -> isPhase c j q -> p = q.
  Proof.
    intros (id & A & B & C & D) (id' & A' & B' & C' & D').
    assert (id' = id) by congruence. subst id'.
    destruct (live0 id) as [v Hv]; [eapply nth_error_In; eauto|].
    rewrite B in B'. rewrite C in C'. rewrite Hv in *.
    destruct p, q; try reflexivity; try discriminate; exfalso; intuition congruence.
  Qed.

  Lemma start_inv st threads :
    store st = h0 -> SInv (startScrub st order threads).
  Proof.
    intros Hs. unfold startScrub.
    assert (U : forall j, j < length order -> isPhase (startScrub st order threads) j Untouched).
    { intros j Hj. destruct (nth_error order j) as [id|] eqn:E.
      - exists id. split; [exact E|]. unfold startScrub. cbn [entries sheap conversions].
        split; [rewrite nth_error_map, E; reflexivity|]. split; [rewrite Hs; reflexivity|].
        cbn [In]. split; [tauto | congruence].
      - apply nth_error_None in E. lia. }
    split; cbn [entries nextIdx workers sheap conversions].
    - rewrite map_map. cbn [fst]. apply map_id.
    - lia.
    - intros j Hj. apply U. lia.
    - intros k w H. apply nth_error_In, repeat_spec in H. subst w. exact I.
    - intros k k' w w' j H _ Hc _. apply nth_error_In, repeat_spec in H. subst w. destruct Hc.
    - intros j Hj. lia.
    - intros id _. rewrite Hs. reflexivity.
    - intros id H. rewrite Hs. exact H.
    - constructor.
    - intros x [].
  Qed.

  (* Phases in a state where only entry [i]'s data changed. *)
  Lemma others_keep c c' i id :
    nth_error order i = Some id ->
    (forall j, j <> i -> nth_error (entries c') j = nth_error (entries c) j) ->
    (forall d, d <> id -> readAt (sheap c') d = readAt (sheap c) d) ->
    (forall d, d <> id -> In d (conversions c') <-> In d (conversions c)) ->
    forall j p, j <> i -> isPhase c j p -> isPhase c' j p.
  Proof.
    intros Hi He Hr Hc j p Hj H. apply (isPhase_keep c); auto.
    intros d Hd. assert (d <> id) by (intros ->; apply Hj; eapply order_inj; eauto). auto.
  Qed.

  (* A worker other than [k] keeps its invariant when [k] advances on its own entry. *)
  Lemma workerOK_other c c' k wk i :
    SInv c -> nth_error (workers c) k = Some wk -> covers wk i ->
    nextIdx c' = nextIdx c ->
    (forall j p, j <> i -> isPhase c j p -> isPhase c' j p) ->
    forall k' w, k' <> k -> nth_error (workers c) k' = Some w -> workerOK c' w.
  Proof.
    intros I Hk Hcov Hn Hkeep k' w Hne Hw.
    pose proof (siWorkers c I k' w Hw) as OK.
    assert (Hni : ~ covers w i).
    { intros Hc. apply Hne. eapply (siDisjoint c I); eauto. }
    destruct w as [|a b|a b|a b|]; cbn [workerOK covers] in *; auto;
      try (rewrite Hn; auto; fail);
      destruct OK as (R & P1 & P2); rewrite Hn; (split; [exact R|]);
      (split; [apply Hkeep; [lia|exact P1]|]);
      intros j Hj; apply Hkeep; try lia; auto.
  Qed.

  Lemma step_ok c k w :
    SInv c -> nth_error (workers c) k = Some w ->
    exists c', workerStep c k = Ok c' /\ SInv c' /\ length (workers c') = length (workers c).
  Proof.
    intros I Hk. pose proof (siWorkers c I k w Hk) as OK.
    pose proof (entries_length c I) as Len.
    unfold workerStep. rewrite Hk. destruct w as [|i hi|i hi|i hi|].
    - (* fetch *)
      pose proof (siNext c I) as Hn.
      pose proof (batchEnd_range c ltac:(lia)) as R.
      destruct (Nat.eqb_spec (nextIdx c) (batchEnd c)) as [E|E].
      + eexists. split; [reflexivity|].
        assert (Hdone : nextIdx c = length order).
        { destruct (Nat.lt_ge_cases (nextIdx c) (length (entries c))) as [L|L].
          - pose proof (batchEnd_progress c L). lia.
          - lia. }
        split; [|cbn [workers]; apply setNth_length].
        split; cbn [entries nextIdx workers sheap conversions].
        * apply (siIds c I).
        * lia.
        * intros j Hj. lia.
        * intros k' w' H'. destruct (Nat.eq_dec k k') as [<-|Hne].
          { rewrite (setNth_same _ _ _ _ Hk) in H'. injection H' as <-. cbn [workerOK nextIdx]. lia. }
          { rewrite setNth_other in H' by auto. pose proof (siWorkers c I k' w' H') as O.
            destruct w'; cbn [workerOK] in *; cbn [nextIdx] in *; try exact O; try lia;
              rewrite <- E; exact O. }
        * intros a b wa wb j Ha Hb Ca Cb.
          destruct (Nat.eq_dec k a) as [<-|Na].
          { rewrite (setNth_same _ _ _ _ Hk) in Ha. injection Ha as <-. destruct Ca. }
          destruct (Nat.eq_dec k b) as [<-|Nb].
          { rewrite (setNth_same _ _ _ _ Hk) in Hb. injection Hb as <-. destruct Cb. }
          rewrite setNth_other in Ha, Hb by auto. eapply (siDisjoint c I); eauto.
        * intros j Hj. rewrite <- E in Hj.
          destruct (siTaken c I j Hj) as [(k' & w' & H' & C')|F]; [|right; exact F].
          left. exists k', w'. split; [|exact C'].
          rewrite setNth_other; [exact H'|]. intros ->. rewrite Hk in H'. injection H' as <-. destruct C'.
        * apply (siFrame c I).
        * apply (siNone c I).
        * apply (siConvND c I).
        * apply (siConv c I).
      + eexists. split; [reflexivity|].
        split; [|cbn [workers]; apply setNth_length].
        split; cbn [entries nextIdx workers sheap conversions].
        * apply (siIds c I).
        * lia.
        * intros j Hj. apply (siRest c I). lia.
        * intros k' w' H'. destruct (Nat.eq_dec k k') as [<-|Hne].
          { rewrite (setNth_same _ _ _ _ Hk) in H'. injection H' as <-. cbn [workerOK nextIdx].
            split; [lia|]. split; [apply (siRest c I); lia|].
            intros j Hj. apply (siRest c I). lia. }
          { rewrite setNth_other in H' by auto. pose proof (siWorkers c I k' w' H') as O.
            destruct w'; cbn [workerOK nextIdx] in *; auto; try lia;
              destruct O as (O1 & O2 & O3); (split; [lia|]); split; auto. }
        * assert (New : forall a wa j, a <> k -> nth_error (workers c) a = Some wa -> covers wa j ->
                          nextIdx c <= j -> False).
          { intros a wa j _ Ha Ca Hj. pose proof (siWorkers c I a wa Ha) as O.
            destruct wa; cbn [covers workerOK] in *; lia. }
          intros a b wa wb j Ha Hb Ca Cb.
          destruct (Nat.eq_dec k a) as [<-|Na]; destruct (Nat.eq_dec k b) as [<-|Nb]; auto.
          { rewrite (setNth_same _ _ _ _ Hk) in Ha. injection Ha as <-. cbn [covers] in Ca.
            rewrite setNth_other in Hb by auto. exfalso. apply (New b wb j); auto. lia. }
          { rewrite (setNth_same _ _ _ _ Hk) in Hb. injection Hb as <-. cbn [covers] in Cb.
            rewrite setNth_other in Ha by auto. exfalso. apply (New a wa j); auto. lia. }
          rewrite setNth_other in Ha, Hb by auto. eapply (siDisjoint c I); eauto.
        * intros j Hj. destruct (Nat.lt_ge_cases j (nextIdx c)) as [L|L].
          { destruct (siTaken c I j L) as [(k' & w' & H' & C')|F]; [|right; exact F].
            left. exists k', w'. split; [|exact C'].
            rewrite setNth_other; [exact H'|]. intros ->. rewrite Hk in H'. injection H' as <-. destruct C'. }
          { left. exists k, (WConvert (nextIdx c) (batchEnd c)).
            split; [apply (setNth_same _ _ _ _ Hk)|]. cbn [covers]. lia. }
        * apply (siFrame c I).
        * apply (siNone c I).
        * apply (siConvND c I).
        * apply (siConv c I).
    - (* convert: start reading *)
      cbn [workerOK] in OK. destruct OK as (R & P & Rest).
      destruct P as (id & Pi & Pe & Pr & Pc). rewrite Pe.
      destruct (live0 id) as [v Hv]; [eapply nth_error_In; eauto|]. rewrite Pr, Hv.
      eexists. split; [reflexivity|]. split; [|cbn [workers]; apply setNth_length].
      match goal with |- SInv ?x => set (c' := x) end.
      assert (K : forall j p, j <> i -> isPhase c j p -> isPhase c' j p).
      { apply (others_keep c c' i id Pi); subst c'; cbn [entries sheap conversions]; auto.
        intros d Hd. cbn [In]. split; [intros [->|]; tauto | auto]. }
      assert (Pi' : isPhase c' i Reading).
      { exists id. subst c'. cbn [entries sheap conversions]. rewrite Pe, Pr.
        repeat split; auto; try discriminate. intros _. cbn; auto. }
      split; unfold c' at 1; cbn [entries nextIdx workers sheap conversions].
      * apply (siIds c I).
      * apply (siNext c I).
      * intros j Hj. apply K; [|apply (siRest c I); exact Hj]. cbn [nextIdx c'] in Hj. lia.
      * intros k' w' H'. destruct (Nat.eq_dec k k') as [<-|Hne].
        { rewrite (setNth_same _ _ _ _ Hk) in H'. injection H' as <-. cbn [workerOK].
          split; [exact R|]. split; [exact Pi'|]. intros j Hj. apply K; [lia | auto]. }
        { rewrite setNth_other in H' by auto.
          eapply (workerOK_other c c' k _ i I Hk); eauto. cbn [covers]. lia. }
      * intros a b wa wb j Ha Hb Ca Cb. subst c'. cbn [workers] in *.
        destruct (Nat.eq_dec k a) as [<-|Na]; destruct (Nat.eq_dec k b) as [<-|Nb]; auto.
        { rewrite (setNth_same _ _ _ _ Hk) in Ha. injection Ha as <-.
          rewrite setNth_other in Hb by auto. eapply (siDisjoint c I); eauto. }
        { rewrite (setNth_same _ _ _ _ Hk) in Hb. injection Hb as <-.
          rewrite setNth_other in Ha by auto. eapply (siDisjoint c I); eauto. }
        rewrite setNth_other in Ha, Hb by auto. eapply (siDisjoint c I); eauto.
      * intros j Hj. destruct (siTaken c I j Hj) as [(k' & w' & H' & C')|F].
        { left. destruct (Nat.eq_dec k k') as [<-|Hne].
          - rewrite Hk in H'. injection H' as <-. exists k, (WReading i hi).
            split; [apply (setNth_same _ _ _ _ Hk) | exact C'].
          - exists k', w'. split; [|exact C']. unfold c'. cbn [workers]. rewrite setNth_other; auto. }
        { destruct (Nat.eq_dec j i) as [->|Hji]; [|right; apply K; auto].
          left. exists k, (WReading i hi). split; [apply (setNth_same _ _ _ _ Hk)|]. cbn. lia. }
      * apply (siFrame c I).
      * apply (siNone c I).
      * constructor; [|apply (siConvND c I)]. intros H. apply Pc in H. congruence.
      * intros x [<-|H]; [eapply nth_error_In; eauto | apply (siConv c I); exact H].
    - (* reading: store the dense value *)
      cbn [workerOK] in OK. destruct OK as (R & P & Rest).
      destruct P as (id & Pi & Pe & Pr & Pc). rewrite Pe.
      destruct (live0 id) as [v Hv]; [eapply nth_error_In; eauto|]. rewrite Pr, Hv.
      eexists. split; [reflexivity|]. split; [|cbn [workers]; apply setNth_length].
      match goal with |- SInv ?x => set (c' := x) end.
      assert (K : forall j p, j <> i -> isPhase c j p -> isPhase c' j p).
      { apply (others_keep c c' i id Pi); subst c'; cbn [entries sheap conversions]; auto.
        - intros j Hj. apply setNth_other. auto.
        - tauto. }
      assert (Pi' : isPhase c' i Converted).
      { exists id. subst c'. cbn [entries sheap conversions].
        rewrite (setNth_same _ _ _ _ Pe), Pr, Hv.
        repeat split; auto; try discriminate. intros _. apply Pc. discriminate. }
      split; unfold c' at 1; cbn [entries nextIdx workers sheap conversions].
      * rewrite (setNth_fst _ _ _ _ _ Pe). apply (siIds c I).
      * apply (siNext c I).
      * intros j Hj. apply K; [|apply (siRest c I); exact Hj]. cbn [nextIdx c'] in Hj. lia.
      * intros k' w' H'. destruct (Nat.eq_dec k k') as [<-|Hne].
        { rewrite (setNth_same _ _ _ _ Hk) in H'. injection H' as <-. cbn [workerOK].
          split; [exact R|]. split; [exact Pi'|]. intros j Hj. apply K; [lia | auto]. }
        { rewrite setNth_other in H' by auto.
          eapply (workerOK_other c c' k _ i I Hk); eauto. cbn [covers]. lia. }
      * intros a b wa wb j Ha Hb Ca Cb. subst c'. cbn [workers] in *.
        destruct (Nat.eq_dec k a) as [<-|Na]; destruct (Nat.eq_dec k b) as [<-|Nb]; auto.
        { rewrite (setNth_same _ _ _ _ Hk) in Ha. injection Ha as <-.
          rewrite setNth_other in Hb by auto. eapply (siDisjoint c I); eauto. }
        { rewrite (setNth_same _ _ _ _ Hk) in Hb. injection Hb as <-.
          rewrite setNth_other in Ha by auto. eapply (siDisjoint c I); eauto. }
        rewrite setNth_other in Ha, Hb by auto. eapply (siDisjoint c I); eauto.
      * intros j Hj. destruct (siTaken c I j Hj) as [(k' & w' & H' & C')|F].
        { left. destruct (Nat.eq_dec k k') as [<-|Hne].
          - rewrite Hk in H'. injection H' as <-. exists k, (WDispose i hi).
            split; [apply (setNth_same _ _ _ _ Hk) | exact C'].
          - exists k', w'. split; [|exact C']. unfold c'. cbn [workers]. rewrite setNth_other; auto. }
        { destruct (Nat.eq_dec j i) as [->|Hji]; [|right; apply K; auto].
          left. exists k, (WDispose i hi). split; [apply (setNth_same _ _ _ _ Hk)|]. cbn. lia. }
      * apply (siFrame c I).
      * apply (siNone c I).
      * apply (siConvND c I).
      * apply (siConv c I).
    - (* dispose *)
      cbn [workerOK] in OK. destruct OK as (R & P & Rest). pose proof P as P0.
      destruct P as (id & Pi & Pe & Pr & Pc). rewrite Pe.
      assert (NR : reading c id = false).
      { unfold reading. apply not_true_iff_false. intros H. apply existsb_exists in H.
        destruct H as (w & Hw & H). destruct w as [|a b|a b|a b|]; try discriminate.
        destruct (nth_error (entries c) a) as [[d o]|] eqn:Ea; [|discriminate].
        apply Nat.eqb_eq in H. subst d.
        apply In_nth_error in Hw. destruct Hw as [k' Hw].
        pose proof (siWorkers c I k' _ Hw) as O. cbn [workerOK] in O.
        destruct O as (_ & O & _). pose proof O as O0. destruct O as (d & Od & Oe & _).
        assert (d = id) by congruence. subst d.
        assert (a = i) by (eapply order_inj; eauto). subst a.
        pose proof (isPhase_det c i _ _ P0 O0). discriminate. }
      rewrite NR.
      eexists. split; [reflexivity|]. split; [|cbn [workers]; apply setNth_length].
      match goal with |- SInv ?x => set (c' := x) end.
      assert (K : forall j p, j <> i -> isPhase c j p -> isPhase c' j p).
      { apply (others_keep c c' i id Pi); subst c'; cbn [entries sheap conversions]; auto.
        - intros d Hd. apply readAt_dispose_other. exact Hd.
        - tauto. }
      assert (Pi' : isPhase c' i Finished).
      { exists id. subst c'. cbn [entries sheap conversions].
        rewrite Pe, readAt_dispose_same.
        repeat split; auto; try discriminate. intros _. apply Pc. discriminate. }
      assert (Cov : forall j, covers (afterEntry i hi) j <-> i < j < hi).
      { intros j. unfold afterEntry. destruct (Nat.ltb_spec (S i) hi); cbn [covers]; lia. }
      split; unfold c' at 1; cbn [entries nextIdx workers sheap conversions].
      * apply (siIds c I).
      * apply (siNext c I).
      * intros j Hj. apply K; [|apply (siRest c I); exact Hj]. cbn [nextIdx c'] in Hj. lia.
      * intros k' w' H'. destruct (Nat.eq_dec k k') as [<-|Hne].
        { rewrite (setNth_same _ _ _ _ Hk) in H'. injection H' as <-. unfold afterEntry.
          destruct (Nat.ltb_spec (S i) hi); cbn [workerOK]; [|exact Logic.I].
          split; [cbn [nextIdx c']; lia|]. split; [apply K; [lia | apply Rest; lia]|].
          intros j Hj. apply K; [lia | apply Rest; lia]. }
        { rewrite setNth_other in H' by auto.
          eapply (workerOK_other c c' k _ i I Hk); eauto. cbn [covers]. lia. }
      * intros a b wa wb j Ha Hb Ca Cb. subst c'. cbn [workers] in *.
        destruct (Nat.eq_dec k a) as [<-|Na]; destruct (Nat.eq_dec k b) as [<-|Nb]; auto.
        { rewrite (setNth_same _ _ _ _ Hk) in Ha. injection Ha as <-. apply Cov in Ca.
          rewrite setNth_other in Hb by auto. eapply (siDisjoint c I); eauto. cbn [covers]. lia. }
        { rewrite (setNth_same _ _ _ _ Hk) in Hb. injection Hb as <-. apply Cov in Cb.
          rewrite setNth_other in Ha by auto. eapply (siDisjoint c I); eauto. cbn [covers]. lia. }
        rewrite setNth_other in Ha, Hb by auto. eapply (siDisjoint c I); eauto.
      * intros j Hj. destruct (Nat.eq_dec j i) as [->|Hji]; [right; exact Pi'|].
        destruct (siTaken c I j Hj) as [(k' & w' & H' & C')|F]; [|right; apply K; auto].
        left. destruct (Nat.eq_dec k k') as [<-|Hne].
        { rewrite Hk in H'. injection H' as <-. cbn [covers] in C'. exists k, (afterEntry i hi).
          split; [apply (setNth_same _ _ _ _ Hk) | apply Cov; lia]. }
        { exists k', w'. split; [|exact C']. unfold c'. cbn [workers]. rewrite setNth_other; auto. }
      * intros d Hd. rewrite disposeAt_other; [apply (siFrame c I); exact Hd|].
        intros ->. apply Hd. eapply nth_error_In; eauto.
      * intros d Hd. apply disposeAt_none. apply (siNone c I). exact Hd.
      * apply (siConvND c I).
      * apply (siConv c I).
    - eexists. split; [reflexivity|]. auto.
  Qed.

  Lemma runSchedule_inv sched : forall c,
    SInv c -> Forall (fun k => k < length (workers c)) sched ->
    exists c', runSchedule c sched = Ok c' /\ SInv c' /\ length (workers c') = length (workers c).
  Proof.
    induction sched as [|k r IH]; intros c I F; cbn [runSchedule].
    - eauto.
    - inversion F as [|? ? Hk Fr]; subst.
      destruct (nth_error (workers c) k) as [w|] eqn:E; [|apply nth_error_None in E; lia].
      destruct (step_ok c k w I E) as (c1 & S1 & I1 & L1). rewrite S1. cbn [bind].
      destruct (IH c1 I1) as (c2 & S2 & I2 & L2).
      { rewrite L1. exact Fr. }
      exists c2. rewrite L2, L1. auto.
  Qed.

  (* What the workers leave behind. *)
  Lemma allDone_finished c :
    SInv c -> workers c <> [] -> allDone c = true ->
    nextIdx c = length order /\ forall j, j < length order -> isPhase c j Finished.
  Proof.
    intros I Hne D. unfold allDone in D. rewrite forallb_forall in D.
    assert (Done : forall k w, nth_error (workers c) k = Some w -> w = WDone).
    { intros k w H. apply nth_error_In in H. apply D in H. destruct w; try discriminate; auto. }
    assert (N : nextIdx c = length order).
    { destruct (workers c) as [|w r] eqn:E; [congruence|].
      pose proof (Done 0 w eq_refl) as ->. apply (siWorkers c I 0 WDone). rewrite E. reflexivity. }
    split; [exact N|]. intros j Hj. rewrite <- N in Hj.
    destruct (siTaken c I j Hj) as [(k & w & Hw & C)|F]; [|exact F].
    rewrite (Done k w Hw) in C. destruct C.
  Qed.

  Lemma done_table c id :
    SInv c -> workers c <> [] -> allDone c = true -> In id order ->
    tableOf c id = readAt h0 id /\ readAt (sheap c) id = None /\ In id (conversions c).
  Proof.
    intros I Hne D Hid. destruct (allDone_finished c I Hne D) as [N F].
    apply In_nth_error in Hid. destruct Hid as [j Hj].
    assert (Lj : j < length order) by (apply nth_error_Some; congruence).
    destruct (F j Lj) as (d & A & B & C & E). assert (d = id) by congruence. subst d.
    split; [|split; [exact C | apply E; discriminate]].
    unfold tableOf.
    assert (G : forall es, NoDup (map fst es) -> nth_error es j = Some (id, readAt h0 id) ->
              find (fun e => Nat.eqb (fst e) id) es = Some (id, readAt h0 id)).
    { clear. revert j. intros j es. revert j. induction es as [|[d v] r IH]; intros [|j] ND E; cbn in *; try discriminate.
      - injection E as -> ->. rewrite Nat.eqb_refl. reflexivity.
      - inversion ND as [|? ? Hn ND']; subst. destruct (Nat.eqb_spec d id) as [->|Hne].
        + exfalso. apply Hn. apply nth_error_In in E. change id with (fst (id, readAt h0 id)).
          apply in_map. exact E.
        + eapply IH; eauto. }
    rewrite G; auto. rewrite (siIds c I). exact NDorder.
  Qed.

  Lemma done_conversions c :
    SInv c -> workers c <> [] -> allDone c = true -> Permutation (conversions c) order.
  Proof.
    intros I Hne D. apply NoDup_Permutation; [apply (siConvND c I) | exact NDorder|].
    intros id. split; [apply (siConv c I)|]. intros H. apply (done_table c id I Hne D H).
  Qed.

  (* ---- the workers cannot run for ever, and none is ever stuck ---- *)
  Definition weight (w : worker) : nat :=
    match w with
    | WDone => 0
    | WFetch => 1
    | WConvert i hi => 3 * (hi - i) + 1
    | WReading i hi => 3 * (hi - i)
    | WDispose i hi => 3 * (hi - i) - 1
    end.
  Definition total (l : list worker) : nat := fold_right (fun w s => weight w + s) 0 l.
  Definition work (c : scrubbing) : nat := total (workers c) + 4 * (length order - nextIdx c).

  Lemma total_setNth l k w w' :
    nth_error l k = Some w -> total (setNth l k w') + weight w = total l + weight w'.
  Proof.
    revert k. induction l as [|x r IH]; intros [|k]; cbn [nth_error setNth total fold_right]; try discriminate.
    - intros E. injection E as ->. fold (total r). lia.
    - intros E. specialize (IH k E). unfold total in *. lia.
  Qed.

  Lemma step_decreases c k w c' :
    SInv c -> nth_error (workers c) k = Some w -> w <> WDone -> workerStep c k = Ok c' ->
    work c' < work c.
  Proof.
    intros I Hk Hw. pose proof (siWorkers c I k w Hk) as OK.
    pose proof (siNext c I) as Hn. pose proof (entries_length c I) as Len.
    unfold workerStep. rewrite Hk. unfold work.
    destruct w as [|i hi|i hi|i hi|]; [| | | |congruence].
    - pose proof (batchEnd_range c ltac:(lia)) as R.
      destruct (Nat.eqb_spec (nextIdx c) (batchEnd c)); intros E; injection E as <-;
        cbn [workers nextIdx].
      + pose proof (total_setNth _ k _ WDone Hk). cbn [weight] in *. lia.
      + pose proof (total_setNth _ k _ (WConvert (nextIdx c) (batchEnd c)) Hk).
        cbn [weight] in *. lia.
    - destruct OK as (R & _). destruct (nth_error (entries c) i) as [[id v]|]; [|discriminate].
      destruct (readAt (sheap c) id); [|discriminate]. intros E; injection E as <-.
      cbn [workers nextIdx]. pose proof (total_setNth _ k _ (WReading i hi) Hk).
      cbn [weight] in *. lia.
    - destruct OK as (R & _). destruct (nth_error (entries c) i) as [[id v]|]; [|discriminate].
      destruct (readAt (sheap c) id); [|discriminate]. intros E; injection E as <-.
      cbn [workers nextIdx]. pose proof (total_setNth _ k _ (WDispose i hi) Hk).
      cbn [weight] in *. lia.
    - destruct OK as (R & _). destruct (nth_error (entries c) i) as [[id v]|]; [|discriminate].
      destruct (reading c id); [discriminate|]. intros E; injection E as <-.
      cbn [workers nextIdx]. pose proof (total_setNth _ k _ (afterEntry i hi) Hk) as T.
      unfold afterEntry in *. destruct (Nat.ltb_spec (S i) hi); cbn [weight] in *; lia.
  Qed.

  Lemma can_finish c :
    SInv c -> exists sched c', runSchedule c sched = Ok c' /\ allDone c' = true /\
      Forall (fun k => k < length (workers c)) sched.
  Proof.
    remember (work c) as m eqn:Em. revert c Em. induction m as [m IH] using lt_wf_ind.
    intros c Em I. destruct (allDone c) eqn:D.
    - exists [], c. repeat split; auto.
    - assert (exists k w, nth_error (workers c) k = Some w /\ w <> WDone) as (k & w & Hk & Hw).
      { unfold allDone in D. clear - D. induction (workers c) as [|w r IHr]; [discriminate|].
        cbn [forallb] in D. destruct (doneW w) eqn:E.
        - destruct (IHr D) as (k & w' & H & H'). exists (S k), w'. auto.
        - exists 0, w. split; [reflexivity|]. intros ->. discriminate. }
      destruct (step_ok c k w I Hk) as (c1 & S1 & I1 & L1).
      pose proof (step_decreases c k w c1 I Hk Hw S1) as Lt.
      destruct (IH (work c1) ltac:(lia) c1 eq_refl I1) as (sched & c2 & S2 & D2 & F2).
      exists (k :: sched), c2. cbn [runSchedule]. rewrite S1. cbn [bind].
      repeat split; auto. constructor.
      + apply nth_error_Some. congruence.
      + rewrite <- L1. exact F2.
  Qed.
End Scrub.

(* ---- the second walk ---- *)
Lemma mapResult_ok {A B} (f : A -> result B) (g : A -> B -> Prop) l :
  Forall (fun x => exists y, f x = Ok y /\ g x y) l ->
  exists ys, mapResult f l = Ok ys /\ Forall2 g l ys.
Proof.
  induction 1 as [|x r (y & E & G) _ (ys & Es & Gs)].
  - exists []. split; [reflexivity | constructor].
  - exists (y :: ys).
    change (mapResult f (x :: r))
      with (bind (f x) (fun y => bind (mapResult f r) (fun ys => Ok (y :: ys)))).
    rewrite E. cbn [bind]. rewrite Es. cbn [bind]. split; [reflexivity | constructor; auto].
Qed.

Lemma setAttr_observe read k v attrs id :
  NoDup (map fst attrs) -> In (k, ADisp id) attrs -> read id = Some v ->
  map (fun p => (fst p, observeAttr read (snd p))) (setAttr k (ADense v) attrs) =
  map (fun p => (fst p, observeAttr read (snd p))) attrs.
Proof.
  intros ND Hin Hr. induction attrs as [|[k' a'] r IH]; [destruct Hin|].
  cbn [setAttr]. inversion ND as [|? ? Hn ND']; subst. destruct Hin as [E|Hin].
  - injection E as -> ->. rewrite String.eqb_refl. cbn [map fst snd observeAttr]. rewrite Hr. reflexivity.
  - destruct (String.eqb_spec k' k) as [->|Hne].
    + exfalso. apply Hn. apply (in_map fst) in Hin. exact Hin.
    + cbn [map]. f_equal. apply IH; auto.
Qed.

Lemma setAttr_names k a attrs : In k (map fst attrs) -> map fst (setAttr k a attrs) = map fst attrs.
Proof.
  induction attrs as [|[k' a'] r IH]; cbn [setAttr map fst]; intros H; [destruct H|].
  destruct (String.eqb_spec k' k) as [->|Hne]; [reflexivity|].
  cbn [map fst]. f_equal. apply IH. destruct H; [congruence | auto].
Qed.

Lemma setAttr_in k a attrs k' a' :
  NoDup (map fst attrs) -> In (k', a') (setAttr k a attrs) ->
  (k' = k /\ a' = a) \/ (k' <> k /\ In (k', a') attrs).
Proof.
  induction attrs as [|[k1 a1] r IH]; cbn [setAttr map fst]; intros ND H.
  - destruct H as [E|[]]. injection E as <- <-. auto.
  - inversion ND as [|? ? Hn ND']; subst.
    destruct (String.eqb_spec k1 k) as [->|Hne].
    + destruct H as [E|H].
      * injection E as <- <-. auto.
      * right. split; [|right; exact H]. intros ->. apply Hn. apply (in_map fst) in H. exact H.
    + destruct H as [E|H].
      * injection E as <- <-. right. split; [auto | left; reflexivity].
      * destruct (IH ND' H) as [?|[? ?]]; [auto | right; split; auto; right; auto].
Qed.

Lemma replaceOps_ok places table read o :
  listed places o -> uniqueNames o ->
  (forall id, In id (opIds o) -> exists v, table id = Some v /\ read id = Some v) ->
  exists o', replaceOps places table o = Ok o' /\
    observe read o' = observe read o /\ opIds o' = [] /\ uniqueNames o'.
Proof.
  induction o as [n attrs body IH] using op_ind'. intros L U T. cbn [replaceOps].
  destruct (mapResult_ok (replaceOps places table)
    (fun x y => observe read y = observe read x /\ opIds y = [] /\ uniqueNames y) body)
    as (body' & Eb & Fb).
  { pose proof (listed_body _ _ _ _ L) as Lb. pose proof (uniqueNames_body _ _ _ U) as Ub.
    rewrite Forall_forall in *. intros x Hx. apply IH; auto.
    intros id Hid. apply T. cbn [opIds]. apply in_or_app. right. apply in_flat_map. eauto. }
  rewrite Eb. cbn [bind]. clear Eb IH.
  assert (Ob : map (observe read) body' = map (observe read) body).
  { clear - Fb. induction Fb as [|x y l l' (E & _) _ IH]; cbn [map]; congruence. }
  assert (Ib : flat_map opIds body' = []).
  { clear - Fb. induction Fb as [|x y l l' (_ & E & _) _ IH]; cbn [flat_map]; [auto | rewrite E, IH; auto]. }
  assert (Ub : (fix all l := match l with [] => True | x :: r => uniqueNames x /\ all r end) body').
  { clear - Fb. induction Fb as [|x y l l' (_ & _ & E) _ IH]; auto. }
  pose proof (uniqueNames_attrs _ _ _ U) as ND.
  pose proof (listed_attrs _ _ _ _ L) as LA.
  assert (Fl : forall l : list (string * attr), (forall k a, In (k, a) l -> attrIds a = []) ->
            flat_map (fun p => attrIds (snd p)) l = []).
  { intros l H. induction l as [|[k a] r IHr]; [reflexivity|]. cbn [flat_map snd].
    rewrite (H k a) by (left; auto). apply IHr. intros k' a' H'. eapply H. right. exact H'. }
  destruct (hit places n attrs) as [[k id]|] eqn:H.
  - destruct (hit_in _ _ _ _ _ H) as [Hin Hp].
    destruct (T id) as (v & Tv & Rv).
    { cbn [opIds]. apply in_or_app. left. apply in_flat_map. exists (k, ADisp id). cbn; auto. }
    rewrite Tv. eexists. split; [reflexivity|]. split; [|split].
    + cbn [observe]. rewrite Ob. rewrite (setAttr_observe read k v attrs id ND Hin Rv). reflexivity.
    + cbn [opIds]. rewrite Ib, app_nil_r. apply Fl. intros k' a' H'.
      destruct (setAttr_in _ _ _ _ _ ND H') as [[-> ->]|[Hne Hin']]; [reflexivity|].
      destruct (LA k' a' Hin') as [E|(P & _)]; [exact E|]. congruence.
    + cbn [uniqueNames]. split; [|exact Ub].
      rewrite setAttr_names; [exact ND|]. apply (in_map fst) in Hin. exact Hin.
  - eexists. split; [reflexivity|]. split; [|split].
    + cbn [observe]. rewrite Ob. reflexivity.
    + cbn [opIds]. rewrite Ib, app_nil_r. apply Fl. intros k' a' H'.
      destruct (LA k' a' H') as [E|(P & id & ->)]; [exact E|].
      rewrite (hit_complete places n attrs k' id ND H' P) in H. discriminate.
    + cbn [uniqueNames]. auto.
Qed.
