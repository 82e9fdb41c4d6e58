(** Proofs about ControlModel.v. *)
From Coq Require Import List ZArith Lia Bool Arith.
From Verif Require Import Util ControlSpec ControlModel.
Import ListNotations.
Open Scope Z_scope.

Section Proofs.
Context {V : Type}.
Lemma values_total {I} (i : I) (vs : list V) os : refersBelow (length vs) os -> exists l, values i vs os = Some l /\ length l = length os.
Proof.
  induction os as [|o os IH]; intros H; [exists []; auto|]. destruct IH as (l & E & L); [intros k Hk; apply H; now right|].
  destruct o as [f|k]; cbn [values value].
  - rewrite E. eexists. split; [reflexivity|]. cbn. lia.
  - destruct (nth_error vs k) eqn:N; [|apply nth_error_None in N; specialize (H k (or_introl eq_refl)); lia]. rewrite E. eexists. split; [reflexivity|]. cbn. lia.
Qed.
Lemma values_length {I} (i : I) (vs : list V) os l : values i vs os = Some l -> length l = length os.
Proof. revert l. induction os as [|o os IH]; cbn; intros l E; [now injection E as <-|]. destruct (value i vs o), (values i vs os); try discriminate. injection E as <-. cbn. f_equal. now apply IH. Qed.
Lemma readAll_values {I} (i : I) (bufs : list V) os : readAll bufs (map (runOut i bufs) os) = values i bufs os.
Proof.
  induction os as [|o os IH]; [reflexivity|]. cbn [map readAll values]. rewrite IH. destruct o as [f|k]; cbn [runOut readSrc value obind]; [destruct (values i bufs os); reflexivity|].
  destruct (nth_error bufs k); cbn [obind]; [destruct (values i bufs os); reflexivity|reflexivity].
Qed.
Lemma zset_app {A} (a : list A) x b v j : j = Z.of_nat (length a) -> zset (a ++ x :: b) j v = Some (a ++ v :: b).
Proof.
  intros ->. unfold zset. rewrite app_length. cbn [length]. destruct (Z.ltb_spec (Z.of_nat (length a)) 0); [lia|]. destruct (Z.leb_spec (Z.of_nat (length a + S (length b))) (Z.of_nat (length a))); [lia|].
  cbn [orb]. f_equal. rewrite Nat2Z.id. clear. induction a; cbn; [reflexivity|]. now f_equal.
Qed.
Lemma copyCarried_go {I} (i : I) (old : list V) : forall os new pre rest,
  length rest = length os -> (forall p k, nth_error os p = Some (View k) -> (length pre + p <= k)%nat) ->
  (exists done, old = done ++ rest /\ length done = length pre) -> values i old os = Some new ->
  copyCarried (length pre) (map (runOut i old) os) (pre ++ rest) = Some (pre ++ new).
Proof.
  induction os as [|o os IH]; intros new pre rest L O (done & D1 & D2) E.
  - destruct rest; [|discriminate]. cbn in E. injection E as <-. reflexivity.
  - destruct rest as [|x rest]; [discriminate|]. cbn [values] in E. destruct (value i old o) as [v|] eqn:Ev; [|discriminate]. destruct (values i old os) as [l|] eqn:El; [|discriminate]. injection E as <-.
    cbn [map copyCarried]. assert (R : readSrc (pre ++ x :: rest) (runOut i old o) = Some v).
    { destruct o as [f|k]; cbn [runOut readSrc] in *; [exact Ev|]. cbn [value] in Ev. specialize (O 0%nat k eq_refl). rewrite D1, nth_error_app2 in Ev by lia. rewrite nth_error_app2 by lia. now rewrite <- D2. }
    rewrite R. cbn [obind]. rewrite zset_app by reflexivity. cbn [obind]. replace (pre ++ v :: rest) with ((pre ++ [v]) ++ rest) by now rewrite <- app_assoc.
    replace (S (length pre)) with (length (pre ++ [v])) by (rewrite app_length; cbn; lia). rewrite (IH l).
    + now rewrite <- app_assoc.
    + cbn in L. lia.
    + intros p k H. rewrite app_length. cbn. specialize (O (S p) k H). lia.
    + exists (done ++ [x]). split; [rewrite <- app_assoc; exact D1|]. rewrite !app_length. cbn. lia.
    + reflexivity.
Qed.
Lemma copyCarried_ok {I} (i : I) (bufs new : list V) os : length os = length bufs -> inOrder os -> values i bufs os = Some new ->
  copyCarried 0 (map (runOut i bufs) os) bufs = Some new.
Proof. intros L O E. apply (copyCarried_go i bufs os new [] bufs); auto. exists []. auto. Qed.

Lemma onnx_loop_total (b : loopBody V) n : forall k i c vs, wf b (length vs) -> n = i + Z.of_nat k -> exists final rows, onnx_loop (Some n) b i c vs final rows /\ length final = length vs.
Proof.
  induction k as [|k IH]; intros i c vs W E.
  - exists vs, []. split; [constructor; right; exists n; split; [auto|lia]|auto].
  - destruct c; [|exists vs, []; split; [constructor; auto|auto]].
    destruct W as (W1 & W2 & W3). destruct (values_total (i, true) vs _ W2) as (vs' & E1 & L1). destruct (values_total (i, true) vs _ W3) as (row & E2 & L2).
    destruct (IH (i + 1) (match bCond b with Some f => f (i, true) vs | None => true end) vs') as (final & rows & R & L).
    + rewrite L1, W1. repeat split; auto.
    + lia.
    + exists final, (row :: rows). split; [|lia]. econstructor; eauto. intros n' [= <-]. lia.
Qed.

Lemma counted_go (b : loopBody V) : bCond b = None -> inOrder (bCarried b) -> forall n i done vs final rows,
  length (bCarried b) = length vs -> i = Z.of_nat (length done) ->
  onnx_loop (Some (i + Z.of_nat n)) b i true vs final rows ->
  length rows = n /\ foldM (countedStep b true) (zseq i n) (vs, map Some done ++ repeat None n, true) = Some (final, map Some (done ++ rows), true).
Proof.
  intros NC O. induction n as [|n IH]; intros i done vs final rows L Hi H.
  - inversion H; subst; [|specialize (H0 _ eq_refl); lia]. split; [reflexivity|]. cbn. now rewrite !app_nil_r.
  - inversion H as [? ? ? [HC|(n' & HN & HL)]|i' vs0 vs' row final0 rows' HM HV HR HI]; subst; try discriminate; [injection HN as <-; lia|].
    rewrite NC in HI. pose proof (values_length _ _ _ _ HV) as LV.
    destruct (IH (Z.of_nat (length done) + 1) (done ++ [row]) vs' final rows') as (IL & IE).
    + rewrite LV. reflexivity.
    + rewrite app_length. cbn. lia.
    + replace (Z.of_nat (length done) + 1 + Z.of_nat n) with (Z.of_nat (length done) + Z.of_nat (S n)) by lia. exact HI.
    + split; [cbn; lia|]. cbn [zseq foldM]. unfold countedStep at 1. rewrite readAll_values, HR. cbn [obind repeat].
      rewrite (zset_app (map Some done) None (repeat None n) (Some row)) by (rewrite map_length; reflexivity). cbn [obind]. rewrite (copyCarried_ok _ _ vs') by (auto; now rewrite L). cbn [obind].
      replace (map Some done ++ Some row :: repeat None n) with (map Some (done ++ [row]) ++ repeat None n) by (rewrite map_app, <- app_assoc; reflexivity). rewrite IE. rewrite <- app_assoc. reflexivity.
Qed.

Lemma counted_false (b : loopBody V) n rows : forall i vs, foldM (countedStep b false) (zseq i n) (vs, rows, false) = Some (vs, rows, false).
Proof. induction n as [|n IH]; intros i vs; [reflexivity|]. cbn [zseq foldM countedStep obind]. apply IH. Qed.

Lemma allSome_map {A} (l : list A) : allSome (map Some l) = Some l.
Proof. induction l as [|a l IH]; [reflexivity|]. cbn [map allSome obind]. now rewrite IH. Qed.
Lemma zset_map {A B} (f : A -> B) l j v : zset (map f l) j (f v) = option_map (map f) (zset l j v).
Proof.
  unfold zset. rewrite map_length. destruct ((j <? 0) || (Z.of_nat (length l) <=? j)); [reflexivity|]. cbn. f_equal. generalize (Z.to_nat j). clear. induction l as [|a l IH]; intros [|n]; cbn; auto. now f_equal.
Qed.
Lemma copyOutputs_later (l : list (src V)) : forall j bufs, copyOutputs j None l (map Some bufs) = option_map (map Some) (copyCarried j l bufs).
Proof.
  induction l as [|s l IH]; intros j bufs; [reflexivity|]. cbn [copyOutputs copyCarried].
  assert (E : match s with Val v => Some v | Buf k => o <- nth_error (map Some bufs) k ;; o end = readSrc bufs s).
  { destruct s as [v|k]; [reflexivity|]. cbn [readSrc]. rewrite nth_error_map. destruct (nth_error bufs k); reflexivity. }
  rewrite E. destruct (readSrc bufs s) as [v|]; [|reflexivity]. cbn [obind]. rewrite zset_map. destruct (zset bufs (Z.of_nat j) v); [|reflexivity]. cbn [option_map obind]. apply IH.
Qed.
Lemma copyOutputs_first {I} (i : I) (vs : list V) : forall os new pre rest, length rest = length os -> values i vs os = Some new ->
  copyOutputs (length pre) (Some vs) (map (runOut i vs) os) (pre ++ rest) = Some (pre ++ map Some new).
Proof.
  induction os as [|o os IH]; intros new pre rest L E.
  - destruct rest; [|discriminate]. cbn in E. injection E as <-. reflexivity.
  - destruct rest as [|x rest]; [discriminate|]. cbn [values] in E. destruct (value i vs o) as [v|] eqn:Ev; [|discriminate]. destruct (values i vs os) as [l|] eqn:El; [|discriminate]. injection E as <-.
    cbn [map copyOutputs].
    assert (R : match runOut i vs o with Val v => Some v | Buf k => nth_error vs k end = Some v) by (destruct o; exact Ev).
    rewrite R. cbn [obind]. rewrite zset_app by reflexivity. cbn [obind]. replace (pre ++ Some v :: rest) with ((pre ++ [Some v]) ++ rest) by now rewrite <- app_assoc.
    replace (S (length pre)) with (length (pre ++ [Some v])) by (rewrite app_length; cbn; lia). rewrite (IH l); [now rewrite <- app_assoc|cbn in L; lia|reflexivity].
Qed.

Lemma while_later (b : loopBody V) f : bCond b = Some f -> inOrder (bCarried b) -> forall k i c vs final rows fuel, length (bCarried b) = length vs -> (k <= fuel)%nat ->
  onnx_loop (Some (i + Z.of_nat k)) b i c vs final rows -> whileIter fuel (Some (i + Z.of_nat k)) b i c None (map Some vs) = Done (map Some final).
Proof.
  intros BC O. induction k as [|k IH]; intros i c vs final rows fuel L F H.
  - inversion H; subst; [|specialize (H0 _ eq_refl); lia]. destruct fuel; cbn [whileIter]; (destruct (Z.ltb_spec i (i + Z.of_nat 0)); [lia|reflexivity]).
  - destruct fuel as [|fuel]; [lia|].
    inversion H as [? ? ? [HC|(n' & HN & HL)]|i' vs0 vs' row final0 rows' HM HV HR HI]; subst.
    + cbn [whileIter]. rewrite andb_false_r. reflexivity.
    + injection HN as <-. lia.
    + cbn [whileIter]. destruct (Z.ltb_spec i (i + Z.of_nat (S k))); [|lia]. cbn [andb]. rewrite allSome_map. cbn [obind]. rewrite copyOutputs_later, (copyCarried_ok _ _ vs') by (auto; now rewrite L). cbn [option_map obind].
      replace (i + Z.of_nat (S k)) with (i + 1 + Z.of_nat k) by lia. replace (i + Z.of_nat (S k)) with (i + 1 + Z.of_nat k) in HI by lia.
      rewrite BC in *. apply (IH _ _ _ _ rows'); [rewrite (values_length _ _ _ _ HV); reflexivity|lia|exact HI].
Qed.

Lemma wellBound_both n : wellBound n (whileParams true true n) = true.
Proof. unfold wellBound. destruct (list_eq_dec _ _ _) as [_|N]; [reflexivity|]. elim N. reflexivity. Qed.

Lemma scan_go carried scan (inputs : list (list V)) (d : V) : inOrder carried ->
  (forall k, In (View k) scan -> nth_error carried k = Some (View k)) ->
  forall n i done vs final rows, length carried = length vs -> i = length done ->
  Forall (fun x => length x = (i + n)%nat) inputs ->
  onnx_scan carried scan (map (fun i => map (fun x => nth i x d) inputs) (seq i n)) vs final rows ->
  foldM (scanStep carried scan inputs) (zseq (Z.of_nat i) n) (vs, map Some done ++ repeat None n) = Some (final, map Some (done ++ rows)).
Proof.
  intros O SO. induction n as [|n IH]; intros i done vs final rows L Hi LI H.
  - inversion H; subst. cbn. now rewrite !app_nil_r.
  - cbn [seq map] in H. inversion H as [|xs slices vs0 vs' row final0 rows' HV HR HI]; subst. cbn [zseq foldM]. unfold scanStep at 1.
    assert (ES : slicesAt (Z.of_nat (length done)) inputs = Some (map (fun x => nth (length done) x d) inputs)).
    { clear - LI. induction LI as [|x r HX LI IH]; [reflexivity|]. cbn [slicesAt map]. unfold zget at 1. destruct (Z.ltb_spec (Z.of_nat (length done)) 0); [lia|]. rewrite Nat2Z.id.
      rewrite (nth_error_nth' x d) by lia. cbn [obind]. rewrite IH. reflexivity. }
    rewrite ES. cbn [obind]. rewrite (copyCarried_ok _ _ vs') by (auto; now rewrite L). cbn [obind].
    set (xs := map (fun x => nth (length done) x d) inputs) in *.
    assert (ER : readAll vs' (map (runOut xs vs) scan) = Some row).
    { clear - HR HV SO. revert row HR. induction scan as [|o sc IHs]; intros row HR; cbn in *; [exact HR|]. destruct (value xs vs o) as [v|] eqn:EV; [|discriminate]. destruct (values xs vs sc) as [l|] eqn:EL; [|discriminate]. injection HR as <-.
      rewrite (IHs (fun k Hk => SO k (or_intror Hk)) l eq_refl). destruct o as [f|k]; cbn [runOut readSrc obind]; [cbn in EV; injection EV as <-; reflexivity|].
      assert (EK : nth_error vs' k = nth_error vs k).
      { specialize (SO k (or_introl eq_refl)). clear - HV SO. revert vs' k HV SO. cut (forall (c : list (out V (list V))) k0 vs' k, values xs vs c = Some vs' -> nth_error c k0 = Some (View k) -> nth_error vs' k0 = nth_error vs k); [intros G vs' k HV SO; now apply (G carried k)|].
        induction c as [|o c IHc]; intros k0 vs' k HV SO; [destruct k0; discriminate|]. cbn in HV. destruct (value xs vs o) as [v|] eqn:EV; [|discriminate]. destruct (values xs vs c) as [l|]; [|discriminate]. injection HV as <-.
        destruct k0 as [|k0]; cbn in *; [injection SO as ->; cbn in EV; congruence|now apply IHc]. }
      rewrite EK. cbn in EV. rewrite EV. reflexivity. }
    rewrite ER. cbn [obind repeat]. rewrite (zset_app (map Some done) None (repeat None n) (Some row)) by (rewrite map_length; reflexivity). cbn [obind].
    replace (map Some done ++ Some row :: repeat None n) with (map Some (done ++ [row]) ++ repeat None n) by (rewrite map_app, <- app_assoc; reflexivity).
    replace (Z.of_nat (length done) + 1) with (Z.of_nat (S (length done))) by lia. rewrite (IH (S (length done)) (done ++ [row]) vs' final rows').
    + rewrite <- app_assoc. reflexivity.
    + rewrite (values_length _ _ _ _ HV). reflexivity.
    + rewrite app_length. cbn. lia.
    + eapply Forall_impl; [|exact LI]. cbn. intros a ->. lia.
    + exact HI.
Qed.
Lemma onnx_scan_total carried scan : forall slices (vs : list V), length carried = length vs -> refersBelow (length vs) carried -> refersBelow (length vs) scan ->
  exists final rows, onnx_scan carried scan slices vs final rows.
Proof.
  induction slices as [|xs slices IH]; intros vs L R1 R2; [exists vs, []; constructor|].
  destruct (values_total xs vs _ R1) as (vs' & E1 & L1). destruct (values_total xs vs _ R2) as (row & E2 & L2).
  destruct (IH vs') as (final & rows & H); try (rewrite L1, L; auto). exists final, (row :: rows). econstructor; eauto.
Qed.
End Proofs.
