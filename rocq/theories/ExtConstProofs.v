(** Lemmas on the loading of external constants. *)
From Coq Require Import String List ZArith Bool Lia Permutation.
From Verif Require Import Util ExtConstModel ExtConstSpec.
Import ListNotations.
Open Scope Z_scope.
Open Scope list_scope.

Lemma CHUNK_pos : 0 < CHUNK_SIZE.
Proof. reflexivity. Qed.
Global Opaque CHUNK_SIZE.

(** ** Reading *)
Definition filled (L pos : nat) (file : list Z) : list (option Z) :=
  map Some (firstn pos file) ++ repeat None (L - pos).

Lemma filled_length L pos file : (pos <= L)%nat -> (pos <= length file)%nat -> length (filled L pos file) = L.
Proof. intros; unfold filled. rewrite app_length, map_length, repeat_length, firstn_length. lia. Qed.

Lemma firstn_split {A} (l : list A) a n : firstn a l ++ firstn n (skipn a l) = firstn (a + n) l.
Proof.
  revert a; induction l; intros a0; destruct a0; simpl; auto.
  - now rewrite firstn_nil.
  - f_equal; apply IHl.
Qed.

Lemma skipn_repeat {A} (x : A) n k : skipn k (repeat x n) = repeat x (n - k).
Proof. revert k; induction n; destruct k; simpl; auto. Qed.

Lemma blit_filled L pos n file :
  (pos + n <= L)%nat -> (pos + n <= length file)%nat ->
  blit (filled L pos file) (Z.of_nat pos) (firstn n (skipn pos file)) = Some (filled L (pos + n) file).
Proof.
  intros HL Hf. unfold blit.
  assert (Hd : length (firstn n (skipn pos file)) = n) by (rewrite firstn_length, skipn_length; lia).
  rewrite Hd, filled_length by lia.
  replace ((0 <=? Z.of_nat pos) && (Z.of_nat pos + Z.of_nat n <=? Z.of_nat L)) with true
    by (symmetry; apply andb_true_iff; split; apply Z.leb_le; lia).
  f_equal. rewrite Nat2Z.id. unfold filled.
  assert (Hm : length (map (@Some Z) (firstn pos file)) = pos) by (rewrite map_length, firstn_length; lia).
  rewrite firstn_app, Hm, Nat.sub_diag, firstn_O, app_nil_r, firstn_all2 by lia.
  rewrite skipn_app, Hm, (skipn_all2 (map _ _)) by lia. cbn [app].
  rewrite skipn_repeat, app_assoc, <- map_app, firstn_split. f_equal. f_equal. lia.
Qed.

Lemma readChunk_spec file o offset chunk L :
  0 <= offset -> offset + chunk <= Z.of_nat L ->
  forall fuel i total buf,
  0 <= total <= chunk -> chunk - total <= Z.of_nat fuel ->
  offset + total <= Z.of_nat (length file) ->
  buf = filled L (Z.to_nat (offset + total)) file ->
  match readChunk fuel o file offset chunk i (offset + total) total buf with
  | ReadOk _ pos' buf' => pos' = offset + chunk /\ offset + chunk <= Z.of_nat (length file) /\ buf' = filled L (Z.to_nat (offset + chunk)) file
  | ReadFailed => Z.of_nat (length file) < offset + chunk \/ exists j, o j = None
  | _ => False
  end.
Proof.
  intros Ho HL fuel; induction fuel; intros i total buf Ht Hfu Hfile ->; cbn [readChunk].
  - destruct (Z.ltb_spec total chunk); [lia|]. assert (total = chunk) as -> by lia. auto.
  - destruct (Z.ltb_spec total chunk) as [Hlt|]; [|assert (total = chunk) as -> by lia; auto].
    destruct (o i) as [k|] eqn:Ek; [|right; eauto].
    set (n := Z.min _ _). destruct (Z.leb_spec n 0) as [Hn|Hn].
    + left. unfold n in Hn. lia.
    + assert (Hn1 : n <= chunk - total) by (unfold n; lia).
      assert (Hn2 : n <= Z.of_nat (length file) - (offset + total)) by (unfold n; lia).
      clearbody n.
      replace (blit _ _ _) with (Some (filled L (Z.to_nat (offset + total) + Z.to_nat n) file)).
      2:{ symmetry. rewrite <- (Z2Nat.id (offset + total)) at 2 by lia. apply blit_filled; lia. }
      specialize (IHfuel (S i) (total + n) (filled L (Z.to_nat (offset + total) + Z.to_nat n) file)).
      rewrite Z.add_assoc in IHfuel. apply IHfuel; try lia.
      f_equal. lia.
Qed.

Lemma readAll_spec file o L :
  forall fuel i offset remaining buf,
  0 <= offset -> 0 <= remaining -> remaining <= Z.of_nat fuel -> offset + remaining = Z.of_nat L ->
  offset <= Z.of_nat (length file) ->
  buf = filled L (Z.to_nat offset) file ->
  match readAll fuel o file i offset remaining offset buf with
  | ReadOk _ _ buf' => Z.of_nat L <= Z.of_nat (length file) /\ buf' = filled L L file
  | ReadFailed => Z.of_nat (length file) < Z.of_nat L \/ exists j, o j = None
  | _ => False
  end.
Proof.
  pose proof CHUNK_pos as HC.
  intros fuel; induction fuel; intros i offset remaining buf Ho Hr Hfu HL Hf ->; cbn [readAll].
  - destruct (Z.ltb_spec 0 remaining); [lia|]. split; [lia|]. f_equal; lia.
  - destruct (Z.ltb_spec 0 remaining) as [Hlt|]; [|split; [lia|]; f_equal; lia].
    set (chunk := if _ <? _ then _ else _).
    assert (Hc : 0 < chunk <= remaining) by (unfold chunk; destruct (Z.ltb_spec CHUNK_SIZE remaining); lia).
    clearbody chunk.
    pose proof (readChunk_spec file o offset chunk L ltac:(lia) ltac:(lia) (Z.to_nat chunk) i 0
      (filled L (Z.to_nat (offset + 0)) file) ltac:(lia) ltac:(lia) ltac:(lia) eq_refl) as H.
    rewrite !Z.add_0_r in H.
    destruct (readChunk _ _ _ _ _ _ _ _ _) as [i' pos' buf'| | |]; auto.
    + destruct H as (-> & Hle & ->). apply IHfuel; auto; lia.
    + destruct H; [left; lia|right; auto].
Qed.

Lemma readAll_top file o size : 0 <= size ->
  match readAll (Z.to_nat size) o file O 0 size 0 (repeat None (Z.to_nat size)) with
  | ReadOk _ _ buf => size <= Z.of_nat (length file) /\ buf = map Some (prefix size file)
  | ReadFailed => Z.of_nat (length file) < size \/ exists j, o j = None
  | _ => False
  end.
Proof.
  intros Hs.
  assert (E : repeat None (Z.to_nat size) = filled (Z.to_nat size) (Z.to_nat 0) file)
    by (unfold filled; cbn; now rewrite Nat.sub_0_r).
  pose proof (readAll_spec file o (Z.to_nat size) (Z.to_nat size) O 0 size
    (repeat None (Z.to_nat size)) ltac:(lia) ltac:(lia) ltac:(lia) ltac:(lia) ltac:(lia) E) as H.
  destruct (readAll _ _ _ _ _ _ _ _); auto.
  - destruct H as (H1 & ->). split; [lia|].
    unfold filled, prefix. now rewrite Nat.sub_diag, app_nil_r.
  - destruct H; [left; lia|right; auto].
Qed.

(** ** Memory *)
Lemma holds_map s b k bs : nth_error (heap s) b = Some k -> bLive k = true -> bData k = map Some bs ->
  holds s (PBlk b 0) bs.
Proof.
  intros H1 H2 H3. exists b, 0, k. repeat split; auto; try lia.
  - rewrite H3, map_length. lia.
  - intros i Hi. rewrite H3, nth_error_map. cbn.
    destruct (nth_error bs i) eqn:E; auto. apply nth_error_None in E. lia.
Qed.

Lemma holds_sub s p bs o n : holds s p bs -> 0 <= o -> (Z.to_nat o + n <= length bs)%nat ->
  holds s (ptrAdd p o) (firstn n (skipn (Z.to_nat o) bs)).
Proof.
  intros (b & off & k & -> & Hoff & Hk & Hl & Hle & Hi) Ho Hn.
  assert (Hlen : length (firstn n (skipn (Z.to_nat o) bs)) = n) by (rewrite firstn_length, skipn_length; lia).
  exists b, (off + o), k. repeat split; auto; try lia.
  intros i. rewrite Hlen. intros Hin.
  replace (Z.to_nat (off + o) + i)%nat with (Z.to_nat off + (Z.to_nat o + i))%nat by lia.
  rewrite Hi by lia. f_equal. symmetry.
  rewrite <- (firstn_skipn (Z.to_nat o) bs) at 2.
  rewrite nth_error_app2; rewrite firstn_length; [|lia].
  replace (Z.to_nat o + i - Nat.min (Z.to_nat o) (length bs))%nat with i by lia.
  clear -Hin. revert n Hin; generalize (skipn (Z.to_nat o) bs); intros l. revert i.
  induction l; intros i n Hin; destruct n, i; simpl; auto; try lia. apply IHl; lia.
Qed.

(** A state whose heap has grown and whose old blocks are unchanged. *)
Definition extends (s s' : state) : Prop :=
  forall b k, nth_error (heap s) b = Some k -> nth_error (heap s') b = Some k.
Lemma extends_keeps s s' : extends s s' -> keeps s s'.
Proof.
  intros H p bs (b & off & k & E & Ho & Hk & R). exists b, off, k. repeat split; try tauto. now apply H.
Qed.
Lemma extends_refl s : extends s s. Proof. intros b k; auto. Qed.
Lemma extends_trans s1 s2 s3 : extends s1 s2 -> extends s2 s3 -> extends s1 s3.
Proof. intros H1 H2 b k H; auto. Qed.
Lemma extends_snoc s k c p : extends s (setSlot (setHeap s (heap s ++ [k])) c p).
Proof.
  intros b k' H; cbn. rewrite nth_error_app1; auto. apply nth_error_Some; congruence.
Qed.
Lemma nth_error_snoc {A} (l : list A) x : nth_error (l ++ [x]) (length l) = Some x.
Proof. rewrite nth_error_app2, Nat.sub_diag; auto. Qed.

Lemma upd_snoc {A} (l : list A) x y : upd (length l) y (l ++ [x]) = l ++ [y].
Proof. induction l; simpl; congruence. Qed.

Lemma slot_same s c p : slot (setSlot s c p) c = p.
Proof. cbn. now rewrite Nat.eqb_refl. Qed.
Lemma slot_other s c p c' : c' <> c -> slot (setSlot s c p) c' = slot s c'.
Proof. intros H; cbn. destruct (Nat.eqb_spec c' c); congruence. Qed.

(** ** What the two ways of loading do *)
Lemma malloc_cases e s c file size : 0 <= size ->
  (exists pg, memPage e = Some pg /\ size <= Z.of_nat (length file) /\
     mallocAndReadFile e s c file size
     = Some (false, setSlot (setHeap s (heap s ++ [{| bAddr := PAGESIZE_IN_BYTES * pg; bLive := true; bData := map Some (prefix size file) |}]))
                           c (PBlk (length (heap s)) 0)))
  \/ (exists pg, memPage e = Some pg /\ (Z.of_nat (length file) < size \/ exists j, readCap e j = None) /\
     mallocAndReadFile e s c file size
     = Some (true, setSlot (setHeap s (heap s ++ [{| bAddr := PAGESIZE_IN_BYTES * pg; bLive := false; bData := repeat None (Z.to_nat size) |}]))
                           c (PBlk (length (heap s)) 0)))
  \/ (memPage e = None /\ mallocAndReadFile e s c file size = Some (true, s)).
Proof.
  intros Hs. unfold mallocAndReadFile. destruct (memPage e) as [pg|]; [|right; right; auto].
  pose proof (readAll_top file (readCap e) size Hs) as H. cbn [bData].
  destruct (readAll _ _ _ _ _ _ _ _) as [i pos buf| | |]; try contradiction.
  - left. destruct H as (Hle & ->). exists pg. split; [auto|]. split; [auto|].
    cbn. rewrite upd_snoc. reflexivity.
  - right; left. exists pg. split; [auto|]. split; [auto|].
    unfold free. cbn [heap setSlot setHeap]. rewrite nth_error_snoc. cbn [bLive obind bAddr bData].
    rewrite upd_snoc. reflexivity.
Qed.

Lemma mapped_full file size : 0 <= size <= Z.of_nat (length file) -> mapped file size = map Some (prefix size file).
Proof.
  intros H. unfold mapped, prefix. rewrite firstn_app, map_length.
  replace (Z.to_nat size - length file)%nat with 0%nat by lia.
  rewrite firstn_O, app_nil_r. now rewrite firstn_map.
Qed.

Lemma filePath_some e fname path : filePath e fname = Some path -> path = pathOf e fname.
Proof. unfold filePath, pathOf. destruct (constantPath e), (mallocOk e); congruence. Qed.

(** The shape of every run of omLoadConstantData. *)
Definition willTry (e : os) (s : state) (c : nat) (fname : string) (size isLE : Z) (file : list Z) : Prop :=
  0 < size /\ slot s c = PNull /\ checkEndianness (sysLE e) isLE = true /\
  (constantPath e <> None -> mallocOk e = true) /\ fileAt e (pathOf e fname) = Some file.

Lemma load_try pl e s c fname size isLE file : willTry e s c fname size isLE file ->
  omLoadConstantData pl e s (Some c) fname size isLE
  = (r <- (match pl with UseMalloc => mallocAndReadFile | UseMmap => mmapAndReadFile end) e s c file size ;;
     Some (negb (fst r), snd r)).
Proof.
  intros (H1 & H2 & H3 & H4 & H5). unfold omLoadConstantData.
  destruct (Z.leb_spec size 0); [lia|]. rewrite H2, H3.
  assert (E : filePath e fname = Some (pathOf e fname)).
  { unfold filePath, pathOf. destruct (constantPath e); auto. rewrite H4 by congruence. auto. }
  now rewrite E, H5.
Qed.

Lemma load_cases pl e s c fname size isLE :
  (exists file, willTry e s c fname size isLE file)
  \/ (omLoadConstantData pl e s (Some c) fname size isLE = Some (false, s) /\ (slot s c = PNull \/ size <= 0))
  \/ (slot s c <> PNull /\ omLoadConstantData pl e s (Some c) fname size isLE = Some (true, s)).
Proof.
  unfold omLoadConstantData, willTry. destruct (Z.leb_spec size 0); auto.
  destruct (slot s c) eqn:Es; [|right; right; split; auto; congruence..].
  destruct (checkEndianness _ _) eqn:Ee; auto.
  unfold filePath, pathOf.
  destruct (constantPath e); [destruct (mallocOk e); auto|]; destruct (fileAt e _) as [f|] eqn:Ef; auto;
    left; exists f; repeat split; auto; congruence.
Qed.

Lemma load_extends pl e s c fname size isLE : exists r s',
  omLoadConstantData pl e s c fname size isLE = Some (r, s') /\ extends s s'
  /\ forall c', c <> Some c' -> slot s' c' = slot s c'.
Proof.
  destruct c as [c|]; [|exists false, s; repeat split; auto using extends_refl].
  destruct (load_cases pl e s c fname size isLE) as [(file & H)|[[H _]|[_ H]]].
  - rewrite (load_try pl e s c fname size isLE file H). destruct pl.
    + destruct (malloc_cases e s c file size) as [(pg & _ & _ & E)|[(pg & _ & _ & E)|(_ & E)]];
        [destruct H; lia| | |]; rewrite E; cbn [obind fst snd].
      1,2: eexists; eexists; split; [reflexivity|]; split; [apply extends_snoc|];
           intros c' Hc'; rewrite slot_other by congruence; reflexivity.
      exists false, s; repeat split; auto using extends_refl.
    + unfold mmapAndReadFile. destruct (mapPage e); cbn [obind fst snd].
      * eexists; eexists; split; [reflexivity|]; split; [apply extends_snoc|].
        intros c' Hc'; rewrite slot_other by congruence; reflexivity.
      * exists false, s; repeat split; auto using extends_refl.
  - rewrite H. exists false, s; repeat split; auto using extends_refl.
  - rewrite H. exists true, s; repeat split; auto using extends_refl.
Qed.

Lemma load_true pl e s c fname size isLE s' :
  slot s c = PNull -> omLoadConstantData pl e s (Some c) fname size isLE = Some (true, s') ->
  exists file pg, willTry e s c fname size isLE file /\ slot s' c = PBlk (length (heap s)) 0 /\
    (match pl with UseMalloc => memPage e | UseMmap => mapPage e end) = Some pg /\
    (pl = UseMalloc -> size <= Z.of_nat (length file)) /\
    exists k, nth_error (heap s') (length (heap s)) = Some k /\ bLive k = true /\ bAddr k = PAGESIZE_IN_BYTES * pg /\
      bData k = mapped file size.
Proof.
  intros Hnull H.
  destruct (load_cases pl e s c fname size isLE) as [(file & Ht)|[[Hf _]|[Hn _]]]; [|congruence..].
  rewrite (load_try pl e s c fname size isLE file Ht) in H. exists file.
  assert (Hs : 0 <= size) by (destruct Ht; lia).
  destruct pl.
  - destruct (malloc_cases e s c file size Hs) as [(pg & Hp & Hle & E)|[(pg & _ & _ & E)|(_ & E)]];
      rewrite E in H; cbn [obind fst snd negb] in H; try discriminate.
    injection H as <-. exists pg. split; [auto|]. split; [apply slot_same|]. split; [auto|]. split; [auto|].
    + eexists; split; [cbn; apply nth_error_snoc|]. cbn. repeat split; auto.
      symmetry. apply mapped_full. lia.
  - unfold mmapAndReadFile in H. destruct (mapPage e) as [pg|]; cbn [obind fst snd negb] in H; [|discriminate].
    injection H as <-. exists pg. split; [auto|]. split; [apply slot_same|]. split; [auto|]. split; [discriminate|].
    eexists; split; [cbn; apply nth_error_snoc|]. auto.
Qed.

Lemma get_extends s o b off : extends s (omGetExternalConstantAddr s o b off).
Proof.
  unfold omGetExternalConstantAddr. destruct o as [o|], b as [b|]; try apply extends_refl.
  destruct (slot s o); try apply extends_refl. intros b' k H; auto.
Qed.

(** ** Histories without unloading *)
Definition isUnload (k : call) : bool := match k with Unload _ _ => true | _ => false end.
(** Whether a call may give a value to the global [c]. *)
Definition sets (c : nat) (k : call) : bool :=
  match k with
  | Load _ (Some c') _ _ _ | GetAddr (Some c') _ _ => Nat.eqb c' c
  | _ => false
  end.
Lemma runCall_no_unload pl k s : isUnload k = false ->
  exists r s', runCall pl k s = Some (r, s') /\ extends s s' /\ (forall c, slot s c <> PNull -> slot s' c = slot s c)
    /\ (forall c, sets c k = false -> slot s' c = slot s c).
Proof.
  destruct k as [e c fname size isLE|o b off|c size]; intros Hk; try discriminate; cbn [runCall].
  - destruct (load_extends pl e s c fname size isLE) as (r & s' & E & Hx & Ho). exists r, s'. repeat split; auto.
    + intros c0 Hc0. destruct c as [c|].
      2:{ apply Ho; congruence. }
      destruct (Nat.eq_dec c0 c) as [->|]; [|apply Ho; congruence].
      destruct (load_cases pl e s c fname size isLE) as [(f & Hf)|[[Hf _]|[_ Hf]]].
      * destruct Hf as (_ & Hf & _); congruence.
      * congruence.
      * congruence.
    + intros c0 Hc0. apply Ho. intros ->. cbn in Hc0. rewrite Nat.eqb_refl in Hc0. discriminate.
  - eexists; eexists; split; [reflexivity|]. split; [apply get_extends|].
    unfold omGetExternalConstantAddr; destruct o as [o|], b as [b|]; split; auto;
      destruct (slot s o) eqn:Eo; auto; intros c0 Hc0; apply slot_other; try (intros ->; congruence).
    intros ->. cbn in Hc0. rewrite Nat.eqb_refl in Hc0; discriminate.
Qed.

Lemma runCalls_no_unload pl ks : forall s, existsb isUnload ks = false ->
  exists rs s', runCalls pl ks s = Some (rs, s') /\ extends s s' /\ (forall c, slot s c <> PNull -> slot s' c = slot s c).
Proof.
  induction ks as [|k ks IH]; intros s H; cbn [runCalls].
  - exists [], s. repeat split; auto using extends_refl.
  - cbn in H. apply orb_false_iff in H. destruct H as (Hk & Hks).
    destruct (runCall_no_unload pl k s Hk) as (r & s1 & E & Hx & Hs & _). rewrite E. cbn [obind snd fst].
    destruct (IH s1 Hks) as (rs & s2 & E2 & Hx2 & Hs2). rewrite E2. cbn [obind snd fst].
    eexists; eexists; split; [reflexivity|]. split; [eapply extends_trans; eauto|].
    intros c Hc. rewrite Hs2, Hs; auto. rewrite Hs; auto.
Qed.

Lemma runCalls_app pl a : forall b s, runCalls pl (a ++ b) s =
  (x <- runCalls pl a s ;; y <- runCalls pl b (snd x) ;; Some (fst x ++ fst y, snd y)).
Proof.
  induction a as [|k a IH]; intros b s; cbn [app runCalls obind fst snd].
  - destruct (runCalls pl b s) as [[? ?]|]; reflexivity.
  - destruct (runCall pl k s) as [[r s1]|]; auto. cbn [obind fst snd]. rewrite IH.
    destruct (runCalls pl a s1) as [[ra s2]|]; auto. cbn [obind fst snd].
    destruct (runCalls pl b s2) as [[rb s3]|]; reflexivity.
Qed.

(** ** Threads *)
Definition okThread (s : state) (file : list Z) (size : Z) (c : nat) (t : thread) : Prop :=
  match t with
  | TStart _ | TTested _ => True
  | TMapped p => exists b k, p = PBlk b 0 /\ nth_error (heap s) b = Some k /\ bLive k = true /\ bData k = mapped file size
  | TAllocated _ _ => False
  | TDone true => slot s c <> PNull
  | TDone false => True
  end.
Definition okSlot (s : state) (file : list Z) (size : Z) (c : nat) : Prop :=
  slot s c = PNull \/ exists b k, slot s c = PBlk b 0 /\ nth_error (heap s) b = Some k /\ bLive k = true /\ bData k = mapped file size.

Lemma Forall_upd {A} (P : A -> Prop) n x l : Forall P l -> P x -> Forall P (upd n x l).
Proof. intros H Hx. revert n; induction H; intros n; destruct n; simpl; auto. Qed.
Lemma Forall_nth_error {A} (P : A -> Prop) n x l : Forall P l -> nth_error l n = Some x -> P x.
Proof. intros H E. apply nth_error_In in E. rewrite Forall_forall in H; auto. Qed.

Lemma threads_inv c file size sched : forall ts s,
  okSlot s file size c -> Forall (okThread s file size c) ts ->
  Forall (fun n => (n < length ts)%nat) sched ->
  exists ts' s', runThreads UseMmap c file size sched ts s = Some (ts', s')
    /\ okSlot s' file size c /\ Forall (okThread s' file size c) ts' /\ extends s s' /\ length ts' = length ts.
Proof.
  induction sched as [|n sched IH]; intros ts s Hs Ht Hn; cbn [runThreads].
  - exists ts, s. repeat split; auto using extends_refl.
  - inversion_clear Hn as [|? ? Hn1 Hn2].
    destruct (nth_error ts n) as [t|] eqn:Et; [|apply nth_error_None in Et; lia].
    pose proof (Forall_nth_error _ _ _ _ Ht Et) as Hok.
    assert (STEP : forall t' s1, extends s s1 -> okSlot s1 file size c -> okThread s1 file size c t' ->
              (slot s c <> PNull -> slot s1 c <> PNull) ->
              exists ts' s', runThreads UseMmap c file size sched (upd n t' ts) s1 = Some (ts', s')
                /\ okSlot s' file size c /\ Forall (okThread s' file size c) ts' /\ extends s s' /\ length ts' = length ts).
    { intros t' s1 Hx Hs1 Ht' Hnn.
      destruct (IH (upd n t' ts) s1) as (ts' & s' & E & H1 & H2 & H3 & H4); auto.
      - apply Forall_upd; auto. eapply Forall_impl; [|exact Ht].
        intros [e|e|p|e b|[|]]; cbn; auto. intros (b & k & -> & Hk & R). exists b, k. repeat split; try tauto. now apply Hx.
      - rewrite upd_length. auto.
      - exists ts', s'. repeat split; auto; [eapply extends_trans; eauto|]. rewrite H4. apply upd_length. }
    destruct t as [e|e|p|e b|ok]; cbn [threadStep].
    + destruct (slot s c) eqn:Es; cbn [obind fst snd]; apply STEP; auto using extends_refl; cbn; congruence.
    + destruct (mapPage e) as [pg|]; cbn [obind fst snd].
      * apply STEP.
        -- intros b k H; cbn. rewrite nth_error_app1; auto. apply nth_error_Some; congruence.
        -- destruct Hs as [Hs|(b & k & Hs & Hk & R)]; [left; auto|right].
           exists b, k. repeat split; try tauto. cbn. rewrite nth_error_app1; auto. apply nth_error_Some; congruence.
        -- cbn. eexists; eexists; split; [reflexivity|]. split; [apply nth_error_snoc|]. auto.
        -- auto.
      * apply STEP; auto using extends_refl.
    + cbn in Hok. destruct Hok as (b & k & -> & Hk & Hl & Hd). cbn [obind fst snd]. apply STEP.
      * intros b' k' H; auto.
      * right. exists b, k. rewrite slot_same. auto.
      * cbn. rewrite Nat.eqb_refl. discriminate.
      * rewrite slot_same. discriminate.
    + destruct Hok.
    + cbn [obind fst snd]. apply STEP; auto using extends_refl.
Qed.
