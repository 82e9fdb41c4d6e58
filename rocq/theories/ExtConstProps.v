(** Properties C23 and C51: loading external constants, and packing them. *)
From Coq Require Import String List ZArith Bool Lia Permutation.
From Verif Require Import Util ExtConstModel ExtConstSpec ExtConstProofs ExtConstPack.
Import ListNotations.
Open Scope Z_scope.
Open Scope list_scope.

(** An operating system for the examples: a little-endian machine with one file. *)
Definition okOS (file : list Z) (page : Z) (caps : nat -> option nat) : os :=
  {| sysLE := true; constantPath := None; mallocOk := true;
     fileAt := fun p => if String.eqb p "c.bin" then Some file else None;
     mapPage := Some page; memPage := Some page; readCap := caps |}.

(** C23: a load always returns, whatever the system does and whatever state it finds; it
    never disturbs memory that was readable nor another global. *)
Theorem C23_load_returns : forall pl e s c fname size isLE, exists r s',
  omLoadConstantData pl e s c fname size isLE = Some (r, s') /\ keeps s s'
  /\ forall c', c <> Some c' -> slot s' c' = slot s c'.
Proof.
  intros. destruct (load_extends pl e s c fname size isLE) as (r & s' & E & Hx & Ho).
  exists r, s'. split; [auto|]. split; [apply extends_keeps|]; auto.
Qed.

(** C23: on the platform that reads the file, a load that succeeds leaves the global
    pointing to a page-aligned copy of the first [size] bytes of the file, in order,
    however the reads were split, and the file has that many bytes. *)
Theorem C23_load_contents : forall e s c fname size isLE s',
  slot s c = PNull ->
  omLoadConstantData UseMalloc e s (Some c) fname size isLE = Some (true, s') ->
  exists file a, fileAt e (pathOf e fname) = Some file /\ 0 < size <= Z.of_nat (length file)
    /\ holds s' (slot s' c) (prefix size file) /\ address s' (slot s' c) a /\ a mod 4096 = 0.
Proof.
  intros e s c fname size isLE s' Hn H.
  destruct (load_true _ _ _ _ _ _ _ _ Hn H) as (file & pg & Ht & Hs & Hp & Hle & k & Hk & Hl & Ha & Hd).
  specialize (Hle eq_refl). destruct Ht as (Hpos & _ & _ & _ & Hfile).
  exists file, (bAddr k). split; [auto|]. split; [lia|]. rewrite Hs. split; [|split].
  - eapply holds_map; eauto. rewrite Hd. apply mapped_full. lia.
  - exists (length (heap s)), 0, k. repeat split; auto. lia.
  - rewrite Ha. unfold PAGESIZE_IN_BYTES. rewrite Z.mul_comm. apply Z.mod_mul. lia.
Qed.

(** C23: and it does succeed if the file is there and long enough, memory can be
    allocated, the byte order matches and no read fails. *)
Theorem C23_load_succeeds : forall pl e s c fname size isLE file page,
  slot s c = PNull -> 0 < size <= Z.of_nat (length file) ->
  (sysLE e = true <-> isLE mod 256 <> 0) ->
  (constantPath e = None \/ mallocOk e = true) -> fileAt e (pathOf e fname) = Some file ->
  mapPage e = Some page -> memPage e = Some page -> (forall i, readCap e i <> None) ->
  exists s', omLoadConstantData pl e s (Some c) fname size isLE = Some (true, s')
    /\ holds s' (slot s' c) (prefix size file).
Proof.
  intros pl e s c fname size isLE file page Hn Hsz Hle Hm Hf Hmap Hmem Hr.
  assert (Ht : willTry e s c fname size isLE file).
  { repeat split; auto; try lia.
    - unfold checkEndianness. destruct (Z.eqb_spec (isLE mod 256) 0); cbn; destruct (sysLE e); auto; tauto.
    - intros; destruct Hm; auto; contradiction. }
  rewrite (load_try pl e s c fname size isLE file Ht). destruct pl.
  - destruct (malloc_cases e s c file size ltac:(lia)) as [(pg & _ & _ & E)|[(pg & _ & [Hb|(j & Hb)] & _)|(Hb & _)]].
    + rewrite E. cbn [obind fst snd negb]. eexists; split; [reflexivity|]. rewrite slot_same.
      eapply holds_map; [cbn; apply nth_error_snoc|reflexivity|reflexivity].
    + lia.
    + destruct (Hr j Hb).
    + congruence.
  - unfold mmapAndReadFile. rewrite Hmap. cbn [obind fst snd negb]. eexists; split; [reflexivity|]. rewrite slot_same.
    eapply holds_map; [cbn; apply nth_error_snoc|reflexivity|]. cbn [bData mapBlock]. apply mapped_full. lia.
Qed.

(** C23: where the file is mapped, a load that succeeds shows the first [size] bytes of a
    file that has that many. *)
Theorem C23_map_contents : forall e s c fname size isLE s' file,
  slot s c = PNull ->
  omLoadConstantData UseMmap e s (Some c) fname size isLE = Some (true, s') ->
  fileAt e (pathOf e fname) = Some file -> size <= Z.of_nat (length file) ->
  holds s' (slot s' c) (prefix size file)
  /\ exists a, address s' (slot s' c) a /\ a mod 4096 = 0.
Proof.
  intros e s c fname size isLE s' file Hn H Hf Hle.
  destruct (load_true _ _ _ _ _ _ _ _ Hn H) as (f & pg & Ht & Hs & Hp & _ & k & Hk & Hl & Ha & Hd).
  destruct Ht as (Hpos & _ & _ & _ & Hfile). assert (f = file) as -> by congruence.
  rewrite Hs. split.
  - eapply holds_map; eauto. rewrite Hd. apply mapped_full. lia.
  - exists (bAddr k). split; [exists (length (heap s)), 0, k; repeat split; auto; lia|].
    rewrite Ha. unfold PAGESIZE_IN_BYTES. rewrite Z.mul_comm. apply Z.mod_mul. lia.
Qed.

(** C23: where the file is mapped, a load that fails changes nothing: the next load starts
    afresh. *)
Theorem C23_map_retry : forall e s c fname size isLE s',
  omLoadConstantData UseMmap e s c fname size isLE = Some (false, s') -> s' = s.
Proof.
  intros e s c fname size isLE s' H. destruct c as [c|]; [|cbn in H; congruence].
  destruct (load_cases UseMmap e s c fname size isLE) as [(f & Ht)|[[E _]|[_ E]]]; try congruence.
  rewrite (load_try _ _ _ _ _ _ _ _ Ht) in H. unfold mmapAndReadFile in H.
  destruct (mapPage e); cbn [obind fst snd negb] in H; congruence.
Qed.

(** C23: where the file is read, the same holds of every failure before the first read. *)
Theorem C23_read_retry : forall e s c fname size isLE s',
  omLoadConstantData UseMalloc e s (Some c) fname size isLE = Some (false, s') ->
  s' = s \/ (exists file, fileAt e (pathOf e fname) = Some file /\ memPage e <> None
             /\ (Z.of_nat (length file) < size \/ exists i, readCap e i = None)).
Proof.
  intros e s c fname size isLE s' H.
  destruct (load_cases UseMalloc e s c fname size isLE) as [(f & Ht)|[[E _]|[_ E]]]; try (left; congruence).
  rewrite (load_try _ _ _ _ _ _ _ _ Ht) in H.
  destruct Ht as (Hpos & _ & _ & _ & Hf).
  destruct (malloc_cases e s c f size ltac:(lia)) as [(pg & _ & _ & E)|[(pg & Hm & Hb & E)|(_ & E)]];
    rewrite E in H; cbn [obind fst snd negb] in H; try congruence.
  - right. exists f. repeat split; auto. congruence.
  - left. congruence.
Qed.

(** C23: over any history of loads and address lookups, of any globals, under any
    behaviour of the system, no call is undefined, and once a load of a global has
    succeeded its contents stay in place. *)
Theorem C23_history : forall pl before after h0 e c fname size isLE,
  existsb isUnload (before ++ after) = false ->
  exists rs s1 r s2 rs' s3,
    runCalls pl before (initial h0) = Some (rs, s1)
    /\ omLoadConstantData pl e s1 (Some c) fname size isLE = Some (r, s2)
    /\ runCalls pl after s2 = Some (rs', s3)
    /\ runCalls pl (before ++ Load e (Some c) fname size isLE :: after) (initial h0) = Some (rs ++ r :: rs', s3)
    /\ (slot s1 c = PNull -> r = true -> forall file, fileAt e (pathOf e fname) = Some file -> size <= Z.of_nat (length file) ->
        slot s3 c = slot s2 c /\ holds s3 (slot s3 c) (prefix size file)).
Proof.
  intros pl before after h0 e c fname size isLE Hu.
  rewrite existsb_app in Hu. apply orb_false_iff in Hu. destruct Hu as (Hb & Ha).
  destruct (runCalls_no_unload pl before (initial h0) Hb) as (rs & s1 & E1 & _ & _).
  destruct (load_extends pl e s1 (Some c) fname size isLE) as (r & s2 & E2 & Hx2 & _).
  destruct (runCalls_no_unload pl after s2 Ha) as (rs' & s3 & E3 & Hx3 & Hs3).
  exists rs, s1, r, s2, rs', s3. repeat (split; [assumption|]). split.
  - rewrite runCalls_app, E1. cbn [obind fst snd runCalls runCall]. rewrite E2. cbn [obind fst snd]. now rewrite E3.
  - intros Hn -> file Hf Hle.
    destruct (load_true _ _ _ _ _ _ _ _ Hn E2) as (f & pg & Ht & Hs & _ & _ & k & Hk & Hl & _ & Hd).
    destruct Ht as (Hpos & _ & _ & _ & Hf'). assert (f = file) as -> by congruence.
    assert (Es : slot s3 c = slot s2 c) by (apply Hs3; rewrite Hs; discriminate).
    split; [exact Es|]. rewrite Es, Hs.
    apply (extends_keeps s2 s3 Hx3). eapply holds_map; eauto. rewrite Hd. apply mapped_full; lia.
Qed.

(** C23: an address looked up in a loaded file gives the bytes at that offset. *)
Theorem C23_address : forall s out base offset n bs,
  slot s out = PNull -> holds s (slot s base) bs -> 0 <= offset -> (Z.to_nat offset + n <= length bs)%nat ->
  let s' := omGetExternalConstantAddr s (Some out) (Some base) offset in
  holds s' (slot s' out) (firstn n (skipn (Z.to_nat offset) bs)) /\ keeps s s'
  /\ forall c, c <> out -> slot s' c = slot s c.
Proof.
  intros s out base offset n bs Hn Hh Ho Hle s'.
  assert (K : keeps s s') by (apply extends_keeps, get_extends).
  split; [|split]; auto.
  - apply K. replace (slot s' out) with (ptrAdd (slot s base) offset).
    + apply holds_sub; auto.
    + unfold s'. cbn. rewrite Hn. now rewrite slot_same.
  - intros c Hc. unfold s'. cbn. rewrite Hn. now apply slot_other.
Qed.

(** C23: unloading gives back exactly the block the global points to. *)
Theorem C23_unload : forall s c size s' b, slot s c = PBlk b 0 ->
  omUnloadConstantData s (Some c) size = Some (true, s') ->
  dangling s' (slot s' c) /\ (forall c', slot s' c' = slot s c')
  /\ forall b' off bs, b' <> b -> holds s (PBlk b' off) bs -> holds s' (PBlk b' off) bs.
Proof.
  intros s c size s' b Hs H. unfold omUnloadConstantData in H. rewrite Hs in H.
  unfold free in H. destruct (nth_error (heap s) b) as [k|] eqn:Ek; [|discriminate].
  destruct (bLive k); [|discriminate]. cbn [obind] in H. injection H as <-. cbn [slot setHeap].
  split; [|split]; auto.
  - rewrite Hs. do 3 eexists. split; [reflexivity|]. split; [cbn; apply nth_error_upd_same|reflexivity].
    apply nth_error_Some; congruence.
  - intros b' off bs Hb (b0 & off0 & k0 & E & Ho & Hk & R). injection E as <- <-.
    exists b', off, k0. repeat split; try tauto. cbn. rewrite nth_error_upd_other; auto.
Qed.

(** C23: where the file is mapped, any number of threads may load the same constant: under
    every schedule, every load that has returned true finds the file's contents. *)
Theorem C23_threads : forall c file size sched es h0,
  0 < size <= Z.of_nat (length file) ->
  Forall (fun n => (n < length es)%nat) sched ->
  exists ts s, runThreads UseMmap c file size sched (map TStart es) (initial h0) = Some (ts, s)
    /\ length ts = length es
    /\ (In (TDone true) ts -> holds s (slot s c) (prefix size file)).
Proof.
  intros c file size sched es h0 Hsz Hn.
  destruct (threads_inv c file size sched (map TStart es) (initial h0)) as (ts & s & E & H1 & H2 & _ & H4).
  - left; reflexivity.
  - apply Forall_forall. intros t Hin. apply in_map_iff in Hin. destruct Hin as (e & <- & _). exact I.
  - eapply Forall_impl; [|exact Hn]. intros; now rewrite map_length.
  - exists ts, s. split; [auto|]. split; [now rewrite map_length in H4|]. intros Hin.
    rewrite Forall_forall in H2. specialize (H2 _ Hin). cbn in H2.
    destruct H1 as [H1|(b & k & H1 & Hk & Hl & Hd)]; [contradiction|].
    rewrite H1. eapply holds_map; eauto. rewrite Hd. apply mapped_full. lia.
Qed.

(** Non-vacuity: a file of seven bytes read in pieces of at most three, two and one. *)
Definition pieces (i : nat) : option nat := Some (match i with O => 2 | 1 => 1 | _ => 0 end)%nat.
Definition bytes7 : list Z := [10; 20; 30; 40; 50; 60; 70].
Example C23_load_example : exists s',
  omLoadConstantData UseMalloc (okOS bytes7 5 pieces) (initial []) (Some 0%nat) "c.bin" 7 1 = Some (true, s')
  /\ map bData (heap s') = [map Some bytes7] /\ slot s' 0%nat = PBlk 0 0.
Proof. eexists. split; [vm_compute; reflexivity|]. split; reflexivity. Qed.
Example C23_threads_example : exists s,
  runThreads UseMmap 0%nat bytes7 7 [0; 1; 1; 0; 0; 1; 2]%nat (map TStart [okOS bytes7 5 pieces; okOS bytes7 9 pieces; okOS bytes7 11 pieces]) (initial [])
  = Some ([TDone true; TDone true; TDone true], s).
Proof. eexists. vm_compute. reflexivity. Qed.

(** C23 is false where the file is read (z/OS): a read that fails, for instance one
    interrupted by a signal, frees the buffer but leaves the pointer, so the next load
    reports success with memory that has been given back. *)
Theorem C23_retry_refuted : exists e1 e2 s1 s2,
  let load e s := omLoadConstantData UseMalloc e s (Some 0%nat) "c.bin" 7 1 in
  load e1 (initial []) = Some (false, s1) /\ load e2 s1 = Some (true, s2) /\ dangling s2 (slot s2 0%nat)
  /\ fileAt e2 "c.bin" = Some bytes7 /\ (forall i, readCap e2 i <> None) /\ omUnloadConstantData s2 (Some 0%nat) 7 = None.
Proof.
  exists (okOS bytes7 5 (fun i => if Nat.eqb i 1 then None else pieces i)), (okOS bytes7 6 pieces).
  eexists; eexists. cbv zeta. split; [vm_compute; reflexivity|]. split; [vm_compute; reflexivity|].
  split; [|split; [reflexivity|split; [discriminate|reflexivity]]].
  do 3 eexists. split; [vm_compute; reflexivity|]. split; reflexivity.
Qed.

(** C23 is false where the file is mapped: a file that has been cut short loads without
    error, and the missing bytes cannot be read or read as zero. *)
Theorem C23_truncated_refuted : exists s',
  omLoadConstantData UseMmap (okOS bytes7 5 pieces) (initial []) (Some 0%nat) "c.bin" 4098 1 = Some (true, s')
  /\ exists k, nth_error (heap s') 0 = Some k /\ nth_error (bData k) 7 = Some (Some 0)
     /\ nth_error (bData k) 4096 = Some None.
Proof.
  eexists. split; [vm_compute; reflexivity|]. eexists. split; [reflexivity|].
  split; vm_compute; reflexivity.
Qed.

(** C23 is false after unloading: the pointer is kept, so a new load reports success with
    memory that has been given back, and unloading again is undefined. *)
Theorem C23_unload_refuted : forall pl, exists s1 s2 s3,
  let load s := omLoadConstantData pl (okOS bytes7 5 pieces) s (Some 0%nat) "c.bin" 7 1 in
  load (initial []) = Some (true, s1) /\ omUnloadConstantData s1 (Some 0%nat) 7 = Some (true, s2)
  /\ load s2 = Some (true, s3) /\ dangling s3 (slot s3 0%nat) /\ omUnloadConstantData s3 (Some 0%nat) 7 = None.
Proof.
  intros [|]; eexists; eexists; eexists; cbv zeta; (split; [vm_compute; reflexivity|]);
    (split; [vm_compute; reflexivity|]); (split; [vm_compute; reflexivity|]); (split; [|vm_compute; reflexivity]);
    do 3 eexists; (split; [vm_compute; reflexivity|]); split; reflexivity.
Qed.

(** C23 is false of an address looked up before the file is loaded: it is never looked up
    again. *)
Theorem C23_early_address_refuted : exists s1 s2,
  let s0 := omGetExternalConstantAddr (initial []) (Some 1%nat) (Some 0%nat) 2 in
  omLoadConstantData UseMmap (okOS bytes7 5 pieces) s0 (Some 0%nat) "c.bin" 7 1 = Some (true, s1)
  /\ omGetExternalConstantAddr s1 (Some 1%nat) (Some 0%nat) 2 = s2 /\ slot s2 1%nat = PWild 2.
Proof. eexists; eexists; cbv zeta. split; [vm_compute; reflexivity|]. split; reflexivity. Qed.

(** C23 is false of threads where the file is read: a second load returns before the first
    has read anything. *)
Theorem C23_threads_refuted : exists ts s,
  runThreads UseMalloc 0%nat bytes7 7 [0; 0; 1]%nat (map TStart [okOS bytes7 5 pieces; okOS bytes7 9 pieces]) (initial [])
    = Some (ts, s)
  /\ nth_error ts 1 = Some (TDone true) /\ ~ holds s (slot s 0%nat) (prefix 7 bytes7).
Proof.
  eexists; eexists. split; [vm_compute; reflexivity|]. split; [reflexivity|].
  intros (b & off & k & E & _ & Hk & _ & _ & Hi). injection E as <- <-. injection Hk as <-.
  specialize (Hi 0%nat ltac:(vm_compute; lia)). vm_compute in Hi. discriminate.
Qed.

(** ** C51: constants moved to a file *)

(** The constants that are moved. *)
Definition movable (single : Z) (k : konst) : Prop :=
  kReturned k = false /\ kBool k = false /\ kSplat k = false /\ kRaw k <> [] /\ single < Z.of_nat (length (kRaw k)).

Lemma ofInterest_movable single k : 0 <= single -> (ofInterest single k = true <-> movable single k).
Proof.
  intros Hs. unfold ofInterest, movable.
  rewrite !andb_true_iff, !negb_true_iff, orb_false_iff, Z.leb_gt, Nat.eqb_neq.
  assert (E : kRaw k <> [] <-> length (kRaw k) <> 0%nat) by (destruct (kRaw k); cbn; split; congruence).
  rewrite E. tauto.
Qed.

(** C51: the file holds each constant of the module that is movable, and only those, once
    each, at the offset recorded for it; the recorded offsets respect the alignments, the
    constants do not overlap, and the recorded size is the file's. This holds for whatever
    order the sort leaves. *)
Theorem C51_file : forall single thr module sorted p,
  0 <= single -> Permutation sorted (filter (ofInterest single) module) ->
  extractConstantsToFile single thr module sorted [] = Some p ->
  pSize p = Z.of_nat (length (pFile p))
  /\ (forall k, In k (map fst (pOffsets p)) <-> In k module /\ movable single k)
  /\ Permutation (map fst (pOffsets p)) (filter (ofInterest single) module)
  /\ (forall k o, In (k, o) (pOffsets p) ->
        0 <= o /\ firstn (length (kRaw k)) (skipn (Z.to_nat o) (pFile p)) = kRaw k
        /\ (forall a, kAlign k = Some a -> 0 < a -> o mod a = 0))
  /\ (forall i j x y, (i < j)%nat -> nth_error (pOffsets p) i = Some x -> nth_error (pOffsets p) j = Some y ->
        snd x + Z.of_nat (length (kRaw (fst x))) <= snd y).
Proof.
  intros single thr module sorted p Hs Hp H.
  destruct (extract_spec _ _ _ _ _ _ H) as (H1 & H2 & H3 & H4 & H5 & _).
  assert (P : Permutation (map fst (pOffsets p)) (filter (ofInterest single) module)).
  { rewrite H5. rewrite <- Hp. apply Permutation_sym, Permutation_rev. }
  split; [rewrite H2; cbn; lia|]. split; [|split; [exact P|split]].
  - intros k. rewrite <- ofInterest_movable by auto. rewrite <- filter_In. split; apply Permutation_in; auto using Permutation_sym.
  - intros k o Hin. destruct (H3 k o Hin) as (A & _ & B & C). repeat split; auto.
    intros a Ha Hpos. unfold alignOf in B. rewrite Ha in B. auto.
  - intros; eapply H4; eauto.
Qed.

(** C51: when the compiled library is loaded with that file in place, either every moved
    constant's pointer gives that constant's bytes, aligned as asked for if the alignment
    divides the page size, or the load reports failure and every pointer stays null. *)
Theorem C51_run_time : forall pl single thr module sorted p e fname isLE h0,
  Permutation sorted (filter (ofInterest single) module) ->
  extractConstantsToFile single thr module sorted [] = Some p ->
  fileAt e (pathOf e fname) = Some (pFile p) ->
  exists s, loadConstantDataCtor pl e fname isLE p (initial h0) = Some s
  /\ ((forall i k o, nth_error (pOffsets p) i = Some (k, o) ->
         holds s (slot s (S i)) (kRaw k)
         /\ exists a, address s (slot s (S i)) a /\ forall al, kAlign k = Some al -> 0 < al -> (al | 4096) -> a mod al = 0)
      \/ (exists s0, omLoadConstantData pl e (initial h0) (Some 0%nat) fname (pSize p) isLE = Some (false, s0)
          /\ forall i, slot s (S i) = PNull)).
Proof.
  intros pl single thr module sorted p e fname isLE h0 Hp H Hf.
  destruct (extract_spec _ _ _ _ _ _ H) as (H1 & H2 & H3 & H4 & H5 & _).
  unfold loadConstantDataCtor.
  destruct (load_extends pl e (initial h0) (Some 0%nat) fname (pSize p) isLE) as (r & s0 & E & _ & Ho).
  rewrite E. cbn [obind fst snd]. destruct r.
  2:{ exists s0. split; [auto|]. right. exists s0. split; [auto|]. intros i. rewrite Ho; [reflexivity|congruence]. }
  eexists; split; [reflexivity|]. left. intros i k o Hi.
  destruct (load_true _ _ (initial h0) 0%nat _ _ _ _ eq_refl E) as (f & pg & Ht & Hs & _ & _ & kb & Hk & Hl & Ha & Hd).
  destruct Ht as (_ & _ & _ & _ & Hf'). assert (f = pFile p) as -> by congruence. clear Hf'.
  destruct (H3 k o (nth_error_In _ _ Hi)) as (A1 & A2 & A3 & A4). unfold lenZ in *. cbn in H2, A4.
  set (s := getAddrs _ _ _).
  assert (Es : slot s (S i) = ptrAdd (slot s0 0%nat) o).
  { apply (getAddrs_slot _ 1 s0 i o); [lia| |].
    - rewrite nth_error_map, Hi. reflexivity.
    - rewrite Ho by discriminate. reflexivity. }
  assert (Hh : heap s = heap s0) by apply getAddrs_heap.
  rewrite Es. split.
  - rewrite <- A4.
    assert (B : holds s (slot s0 0%nat) (pFile p)).
    { rewrite Hs. eapply holds_map; [rewrite Hh; exact Hk|exact Hl|]. rewrite Hd, mapped_full by lia.
      unfold prefix. rewrite firstn_all2 by lia. reflexivity. }
    apply holds_sub; auto. lia.
  - rewrite Hs. exists (bAddr kb + o). split.
    + exists (length (heap (initial h0))), o, kb. repeat split; auto. now rewrite Hh.
    + intros al Hal Hpos Hdiv. unfold alignOf in A3. rewrite Hal in A3. specialize (A3 Hpos).
      rewrite Ha. unfold PAGESIZE_IN_BYTES. destruct Hdiv as (q & ->).
      rewrite Z.add_mod, A3, Z.add_0_r, Z.mod_mod by lia.
      replace (q * al * pg) with (q * pg * al) by ring. apply Z.mod_mul. lia.
Qed.

(** C51: with no more bytes to move than the threshold, nothing is moved. *)
Theorem C51_threshold : forall single thr module sorted old p,
  extractConstantsToFile single thr module sorted old = Some p ->
  thr < sumZ (map (fun k => Z.of_nat (length (kRaw k))) (filter (ofInterest single) module)).
Proof. intros. now destruct (extract_spec _ _ _ _ _ _ H) as (_ & _ & _ & _ & _ & _ & ?). Qed.

(** C51: unloading the library gives the file's memory back and nothing else. *)
Theorem C51_unload : forall pl single thr module sorted p e fname isLE h0 s,
  extractConstantsToFile single thr module sorted [] = Some p ->
  loadConstantDataCtor pl e fname isLE p (initial h0) = Some s ->
  (exists s0, omLoadConstantData pl e (initial h0) (Some 0%nat) fname (pSize p) isLE = Some (true, s0)) ->
  exists s', unloadConstantDataDtor p s = Some s' /\ dangling s' (slot s' 0%nat)
    /\ forall b off bs, (b < length h0)%nat -> holds s (PBlk b off) bs -> holds s' (PBlk b off) bs.
Proof.
  intros pl single thr module sorted p e fname isLE h0 s H Hc (s0 & E).
  unfold loadConstantDataCtor in Hc. rewrite E in Hc. cbn [obind fst snd] in Hc. injection Hc as <-.
  destruct (load_true _ _ (initial h0) 0%nat _ _ _ _ eq_refl E) as (f & pg & Ht & Hs & _ & _ & kb & Hk & Hl & Ha & Hd).
  set (s := getAddrs _ _ _) in *.
  assert (Hh : heap s = heap s0) by apply getAddrs_heap.
  assert (H0 : slot s 0%nat = PBlk (length h0) 0) by (unfold s; rewrite getAddrs_low by lia; exact Hs).
  unfold unloadConstantDataDtor.
  destruct (omUnloadConstantData s (Some 0%nat) (pSize p)) as [[r s']|] eqn:Eu.
  - assert (r = true) as ->.
    { unfold omUnloadConstantData in Eu. rewrite H0 in Eu. destruct (free s (length h0)); cbn in Eu; congruence. }
    destruct (C23_unload _ _ _ _ _ H0 Eu) as (D & _ & K). exists s'. split; [reflexivity|]. split; [auto|].
    intros b off bs Hb. apply K. lia.
  - exfalso. unfold omUnloadConstantData, free in Eu. rewrite H0, Hh in Eu. cbn [heap initial] in Hk. rewrite Hk, Hl in Eu. discriminate.
Qed.

(** Non-vacuity: three constants, two of them moved, with alignments 16 and none. *)
Definition kA : konst := {| kName := "a"; kRaw := [1; 2; 3; 4; 5]; kAlign := None; kReturned := false; kBool := false; kSplat := false |}.
Definition kB : konst := {| kName := "b"; kRaw := [6; 7; 8]; kAlign := Some 4; kReturned := false; kBool := false; kSplat := false |}.
Definition kC : konst := {| kName := "c"; kRaw := [9; 9; 9; 9]; kAlign := Some 4; kReturned := false; kBool := false; kSplat := true |}.
Definition kD : konst := {| kName := "d"; kRaw := [11; 12; 13]; kAlign := Some 4; kReturned := false; kBool := false; kSplat := false |}.
Definition packABD : packed :=
  {| pFile := [11; 12; 13; 0; 6; 7; 8; 1; 2; 3; 4; 5]; pSize := 12; pOffsets := [(kD, 0); (kB, 4); (kA, 7)] |}.
Example C51_example :
  Permutation [kA; kB; kD] (filter (ofInterest 2) [kA; kB; kC; kD]) /\
  extractConstantsToFile 2 10 [kA; kB; kC; kD] [kA; kB; kD] [] = Some packABD
  /\ exists s, loadConstantDataCtor UseMmap (okOS (pFile packABD) 3 pieces) "c.bin" 1 packABD (initial []) = Some s
     /\ map (slot s) [0; 1; 2; 3; 4]%nat = [PBlk 0 0; PBlk 0 0; PBlk 0 4; PBlk 0 7; PNull].
Proof.
  split; [vm_compute; apply Permutation_refl|]. split; [vm_compute; reflexivity|].
  eexists. split; [vm_compute; reflexivity|]. vm_compute. reflexivity.
Qed.

(** C51 is false of an alignment larger than a page: the offset is aligned but the address
    need not be. *)
Definition kBig : konst := {| kName := "big"; kRaw := [1; 2; 3]; kAlign := Some 8192; kReturned := false; kBool := false; kSplat := false |}.
Theorem C51_alignment_refuted : exists p s a,
  extractConstantsToFile 2 2 [kBig] [kBig] [] = Some p
  /\ loadConstantDataCtor UseMmap (okOS (pFile p) 1 pieces) "c.bin" 1 p (initial []) = Some s
  /\ address s (slot s 1%nat) a /\ a mod 8192 <> 0.
Proof.
  do 3 eexists. split; [vm_compute; reflexivity|]. split; [vm_compute; reflexivity|]. split.
  - do 3 eexists. split; [vm_compute; reflexivity|]. split; [reflexivity|]. reflexivity.
  - vm_compute. discriminate.
Qed.

(** C51 is false if an older file could not be removed: the new constants are appended to
    it but their offsets are counted from its start. *)
Theorem C51_old_file_refuted : exists p s,
  extractConstantsToFile 2 2 [kA] [kA] bytes7 = Some p
  /\ loadConstantDataCtor UseMmap (okOS (pFile p) 1 pieces) "c.bin" 1 p (initial []) = Some s
  /\ holds s (slot s 1%nat) [10; 20; 30; 40; 50] /\ ~ holds s (slot s 1%nat) (kRaw kA).
Proof.
  do 2 eexists. split; [vm_compute; reflexivity|]. split; [vm_compute; reflexivity|]. split.
  - do 3 eexists. split; [vm_compute; reflexivity|]. split; [lia|]. split; [reflexivity|]. split; [reflexivity|].
    split; [cbn; lia|]. intros i Hi. cbn in Hi. do 5 (destruct i as [|i]; [reflexivity|]). lia.
  - intros (b & off & k & E & _ & Hk & _ & _ & Hi). vm_compute in E. injection E as <- <-. injection Hk as <-.
    specialize (Hi 0%nat ltac:(vm_compute; lia)). vm_compute in Hi. discriminate.
Qed.

Print Assumptions C23_load_returns.
Print Assumptions C23_load_contents.
Print Assumptions C23_load_succeeds.
Print Assumptions C23_map_contents.
Print Assumptions C23_map_retry.
Print Assumptions C23_read_retry.
Print Assumptions C23_history.
Print Assumptions C23_address.
Print Assumptions C23_unload.
Print Assumptions C23_threads.
Print Assumptions C51_file.
Print Assumptions C51_run_time.
Print Assumptions C51_unload.
