(** Proofs about the runtime sort. *)
From Coq Require Import List ZArith Lia Bool Arith Permutation Sorted.
From Verif Require Import Util TensorSpec TensorLemmas SortModel SortSpec.
Import ListNotations.
Open Scope Z_scope.

(** ** Swapping two cells *)
Lemma zget_len {A} (l : list A) i v : zget l i = Some v -> 0 <= i < Z.of_nat (length l).
Proof. intros H. apply zget_inv in H. tauto. Qed.

Lemma swap_spec l i j : 0 <= i < Z.of_nat (length l) -> 0 <= j < Z.of_nat (length l) ->
  exists l', swap l i j = Some l' /\ length l' = length l /\
    forall k, zget l' k = if k =? j then zget l i else if k =? i then zget l j else zget l k.
Proof.
  intros Hi Hj. unfold swap.
  destruct (zget_some l i Hi) as (a & Ea), (zget_some l j Hj) as (b & Eb). rewrite Ea, Eb. cbn [obind].
  rewrite zset_some by auto. cbn [obind]. rewrite zset_some by (rewrite upd_length; auto).
  eexists. split; [reflexivity|]. split; [now rewrite !upd_length|].
  intros k. rewrite zget_upd by (rewrite ?upd_length; lia). rewrite zget_upd by lia. reflexivity.
Qed.

Lemma swap_perm l i j l' : swap l i j = Some l' -> 0 <= i < Z.of_nat (length l) -> 0 <= j < Z.of_nat (length l) ->
  Permutation l l'.
Proof.
  intros E Hi Hj. destruct (swap_spec l i j Hi Hj) as (l2 & E2 & L & G). rewrite E in E2. injection E2 as <-.
  apply Permutation_nth_error. split; auto.
  exists (fun n => if (n =? Z.to_nat j)%nat then Z.to_nat i else if (n =? Z.to_nat i)%nat then Z.to_nat j else n).
  split.
  - intros x y. destruct (Nat.eqb_spec x (Z.to_nat j)), (Nat.eqb_spec x (Z.to_nat i)),
      (Nat.eqb_spec y (Z.to_nat j)), (Nat.eqb_spec y (Z.to_nat i)); lia.
  - intros n. specialize (G (Z.of_nat n)). rewrite zget_spec in G by lia. rewrite Nat2Z.id in G. rewrite G.
    destruct (Nat.eqb_spec n (Z.to_nat j)), (Z.eqb_spec (Z.of_nat n) j); try lia; [rewrite zget_spec by lia; auto|].
    destruct (Nat.eqb_spec n (Z.to_nat i)), (Z.eqb_spec (Z.of_nat n) i); try lia; [rewrite zget_spec by lia; auto|].
    rewrite zget_spec by lia. now rewrite Nat2Z.id.
Qed.

(** [moved lo hi l l']: [l'] permutes cells [lo..hi] of [l] and keeps the others. *)
Definition moved (lo hi : Z) (l l' : list Z) : Prop :=
  Permutation l l' /\
  (forall k, ~ (lo <= k <= hi) -> zget l' k = zget l k) /\
  (forall k, lo <= k <= hi -> exists k', lo <= k' <= hi /\ zget l' k = zget l k').

Lemma moved_refl lo hi l : moved lo hi l l.
Proof. split; auto. split; auto. intros k Hk. exists k. auto. Qed.

Lemma moved_trans lo hi l1 l2 l3 : moved lo hi l1 l2 -> moved lo hi l2 l3 -> moved lo hi l1 l3.
Proof.
  intros (P1 & O1 & I1) (P2 & O2 & I2). split; [eapply perm_trans; eauto|]. split.
  - intros k Hk. rewrite O2, O1; auto.
  - intros k Hk. destruct (I2 k Hk) as (k' & Hk' & E). destruct (I1 k' Hk') as (k2 & H2 & E2).
    exists k2. split; auto. congruence.
Qed.

Lemma moved_length lo hi l l' : moved lo hi l l' -> length l' = length l.
Proof. intros (P & _). symmetry. now apply Permutation_length. Qed.

Lemma swap_moved lo hi l i j : 0 <= lo -> hi < Z.of_nat (length l) -> lo <= i <= hi -> lo <= j <= hi ->
  exists l', swap l i j = Some l' /\ moved lo hi l l' /\
    forall k, zget l' k = if k =? j then zget l i else if k =? i then zget l j else zget l k.
Proof.
  intros H1 H2 Hi Hj. destruct (swap_spec l i j) as (l' & E & L & G); try lia. exists l'. split; auto. split; auto.
  split; [eapply swap_perm; eauto; lia|]. split.
  - intros k Hk. rewrite G. destruct (Z.eqb_spec k j), (Z.eqb_spec k i); auto; lia.
  - intros k Hk. rewrite G. destruct (Z.eqb_spec k j); [exists i; auto|]. destruct (Z.eqb_spec k i); [exists j; auto|].
    exists k. auto.
Qed.

(** ** Order of indices *)
Section Order.
Context {V : Type}.
Variables dir eqv : V -> V -> bool.

Variable data : list V.
Definition ok (i : Z) : Prop := 0 <= i < Z.of_nat (length data).

Notation before := (before dir eqv data).

Lemma compare_spec i j : ok i -> ok j ->
  exists c, compare dir eqv data i j = Some c /\ (c = -1 /\ before i j \/ c = 1 /\ ~ before i j).
Proof.
  intros Hi Hj. unfold compare, SortSpec.before.
  destruct (zget_some data i Hi) as (v & Ev), (zget_some data j Hj) as (w & Ew). rewrite Ev, Ew. cbn [obind].
  eexists. split; [reflexivity|]. destruct (dir v w) eqn:D; cbn [orb].
  - left. split; auto. exists v, w. auto.
  - destruct (eqv v w) eqn:E; cbn [andb].
    + destruct (Z.ltb_spec i j).
      * left. split; auto. exists v, w. auto.
      * right. split; auto. intros (v' & w' & E1 & E2 & [H1|[H1 H2]]); [|lia]. congruence.
    + right. split; auto. intros (v' & w' & E1 & E2 & [H1|[H1 H2]]); congruence.
Qed.

Hypothesis VO : value_order dir eqv.

Lemma eqv_sym x y : eqv x y = true -> eqv y x = true.
Proof. rewrite !(vo_eqv _ _ VO). tauto. Qed.
Lemma dir_eqv x y z : dir x y = true -> eqv y z = true -> dir x z = true.
Proof.
  intros H1 H2. destruct (dir x z) eqn:D; auto. exfalso. destruct (dir z x) eqn:D2.
  - assert (dir z y = true) by (eapply vo_trans; eauto). apply (vo_eqv _ _ VO) in H2. destruct H2. congruence.
  - assert (E : eqv x z = true) by (apply (vo_eqv _ _ VO); auto).
    assert (eqv x y = true) by (eapply vo_eqv_trans; eauto; now apply eqv_sym).
    apply (vo_eqv _ _ VO) in H. destruct H. congruence.
Qed.
Lemma eqv_dir x y z : eqv x y = true -> dir y z = true -> dir x z = true.
Proof.
  intros H1 H2. destruct (dir x z) eqn:D; auto. exfalso. destruct (dir z x) eqn:D2.
  - assert (dir y x = true) by (eapply vo_trans; eauto). apply (vo_eqv _ _ VO) in H1. destruct H1. congruence.
  - assert (E : eqv x z = true) by (apply (vo_eqv _ _ VO); auto).
    assert (eqv y z = true) by (eapply vo_eqv_trans; eauto; now apply eqv_sym).
    apply (vo_eqv _ _ VO) in H. destruct H. congruence.
Qed.

Lemma before_trans i j k : before i j -> before j k -> before i k.
Proof.
  intros (v & w & E1 & E2 & H1) (w' & x & E3 & E4 & H2). rewrite E2 in E3. injection E3 as <-.
  exists v, x. split; auto. split; auto.
  destruct H1 as [H1|[H1 L1]], H2 as [H2|[H2 L2]].
  - left. eapply vo_trans; eauto.
  - left. eapply dir_eqv; eauto.
  - left. eapply eqv_dir; eauto.
  - right. split; [eapply vo_eqv_trans; eauto|lia].
Qed.

Lemma before_irr i : ~ before i i.
Proof.
  intros (v & w & E1 & E2 & [H|[_ H]]); [|lia]. rewrite E1 in E2. injection E2 as <-. rewrite (vo_irr _ _ VO) in H. discriminate.
Qed.

Lemma before_total i j : ok i -> ok j -> i <> j -> ~ before i j -> before j i.
Proof.
  intros Hi Hj NE NB. destruct (zget_some data i Hi) as (v & Ev), (zget_some data j Hj) as (w & Ew).
  exists w, v. split; auto. split; auto.
  destruct (dir w v) eqn:D; auto. destruct (dir v w) eqn:D2.
  - exfalso. apply NB. exists v, w. auto.
  - assert (E : eqv v w = true) by (apply (vo_eqv _ _ VO); auto).
    right. split; [now apply eqv_sym|]. destruct (Z_lt_ge_dec i j); [|lia]. exfalso. apply NB. exists v, w. auto.
Qed.

(** ** Partition *)
Definition all_ok (idx : list Z) : Prop := Forall ok idx.

Lemma all_ok_get idx k v : all_ok idx -> zget idx k = Some v -> ok v.
Proof.
  intros H E. pose proof (zget_len _ _ _ E). rewrite zget_spec in E by lia. apply nth_error_In in E.
  unfold all_ok in H. rewrite Forall_forall in H. auto.
Qed.

Lemma all_ok_perm l l' : Permutation l l' -> all_ok l -> all_ok l'.
Proof. intros P H. eapply Permutation_Forall; eauto. Qed.

Lemma partition_loop n : forall begin end_ i j idx p,
  0 <= begin -> begin <= i -> i <= j -> j + Z.of_nat n = end_ -> end_ < Z.of_nat (length idx) -> all_ok idx ->
  zget idx end_ = Some p ->
  (forall a v, begin <= a < i -> zget idx a = Some v -> before v p) ->
  (forall a v, i <= a < j -> zget idx a = Some v -> ~ before v p) ->
  exists i' idx', foldM (partition_step dir eqv data end_) (zseq j n) (i, idx) = Some (i', idx') /\
    i <= i' <= end_ /\ moved begin (end_ - 1) idx idx' /\ zget idx' end_ = Some p /\
    (forall a v, begin <= a < i' -> zget idx' a = Some v -> before v p) /\
    (forall a v, i' <= a < end_ -> zget idx' a = Some v -> ~ before v p).
Proof.
  induction n; intros begin end_ i j idx p Hb Hi Hj HE HL HO HP HB HA.
  - exists i, idx. cbn [zseq foldM]. split; auto. split; [lia|]. split; [apply moved_refl|]. split; auto. split; auto.
    intros a v Ha. apply HA. lia.
  - cbn [zseq foldM]. unfold partition_step at 1.
    destruct (zget_some idx j) as (x & Ex); [lia|]. rewrite Ex, HP. cbn [obind].
    assert (ok x) by (eapply all_ok_get; eauto). assert (ok p) by (eapply all_ok_get; eauto).
    destruct (compare_spec x p) as (c & -> & HC); auto. cbn [obind].
    destruct HC as [[-> HC]|[-> HC]]; cbn [Z.leb Z.compare].
    + destruct (swap_moved begin (end_ - 1) idx i j) as (idx1 & E & M & G); try lia. rewrite E. cbn [obind].
      pose proof (moved_length _ _ _ _ M) as LM. pose proof M as (PM & OM & _).
      destruct (IHn begin end_ (i + 1) (j + 1) idx1 p) as (i' & idx' & F & R1 & R2 & R3 & R4 & R5); try lia.
      { eapply all_ok_perm; eauto. }
      { rewrite OM by lia. auto. }
      { intros a v Ha Ev. rewrite G in Ev. destruct (Z.eqb_spec a j) as [->|].
        - assert (i = j) by lia. subst i. rewrite Ex in Ev. injection Ev as <-. auto.
        - destruct (Z.eqb_spec a i); [rewrite Ex in Ev; injection Ev as <-; auto|]. eapply HB; eauto. lia. }
      { intros a v Ha Ev. rewrite G in Ev. destruct (Z.eqb_spec a j) as [->|].
        - eapply HA; [|exact Ev]. lia.
        - destruct (Z.eqb_spec a i); [lia|]. eapply HA; eauto. lia. }
      exists i', idx'. split; auto. split; [lia|]. split; [eapply moved_trans; eauto|]. auto.
    + destruct (IHn begin end_ i (j + 1) idx p) as (i' & idx' & F & R1 & R2 & R3 & R4 & R5); try lia; auto.
      { intros a v Ha Ev. destruct (Z.eq_dec a j) as [->|]; [rewrite Ex in Ev; injection Ev as <-; auto|].
        eapply HA; eauto. lia. }
      exists i', idx'. split; auto.
Qed.

Lemma moved_weaken lo hi lo' hi' l l' : lo' <= lo -> hi <= hi' -> moved lo hi l l' -> moved lo' hi' l l'.
Proof.
  intros H1 H2 (P & O & I). split; auto. split.
  - intros k Hk. apply O. lia.
  - intros k Hk. destruct (Z_lt_ge_dec k lo); [exists k; split; [lia|apply O; lia]|].
    destruct (Z_lt_ge_dec hi k); [exists k; split; [lia|apply O; lia]|].
    destruct (I k) as (k' & ? & E); [lia|]. exists k'. split; auto. lia.
Qed.

Lemma partition_spec r idx begin end_ : 0 <= begin < end_ -> end_ < Z.of_nat (length idx) -> all_ok idx ->
  NoDup idx ->
  exists i idx', quick_sort_partition dir eqv data r idx begin end_ = Some (i, idx') /\
    begin <= i <= end_ /\ moved begin end_ idx idx' /\
    (forall a b v w, begin <= a <= i -> i <= b <= end_ -> a < b -> zget idx' a = Some v -> zget idx' b = Some w -> before v w).
Proof.
  intros Hb HE HO ND. unfold quick_sort_partition.
  pose proof (Z.mod_pos_bound r (end_ - begin + 1) ltac:(lia)) as MB.
  destruct (swap_moved begin end_ idx (begin + r mod (end_ - begin + 1)) end_) as (idx1 & E1 & M1 & _); try lia.
  rewrite E1. cbn [obind]. pose proof (moved_length _ _ _ _ M1) as L1. pose proof M1 as (P1 & _).
  destruct (zget_some idx1 end_) as (p & EP); [lia|].
  destruct (partition_loop (Z.to_nat (end_ - begin)) begin end_ begin begin idx1 p) as (i & idx2 & E2 & R1 & M2 & EP2 & RB & RA);
    try lia; auto.
  { eapply all_ok_perm; eauto. }
  rewrite E2. cbn [obind]. pose proof (moved_length _ _ _ _ M2) as L2. pose proof M2 as (P2 & _).
  destruct (swap_moved begin end_ idx2 end_ i) as (idx3 & E3 & M3 & G); try lia. rewrite E3. cbn [obind].
  pose proof M3 as (P3 & _).
  exists i, idx3. split; auto. split; [lia|]. split.
  { eapply moved_trans; [exact M1|]. eapply moved_trans; [|exact M3]. eapply moved_weaken; [| |exact M2]; lia. }
  assert (O2 : all_ok idx2). { eapply all_ok_perm; eauto. eapply all_ok_perm; eauto. }
  assert (ND2 : NoDup idx2). { eapply Permutation_NoDup; [exact P2|]. eapply Permutation_NoDup; eauto. }
  assert (HI : zget idx3 i = Some p). { rewrite G, Z.eqb_refl. auto. }
  assert (LO : forall a v, begin <= a < i -> zget idx3 a = Some v -> before v p).
  { intros a v Ha Ev. rewrite G in Ev. destruct (Z.eqb_spec a i); [lia|]. destruct (Z.eqb_spec a end_); [lia|]. eauto. }
  assert (HIG : forall b w, i < b <= end_ -> zget idx3 b = Some w -> before p w).
  { intros b w Hb' Ew. rewrite G in Ew. destruct (Z.eqb_spec b i); [lia|].
    assert (exists b', i <= b' < end_ /\ zget idx2 b' = Some w) as (b' & Hb2 & Ew2).
    { destruct (Z.eqb_spec b end_); [exists i; split; auto; lia|exists b; split; auto; lia]. }
    apply before_total; eauto using all_ok_get.
    intros ->. rewrite zget_spec in Ew2 by lia. rewrite zget_spec in EP2 by lia.
    assert (Z.to_nat b' = Z.to_nat end_); [|lia].
    eapply NoDup_nth_error; eauto; [|congruence]. apply nth_error_Some. congruence. }
  intros a b v w Ha Hb' Hab Ev Ew.
  destruct (Z.eq_dec a i) as [->|], (Z.eq_dec b i) as [->|]; try lia.
  - rewrite HI in Ev. injection Ev as <-. apply (HIG b); auto. lia.
  - rewrite HI in Ew. injection Ew as <-. apply (LO a); auto. lia.
  - eapply before_trans; [apply (LO a); auto; lia|apply (HIG b); auto; lia].
Qed.

(** ** The stack loop *)
Definition seg_size (s : Z * Z) : Z := snd s - fst s + 1.

(** Position [k] from the bottom (0-based) holds a segment of size at most n / 2^k. *)
Fixpoint depth_ok (n : Z) (stack : list (Z * Z)) : Prop :=
  match stack with
  | [] => True
  | s :: st => seg_size s * 2 ^ Z.of_nat (length st) <= n /\ depth_ok n st
  end.

Definition disjoint (s t : Z * Z) : Prop := snd s < fst t \/ snd t < fst s.

Record inv (idx0 idx : list Z) (stack : list (Z * Z)) : Prop := {
  i_perm : Permutation idx0 idx;
  i_seg : Forall (fun s => 0 <= fst s <= snd s /\ snd s < Z.of_nat (length idx0)) stack;
  i_disj : ForallOrdPairs disjoint stack;
  i_depth : depth_ok (Z.of_nat (length idx0)) stack;
  i_sorted : forall a b v w, a < b -> zget idx a = Some v -> zget idx b = Some w ->
     before v w \/ exists s, In s stack /\ fst s <= a /\ b <= snd s
}.

Definition total (stack : list (Z * Z)) : Z := sumZ (map seg_size stack).

Lemma log2u_loop_spec fuel : forall n b, 0 < n -> n <= Z.of_nat fuel -> 
  log2u_loop fuel n b = b + Z.log2 n.
Proof.
  induction fuel; intros n b Hn Hf; [lia|]. cbn [log2u_loop]. destruct (Z.ltb_spec 1 n).
  - rewrite IHfuel.
    + replace (Z.log2 n) with (1 + Z.log2 (n / 2)); [ring|].
      change 2 with (2 ^ 1) at 1. rewrite <- (Z.shiftr_div_pow2 n 1) by lia. rewrite Z.log2_shiftr by lia.
      pose proof (Z.log2_pos n ltac:(lia)). lia.
    + apply Z.div_str_pos. lia.
    + assert (n / 2 < n) by (apply Z.div_lt; lia). lia.
  - assert (n = 1) by lia. subst. rewrite Z.log2_1. lia.
Qed.

Lemma log2u_spec n : 0 < n -> log2u n = Some (Z.log2 n).
Proof.
  intros Hn. unfold log2u. destruct (Z.ltb_spec 0 n); [|lia]. rewrite log2u_loop_spec by lia. f_equal.
Qed.

(** The depth invariant keeps the explicit stack within its bound. *)
Lemma push_ok n stack e : 0 < n -> depth_ok n (e :: stack) -> 1 <= seg_size e ->
  push ((Z.log2 (n + 1) + 2) * 2) stack e = Some (e :: stack).
Proof.
  intros Hn [H _] HS. unfold push.
  assert (2 ^ Z.of_nat (length stack) <= n).
  { pose proof (Z.pow_pos_nonneg 2 (Z.of_nat (length stack)) ltac:(lia) ltac:(lia)). nia. }
  assert (Z.of_nat (length stack) <= Z.log2 n) by (apply Z.log2_le_pow2; lia).
  assert (Z.log2 n <= Z.log2 (n + 1)) by (apply Z.log2_le_mono; lia).
  destruct (Z.leb_spec (2 * Z.of_nat (length stack)) ((Z.log2 (n + 1) + 2) * 2 - 2)); auto. lia.
Qed.

Lemma ForallOrdPairs_inv {A} (R : A -> A -> Prop) a l : ForallOrdPairs R (a :: l) -> Forall (R a) l /\ ForallOrdPairs R l.
Proof. inversion 1; auto. Qed.

Lemma pow_succ (k : nat) : 2 ^ Z.of_nat (S k) = 2 * 2 ^ Z.of_nat k.
Proof. rewrite Nat2Z.inj_succ, Z.pow_succ_r by lia. auto. Qed.

Lemma quick_sort_loop_spec idx0 : all_ok idx0 -> NoDup idx0 ->
  forall fuel rands idx stack, inv idx0 idx stack ->
  total stack < Z.of_nat fuel -> total stack <= Z.of_nat (length rands) ->
  exists idx', quick_sort_loop dir eqv fuel data rands ((Z.log2 (Z.of_nat (length idx0) + 1) + 2) * 2) idx stack = Some idx' /\
    inv idx0 idx' [].
Proof.
  intros HO ND. induction fuel; intros rands idx stack I HF HR.
  - destruct stack as [|[b e] stack].
    + exists idx. auto.
    + exfalso. destruct I. inversion i_seg0; subst. unfold total in *. cbn [map] in HF. rewrite sumZ_cons in HF.
      assert (0 <= sumZ (map seg_size stack)).
      { clear - H2. induction H2; cbn [map]; [unfold sumZ; simpl; lia|]. rewrite sumZ_cons. unfold seg_size at 1. lia. }
      unfold seg_size at 1 in HF. simpl in *. lia.
  - destruct stack as [|[b e] stack]; [exists idx; auto|]. cbn [quick_sort_loop].
    pose proof I as [IP IS ID IDP ISO]. inversion IS as [|? ? Hbe IS']; subst. cbn [fst snd] in Hbe.
    apply ForallOrdPairs_inv in ID as [ID1 ID2]. destruct IDP as [D1 D2]. unfold seg_size in D1. cbn [fst snd] in D1.
    assert (TOT : total ((b, e) :: stack) = (e - b + 1) + total stack).
    { unfold total. cbn [map]. rewrite sumZ_cons. reflexivity. }
    assert (TP : 0 <= total stack).
    { clear - IS'. unfold total. induction IS'; cbn [map]; [unfold sumZ; simpl; lia|]. rewrite sumZ_cons. unfold seg_size at 1. lia. }
    destruct (Z.ltb_spec b e) as [LT|GE].
    + destruct rands as [|r rands]; [simpl in HR; lia|].
      pose proof (Permutation_length IP) as LP.
      destruct (partition_spec r idx b e) as (i & idx1 & E & HI & M & HB); try lia.
      { eapply all_ok_perm; eauto. } { eapply Permutation_NoDup; eauto. }
      rewrite E. cbn [obind].
      set (n := Z.of_nat (length idx0)) in *.
      (* the new stack *)
      assert (PN : 0 < n) by (unfold n; lia).
      pose proof (Z.pow_pos_nonneg 2 (Z.of_nat (length stack)) ltac:(lia) ltac:(lia)) as PP.
      set (L := if b <? i - 1 then [(b, i - 1)] else []).
      set (R := if i + 1 <? e then [(i + 1, e)] else []).
      assert (ST : exists st', (if i - b >? e - i then
            stack2 <- (if b <? i - 1 then push ((Z.log2 (n + 1) + 2) * 2) stack (b, i - 1) else Some stack) ;;
            (if i + 1 <? e then push ((Z.log2 (n + 1) + 2) * 2) stack2 (i + 1, e) else Some stack2)
          else
            stack2 <- (if i + 1 <? e then push ((Z.log2 (n + 1) + 2) * 2) stack (i + 1, e) else Some stack) ;;
            (if b <? i - 1 then push ((Z.log2 (n + 1) + 2) * 2) stack2 (b, i - 1) else Some stack2)) = Some st' /\
          depth_ok n st' /\ (st' = R ++ L ++ stack \/ st' = L ++ R ++ stack)).
      { assert (K1 : forall s, 1 <= seg_size s -> seg_size s <= e - b + 1 -> depth_ok n (s :: stack)).
        { intros s S1 S2. split; auto. nia. }
        assert (K2 : forall s t, 1 <= seg_size s -> seg_size s <= e - b + 1 -> 2 * seg_size t <= e - b + 1 -> depth_ok n (t :: s :: stack)).
        { intros s t S1 S2 S3. split; [|now apply K1]. cbn [length]. rewrite pow_succ. nia. }
        unfold seg_size in K1, K2.
        rewrite Z.gtb_ltb. unfold L, R. destruct (Z.ltb_spec (e - i) (i - b)).
        - destruct (Z.ltb_spec b (i - 1)).
          + rewrite push_ok; auto; [| apply K1; cbn [fst snd]; lia | unfold seg_size; cbn [fst snd]; lia]. cbn [obind].
            destruct (Z.ltb_spec (i + 1) e).
            * rewrite push_ok; auto; [| apply K2; cbn [fst snd]; lia | unfold seg_size; cbn [fst snd]; lia].
              eexists. split; [reflexivity|]. split; [apply K2; cbn [fst snd]; lia|]. left; reflexivity.
            * eexists. split; [reflexivity|]. split; [apply K1; cbn [fst snd]; lia|]. left; reflexivity.
          + cbn [obind]. destruct (Z.ltb_spec (i + 1) e).
            * rewrite push_ok; auto; [| apply K1; cbn [fst snd]; lia | unfold seg_size; cbn [fst snd]; lia].
              eexists. split; [reflexivity|]. split; [apply K1; cbn [fst snd]; lia|]. left; reflexivity.
            * eexists. split; [reflexivity|]. split; auto.
        - destruct (Z.ltb_spec (i + 1) e).
          + rewrite push_ok; auto; [| apply K1; cbn [fst snd]; lia | unfold seg_size; cbn [fst snd]; lia]. cbn [obind].
            destruct (Z.ltb_spec b (i - 1)).
            * rewrite push_ok; auto; [| apply K2; cbn [fst snd]; lia | unfold seg_size; cbn [fst snd]; lia].
              eexists. split; [reflexivity|]. split; [apply K2; cbn [fst snd]; lia|]. right; reflexivity.
            * eexists. split; [reflexivity|]. split; [apply K1; cbn [fst snd]; lia|]. right; reflexivity.
          + cbn [obind]. destruct (Z.ltb_spec b (i - 1)).
            * rewrite push_ok; auto; [| apply K1; cbn [fst snd]; lia | unfold seg_size; cbn [fst snd]; lia].
              eexists. split; [reflexivity|]. split; [apply K1; cbn [fst snd]; lia|]. right; reflexivity.
            * eexists. split; [reflexivity|]. split; auto. }
      destruct ST as (st' & -> & DOK & SHAPE). cbn [obind].
      assert (MEM : forall s, In s st' <-> (In s L \/ In s R \/ In s stack)).
      { intros s. destruct SHAPE as [->| ->]; rewrite !in_app_iff; tauto. }
      assert (INL : forall s, In s L -> s = (b, i - 1) /\ b < i - 1).
      { unfold L. intros s. destruct (Z.ltb_spec b (i - 1)); simpl; [|tauto]. intros [<-|[]]. auto. }
      assert (INR : forall s, In s R -> s = (i + 1, e) /\ i + 1 < e).
      { unfold R. intros s. destruct (Z.ltb_spec (i + 1) e); simpl; [|tauto]. intros [<-|[]]. auto. }
      assert (SUBT : forall s, In s stack -> snd s < b \/ e < fst s).
      { intros s Hs. rewrite Forall_forall in ID1. destruct (ID1 s Hs); cbn [fst snd] in *; lia. }
      pose proof (moved_length _ _ _ _ M) as LM. destruct M as (PM & OM & IM).
      assert (TOT' : total st' <= (e - b) + total stack).
      { assert (total st' = total L + total R + total stack).
        { unfold total. destruct SHAPE as [->| ->]; rewrite !map_app, !sumZ_app; lia. }
        assert (total L <= i - b /\ total R <= e - i).
        { unfold L, R, total. destruct (Z.ltb_spec b (i - 1)), (Z.ltb_spec (i + 1) e); cbn [map]; rewrite ?sumZ_cons;
            unfold sumZ, seg_size; simpl; lia. }
        lia. }
      apply IHfuel; [|lia|cbn [length] in HR; lia].
      constructor.
      * eapply perm_trans; eauto.
      * apply Forall_forall. intros s Hs. apply MEM in Hs as [Hs|[Hs|Hs]].
        -- apply INL in Hs as [-> ?]. cbn [fst snd]. lia.
        -- apply INR in Hs as [-> ?]. cbn [fst snd]. lia.
        -- rewrite Forall_forall in IS'. auto.
      * assert (FL : forall s, In s L -> Forall (disjoint s) stack).
        { intros s Hs. apply INL in Hs as [-> ?]. apply Forall_forall. intros t Ht. apply SUBT in Ht.
          unfold disjoint. cbn [fst snd]. lia. }
        assert (FR : forall s, In s R -> Forall (disjoint s) stack).
        { intros s Hs. apply INR in Hs as [-> ?]. apply Forall_forall. intros t Ht. apply SUBT in Ht.
          unfold disjoint. cbn [fst snd]. lia. }
        assert (LR : forall s t, In s L -> In t R -> disjoint s t /\ disjoint t s).
        { intros s t Hs Ht. apply INL in Hs as [-> ?]. apply INR in Ht as [-> ?]. unfold disjoint. cbn [fst snd]. lia. }
        clear - ID2 FL FR LR SHAPE.
        destruct SHAPE as [->| ->]; unfold L, R in *; revert FL FR LR;
          destruct (b <? i - 1), (i + 1 <? e); intros FL FR LR; cbn [app] in *; auto; repeat apply FOP_cons; auto;
          try (apply FL; now left); try (apply FR; now left);
          (apply Forall_cons; [first [exact (proj1 (LR _ _ (or_introl eq_refl) (or_introl eq_refl)))|exact (proj2 (LR _ _ (or_introl eq_refl) (or_introl eq_refl)))]|]; first [apply FL; now left|apply FR; now left]).
      * auto.
      * intros a c v w Hac Ev Ew.
        (* where are a and c relative to [b, e]? *)
        assert (OLD : forall a' c', a' < c' -> ~ (b <= a' /\ c' <= e) ->
           zget idx a' = Some v -> zget idx c' = Some w -> (exists s, In s stack /\ fst s <= a' /\ c' <= snd s) \/ before v w).
        { intros a' c' H1 H2 H3 H4. destruct (ISO a' c' v w H1 H3 H4) as [?|(s & [<-|Hs] & Hf & Hl)]; auto.
          - cbn [fst snd] in *. lia.
          - left. exists s. auto. }
        destruct (Z_le_gt_dec b a) as [Ba|Ba], (Z_le_gt_dec a e) as [Ea|Ea],
                 (Z_le_gt_dec b c) as [Bc|Bc], (Z_le_gt_dec c e) as [Ec|Ec]; try lia.
        -- (* both inside *)
           destruct (Z_lt_ge_dec c i) as [C1|C1].
           ++ right. exists (b, i - 1). cbn [fst snd]. split; [|lia]. apply MEM. left. unfold L.
              destruct (Z.ltb_spec b (i - 1)); [now left|lia].
           ++ destruct (Z_lt_ge_dec i a) as [C2|C2].
              ** right. exists (i + 1, e). cbn [fst snd]. split; [|lia]. apply MEM. right; left. unfold R.
                 destruct (Z.ltb_spec (i + 1) e); [now left|lia].
              ** left. apply (HB a c); auto; lia.
        -- (* a inside, c after *)
           rewrite OM in Ew by lia. destruct (IM a) as (a' & Ha' & E'); [lia|]. rewrite E' in Ev.
           destruct (OLD a' c ltac:(lia) ltac:(lia) Ev Ew) as [(s & Hs & H1 & H2)|?]; auto.
           exfalso. apply SUBT in Hs. lia.
        -- (* both after *)
           rewrite OM in Ev by lia. rewrite OM in Ew by lia.
           destruct (OLD a c ltac:(lia) ltac:(lia) Ev Ew) as [(s & Hs & H1 & H2)|?]; auto.
           right. exists s. split; auto. apply MEM. auto.
        -- (* a before, c inside *)
           rewrite OM in Ev by lia. destruct (IM c) as (c' & Hc' & E'); [lia|]. rewrite E' in Ew.
           destruct (OLD a c' ltac:(lia) ltac:(lia) Ev Ew) as [(s & Hs & H1 & H2)|?]; auto.
           exfalso. apply SUBT in Hs. lia.
        -- (* a before, c after *)
           rewrite OM in Ev by lia. rewrite OM in Ew by lia.
           destruct (OLD a c ltac:(lia) ltac:(lia) Ev Ew) as [(s & Hs & H1 & H2)|?]; auto.
           right. exists s. split; auto. apply MEM. auto.
        -- (* both before *)
           rewrite OM in Ev by lia. rewrite OM in Ew by lia.
           destruct (OLD a c ltac:(lia) ltac:(lia) Ev Ew) as [(s & Hs & H1 & H2)|?]; auto.
           right. exists s. split; auto. apply MEM. auto.
    + apply IHfuel; try lia. constructor; auto. intros a c v w Hac Ev Ew.
      destruct (ISO a c v w Hac Ev Ew) as [?|(s & [<-|Hs] & H1 & H2)]; auto.
      * cbn [fst snd] in *. lia.
      * right. exists s. auto.
Qed.

(** ** Sorted permutations *)
Definition sorted_perm (idx idx' : list Z) : Prop := Permutation idx idx' /\ StronglySorted before idx'.

Lemma sorted_of_positions l : (forall a b v w, a < b -> zget l a = Some v -> zget l b = Some w -> before v w) ->
  StronglySorted before l.
Proof.
  induction l as [|x l IH]; intros H; constructor.
  - apply IH. intros a b v w Hab Ev Ew. apply (H (a + 1) (b + 1) v w); [lia| |].
    + pose proof (zget_len _ _ _ Ev). rewrite zget_spec in Ev |- * by lia. replace (Z.to_nat (a + 1)) with (S (Z.to_nat a)) by lia. auto.
    + pose proof (zget_len _ _ _ Ew). rewrite zget_spec in Ew |- * by lia. replace (Z.to_nat (b + 1)) with (S (Z.to_nat b)) by lia. auto.
  - apply Forall_forall. intros y Hy. apply In_nth_error in Hy as (n & Hn).
    apply (H 0 (Z.of_nat (S n)) x y); [lia|reflexivity|]. rewrite zget_spec by lia. rewrite Nat2Z.id. auto.
Qed.

Lemma quick_sort_custom_spec rands idx : idx <> [] -> all_ok idx -> NoDup idx -> (length idx <= length rands)%nat ->
  exists idx', quick_sort_custom dir eqv rands data idx = Some idx' /\ sorted_perm idx idx'.
Proof.
  intros NE HO ND HR. unfold quick_sort_custom.
  assert (LP : 0 < Z.of_nat (length idx)) by (destruct idx; [congruence|simpl; lia]).
  rewrite log2u_spec by lia. cbn [obind].
  rewrite push_ok; try lia.
  2:{ split; [|exact I]. unfold seg_size. cbn [fst snd length Z.of_nat]. rewrite Z.pow_0_r. lia. }
  2:{ unfold seg_size. cbn [fst snd]. lia. }
  cbn [obind].
  destruct (quick_sort_loop_spec idx HO ND (S (length idx)) rands idx [(0, Z.of_nat (length idx) - 1)]) as (idx' & E & IV).
  - constructor; auto.
    + repeat constructor; cbn [fst snd]; lia.
    + repeat constructor.
    + split; [|exact I]. unfold seg_size. cbn [fst snd length Z.of_nat]. rewrite Z.pow_0_r. lia.
    + intros a b v w Hab Ev Ew. right. exists (0, Z.of_nat (length idx) - 1). split; [now left|].
      apply zget_len in Ev, Ew. cbn [fst snd]. lia.
  - unfold total, seg_size. cbn [map fst snd]. rewrite sumZ_cons. unfold sumZ. simpl fold_right. lia.
  - unfold total, seg_size. cbn [map fst snd]. rewrite sumZ_cons. unfold sumZ. simpl fold_right. lia.
  - exists idx'. split; auto. destruct IV as [P _ _ _ S]. split; auto. apply sorted_of_positions.
    intros a b v w Hab Ev Ew. destruct (S a b v w Hab Ev Ew) as [?|(s & [] & _)]; auto.
Qed.
End Order.
