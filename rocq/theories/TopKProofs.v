(** Proofs about the runtime TopK and the loop over slices. *)
From Coq Require Import List ZArith Lia Bool Arith Permutation Sorted.
From Verif Require Import Util TensorSpec TensorLemmas OMTensorLayoutModel OMTensorLayoutProofs SortModel SortSpec SortProofs.
Import ListNotations.
Open Scope Z_scope.

Lemma nth_error_firstn_lt {A} (l : list A) n i : (i < n)%nat -> nth_error (firstn n l) i = nth_error l i.
Proof. revert n i; induction l; intros [|n] [|i] H; simpl; auto; try lia. apply IHl. lia. Qed.
Lemma nth_error_skipn' {A} (l : list A) n i : nth_error (skipn n l) i = nth_error l (n + i).
Proof. revert n; induction l; intros [|n]; simpl; auto. now destruct i. Qed.

Lemma NoDup_app_l' {A} (l l' : list A) : NoDup (l ++ l') -> NoDup l.
Proof.
  induction l; simpl; intros H; constructor; inversion H; subst; auto. intros HI. apply H2. apply in_or_app. auto.
Qed.

(** ** Heap *)
Section Heap.
Context {V : Type}.
Variables dir eqv : V -> V -> bool.
Variable data : list V.
Hypothesis VO : value_order dir eqv.
Notation hb := (before dir eqv data).
Notation ok := (ok data).

Definition child (i c : Z) : Prop := c = 2 * i + 1 \/ c = 2 * i + 2.

Definition heap_ok (h : list Z) (start end_ : Z) : Prop :=
  forall i c x y, start <= i -> child i c -> c <= end_ -> zget h i = Some x -> zget h c = Some y -> hb x y.

Lemma total' h a b x y : Forall ok h -> NoDup h -> zget h a = Some x -> zget h b = Some y -> a <> b -> ~ hb x y -> hb y x.
Proof.
  intros HO ND E1 E2 NE NB. apply before_total; auto; try (eapply all_ok_get; eauto).
  intros ->. pose proof (zget_len _ _ _ E1). pose proof (zget_len _ _ _ E2).
  rewrite zget_spec in E1, E2 by lia. assert (Z.to_nat a = Z.to_nat b); [|lia].
  eapply NoDup_nth_error; eauto; [|congruence]. apply nth_error_Some. congruence.
Qed.

Lemma sift_down_spec fuel : forall h start root end_,
  0 <= start <= root -> end_ < Z.of_nat (length h) -> Forall ok h -> NoDup h ->
  end_ - root < Z.of_nat fuel ->
  (forall i c x y, start <= i -> i <> root -> child i c -> c <= end_ -> zget h i = Some x -> zget h c = Some y -> hb x y) ->
  (forall q c x y, start <= q -> child q root -> child root c -> c <= end_ -> zget h q = Some x -> zget h c = Some y -> hb x y) ->
  exists h', heap_sift_down dir eqv fuel data h root end_ = Some h' /\ moved start end_ h h' /\ heap_ok h' start end_.
Proof.
  induction fuel; intros h start root end_ Hs He HO ND HF I1 I2.
  - cbn [heap_sift_down]. destruct (Z.leb_spec (root * 2 + 1) end_); [lia|].
    exists h. split; auto. split; [apply moved_refl|]. intros i c x y H1 H2 H3 H4 H5.
    eapply I1; eauto. unfold child in H2. lia.
  - cbn [heap_sift_down]. destruct (Z.leb_spec (root * 2 + 1) end_) as [HL|HL].
    2:{ exists h. split; auto. split; [apply moved_refl|]. intros i c x y H1 H2 H3 H4 H5.
        eapply I1; eauto. unfold child in H2. lia. }
    destruct (zget_some h root) as (x & Ex); [lia|]. destruct (zget_some h (root * 2 + 1)) as (c & Ec); [lia|].
    rewrite Ex, Ec. cbn [obind].
    assert (Ox : ok x) by (eapply all_ok_get; eauto). assert (Oc : ok c) by (eapply all_ok_get; eauto).
    destruct (compare_spec dir eqv data x c) as (c1 & -> & HC1); auto. cbn [obind].
    set (s1 := if 0 <? c1 then root * 2 + 1 else root).
    (* the first selection: the smaller of root and left child *)
    assert (S1 : exists v1, zget h s1 = Some v1 /\ (s1 = root \/ s1 = root * 2 + 1) /\
        (s1 = root -> hb v1 c) /\ (s1 = root * 2 + 1 -> hb v1 x)).
    { unfold s1. destruct HC1 as [[-> B]|[-> B]]; cbn [Z.ltb Z.compare].
      - exists x. repeat split; auto; intros; try lia.
      - exists c. repeat split; auto; intros; try lia. eapply (total' h root (root * 2 + 1)); eauto. lia. }
    clearbody s1. destruct S1 as (v1 & Ev1 & Hs1 & A1 & A2).
    assert (S2 : exists s2 v2, (if root * 2 + 1 + 1 <=? end_
        then a <- zget h s1 ;; b <- zget h (root * 2 + 1 + 1) ;; cmp2 <- compare dir eqv data a b ;;
             Some (if 0 <? cmp2 then root * 2 + 1 + 1 else s1) else Some s1) = Some s2 /\ zget h s2 = Some v2 /\
        (s2 = root \/ child root s2) /\ s2 <= end_ /\
        (forall c' y, (c' = root \/ child root c') -> c' <= end_ -> c' <> s2 -> zget h c' = Some y -> hb v2 y)).
    { destruct (Z.leb_spec (root * 2 + 1 + 1) end_) as [HR|HR].
      - destruct (zget_some h (root * 2 + 1 + 1)) as (b & Eb); [lia|]. rewrite Ev1, Eb. cbn [obind].
        assert (ok v1) by (eapply all_ok_get; eauto). assert (ok b) by (eapply all_ok_get; eauto).
        destruct (compare_spec dir eqv data v1 b) as (c2 & -> & HC2); auto. cbn [obind].
        destruct HC2 as [[-> B]|[-> B]]; cbn [Z.ltb Z.compare].
        + exists s1, v1. split; auto. split; auto. split; [unfold child; lia|]. split; [lia|].
          intros c' y HC' LE NE Ey. unfold child in HC'.
          assert (c' = root \/ c' = root * 2 + 1 \/ c' = root * 2 + 1 + 1) as [->|[->| ->]] by lia.
          * rewrite Ex in Ey. injection Ey as <-. apply A2. lia.
          * rewrite Ec in Ey. injection Ey as <-. apply A1. lia.
          * rewrite Eb in Ey. injection Ey as <-. auto.
        + assert (BV : hb b v1) by (eapply (total' h s1 (root * 2 + 1 + 1)); eauto; lia).
          exists (root * 2 + 1 + 1), b. split; auto. split; auto. split; [unfold child; lia|]. split; [lia|].
          intros c' y HC' LE NE Ey. unfold child in HC'.
          assert (c' = root \/ c' = root * 2 + 1) as [->| ->] by lia.
          * rewrite Ex in Ey. injection Ey as <-. destruct Hs1 as [-> | ->].
            -- rewrite Ex in Ev1. injection Ev1 as <-. auto.
            -- eapply before_trans; eauto.
          * rewrite Ec in Ey. injection Ey as <-. destruct Hs1 as [-> | ->].
            -- eapply before_trans; eauto.
            -- rewrite Ec in Ev1. injection Ev1 as <-. auto.
      - exists s1, v1. split; auto. split; auto. split; [unfold child; lia|]. split; [lia|].
        intros c' y HC' LE NE Ey. unfold child in HC'.
        assert (c' = root \/ c' = root * 2 + 1) as [->| ->] by lia.
        + rewrite Ex in Ey. injection Ey as <-. apply A2. lia.
        + rewrite Ec in Ey. injection Ey as <-. apply A1. lia. }
    destruct S2 as (s2 & v2 & -> & Ev2 & Hs2 & LE2 & MIN). cbn [obind].
    destruct (Z.eqb_spec s2 root) as [->|NE].
    + exists h. split; auto. split; [apply moved_refl|]. intros i c' a b H1 H2 H3 H4 H5.
      destruct (Z.eq_dec i root) as [->|]; [|eapply I1; eauto].
      rewrite Ev2 in H4. injection H4 as <-. apply (MIN c'); auto. unfold child in H2. lia.
    + assert (CH : child root s2) by tauto. assert (root < s2) by (unfold child in CH; lia).
      destruct (swap_moved start end_ h root s2) as (h1 & E1 & M1 & G); try lia. rewrite E1. cbn [obind].
      pose proof (moved_length _ _ _ _ M1) as L1. pose proof M1 as (P1 & _).
      destruct (IHfuel h1 start s2 end_) as (h' & E' & M' & H'); try lia.
      * eapply Permutation_Forall; eauto.
      * eapply Permutation_NoDup; eauto.
      * intros i c' a b H1 H2 H3 H4 H5 H6. rewrite G in H5, H6.
        destruct (Z.eqb_spec i s2); [lia|]. destruct (Z.eqb_spec i root) as [->|].
        -- rewrite Ev2 in H5. injection H5 as <-.
           destruct (Z.eqb_spec c' s2); [apply (MIN root); auto; lia|].
           destruct (Z.eqb_spec c' root); [unfold child in H3; lia|]. apply (MIN c'); auto.
        -- destruct (Z.eqb_spec c' s2) as [->|].
           { exfalso. unfold child in *. lia. }
           destruct (Z.eqb_spec c' root) as [->|].
           { apply (I2 i s2); auto. }
           eapply (I1 i c'); eauto.
      * intros q c' a b H1 H2 H3 H4 H5 H6. assert (q = root) by (unfold child in *; lia). subst q.
        rewrite G in H5, H6. destruct (Z.eqb_spec root s2); [lia|]. rewrite Z.eqb_refl in H5.
        destruct (Z.eqb_spec c' s2); [unfold child in *; lia|]. destruct (Z.eqb_spec c' root); [unfold child in *; lia|].
        apply (I1 s2 c'); auto; lia.
      * exists h'. split; auto. split; auto. eapply moved_trans; eauto.
Qed.

Lemma make_heap_spec h k : 0 <= k <= Z.of_nat (length h) -> Forall ok h -> NoDup h ->
  exists h', make_heap dir eqv data h k = Some h' /\ moved 0 (k - 1) h h' /\ heap_ok h' 0 (k - 1).
Proof.
  intros Hk HO ND. unfold make_heap, zrange.
  assert (K : forall m h, (forall h0, h = h0 -> True) -> Z.of_nat m <= k -> Z.of_nat (length h) >= k -> Forall ok h -> NoDup h ->
    heap_ok h (Z.of_nat m) (k - 1) ->
    exists h', foldM (fun start h => heap_sift_down dir eqv (length h) data h start (k - 1)) (rev (zseq 0 m)) h = Some h' /\
      moved 0 (k - 1) h h' /\ heap_ok h' 0 (k - 1)).
  { clear h Hk HO ND. induction m; intros h _ Hm Hl HO ND HH.
    - exists h. split; auto. split; [apply moved_refl|]. auto.
    - replace (S m) with (m + 1)%nat by lia. rewrite zseq_app, rev_app_distr. cbn [zseq rev app foldM].
      destruct (sift_down_spec (length h) h (Z.of_nat m) (Z.of_nat m) (k - 1)) as (h1 & E1 & M1 & H1); try lia; auto.
      { intros i c x y A1 A2 A3 A4 A5 A6. apply (HH i c); auto. lia. }
      { intros q c x y A1 A2. unfold child in A2. lia. }
      rewrite Z.add_0_l, E1. cbn [obind]. pose proof (moved_length _ _ _ _ M1). pose proof M1 as (P1 & _).
      destruct (IHm h1) as (h' & E' & M' & H'); try lia; auto.
      { eapply Permutation_Forall; eauto. } { eapply Permutation_NoDup; eauto. }
      exists h'. split; auto. split; auto. eapply moved_trans; eauto. eapply moved_weaken; [| |exact M1]; lia. }
  assert (0 <= k / 2) by (apply Z.div_pos; lia).
  assert (k / 2 <= k) by (apply Z.div_le_upper_bound; lia).
  apply K; auto; try lia.
  intros i c x y A1 A2 A3. exfalso. pose proof (Z.mod_pos_bound k 2 ltac:(lia)). pose proof (Z.div_mod k 2 ltac:(lia)).
  unfold child in A2. lia.
Qed.

Lemma heap_root h k : heap_ok h 0 (k - 1) ->
  forall a x y, 0 < a < k -> zget h 0 = Some x -> zget h a = Some y -> hb x y.
Proof.
  intros HH a x y Ha Ex. revert y. assert (exists m, a <= Z.of_nat m) as (m & Hm) by (exists (Z.to_nat a); lia).
  revert a Ha Hm. induction m; intros a Ha Hm y Ey; [lia|].
  pose proof (zget_len _ _ _ Ey) as LY.
  pose proof (Z.mod_pos_bound (a - 1) 2 ltac:(lia)). pose proof (Z.div_mod (a - 1) 2 ltac:(lia)).
  set (q := (a - 1) / 2) in *.
  destruct (zget_some h q) as (z & Ez); [lia|].
  assert (hb z y). { apply (HH q a); auto; try lia. unfold child. lia. }
  destruct (Z.eq_dec q 0) as [E0|E0].
  + rewrite E0, Ex in Ez. injection Ez as <-. auto.
  + eapply before_trans; eauto. apply (IHm q); auto; lia.
Qed.
End Heap.

Lemma sub_spec {A} (l : list A) off n : 0 <= off -> 0 <= n -> off + n <= Z.of_nat (length l) ->
  exists s, sub l off n = Some s /\ Z.of_nat (length s) = n /\ s = firstn (Z.to_nat n) (skipn (Z.to_nat off) l) /\
    forall i, 0 <= i < n -> zget s i = zget l (off + i).
Proof.
  intros H1 H2 H3. unfold sub. destruct (Z.leb_spec 0 off), (Z.leb_spec (off + n) (Z.of_nat (length l))), (Z.leb_spec 0 n); try lia.
  cbn [andb]. eexists. split; [reflexivity|]. split; [rewrite firstn_length, skipn_length; lia|]. split; auto.
  intros i Hi. rewrite !zget_spec by lia. rewrite nth_error_firstn_lt by lia. rewrite nth_error_skipn'. f_equal. lia.
Qed.

(** ** TopK of one slice *)
Section TopK.
Context {V : Type}.
Variables dir rdir eqv : V -> V -> bool.
Variable data : list V.
Hypothesis VO : value_order dir eqv.
Hypothesis RD : forall x y, rdir x y = dir y x.
Notation ok := (ok data).

Lemma rVO : value_order rdir eqv.
Proof.
  destruct VO as [I T E ET]. constructor; auto.
  - intros x. rewrite RD. auto.
  - intros x y z. rewrite !RD. eauto.
  - intros x y. rewrite !RD, E. tauto.
Qed.

(** index [i]'s value is strictly better than [j]'s *)
Definition better (i j : Z) : Prop := exists v w, zget data i = Some v /\ zget data j = Some w /\ dir v w = true.

Lemma rb_nbetter i j : before rdir eqv data i j -> ~ better i j.
Proof.
  intros (v & w & E1 & E2 & H) (v' & w' & E3 & E4 & B). rewrite E1 in E3. rewrite E2 in E4.
  injection E3 as <-. injection E4 as <-. destruct H as [H|[H _]].
  - rewrite RD in H. pose proof (vo_trans _ _ VO _ _ _ H B) as X. rewrite (vo_irr _ _ VO) in X. discriminate.
  - apply (vo_eqv _ _ VO) in H. destruct H. congruence.
Qed.
(* better is a strict weak order; a "not better" step keeps it *)
Lemma better_trans1 i j k : better i j -> ok k -> ~ better k j -> better i k.
Proof.
  intros (v & w & E1 & E2 & B) Hk NB. destruct (zget_some data k Hk) as (x & Ex).
  exists v, x. repeat split; auto.
  destruct (dir w x) eqn:D1; [eapply (vo_trans _ _ VO); eauto|].
  assert (D2 : dir x w = false). { destruct (dir x w) eqn:D2; auto. exfalso. apply NB. exists x, w. auto. }
  eapply dir_eqv; eauto. apply (vo_eqv _ _ VO). auto.
Qed.
Lemma better_trans2 i j k : ok i -> ~ better j i -> better j k -> better i k.
Proof.
  intros Hi NB (v & w & E1 & E2 & B). destruct (zget_some data i Hi) as (x & Ex).
  exists x, w. repeat split; auto.
  destruct (dir x v) eqn:D1; [eapply (vo_trans _ _ VO); eauto|].
  assert (D2 : dir v x = false). { destruct (dir v x) eqn:D2; auto. exfalso. apply NB. exists v, x. auto. }
  eapply eqv_dir; eauto. apply (vo_eqv _ _ VO). auto.
Qed.
Lemma b_nbetter i j : before dir eqv data i j -> ~ better j i.
Proof.
  intros (v & w & E1 & E2 & H) (v' & w' & E3 & E4 & B). rewrite E1 in E4. rewrite E2 in E3.
  injection E3 as <-. injection E4 as <-. destruct H as [H|[H _]].
  - pose proof (vo_trans _ _ VO _ _ _ H B) as X. rewrite (vo_irr _ _ VO) in X. discriminate.
  - apply (vo_eqv _ _ VO) in H. destruct H. congruence.
Qed.

Definition kinv (k : Z) (idx0 idx : list Z) (i : Z) : Prop :=
  Permutation idx0 idx /\ heap_ok rdir eqv data idx 0 (k - 1) /\
  forall a b x y, 0 <= a < k -> k <= b < i -> zget idx a = Some x -> zget idx b = Some y -> ~ better y x.

Lemma topk_loop idx0 k n : Forall ok idx0 -> NoDup idx0 -> 0 < k ->
  forall i idx, k <= i -> i + Z.of_nat n = Z.of_nat (length idx0) -> kinv k idx0 idx i ->
  exists idx', foldM (topk_step dir rdir eqv k data) (zseq i n) idx = Some idx' /\
    kinv k idx0 idx' (Z.of_nat (length idx0)).
Proof.
  intros HO ND Hk. induction n; intros i idx Hi Hn I.
  - exists idx. split; auto. replace (Z.of_nat (length idx0)) with i by lia. auto.
  - destruct I as (P & H & B). cbn [zseq foldM]. unfold topk_step at 1.
    pose proof (Permutation_length P) as LP.
    assert (HO' : Forall ok idx) by (eapply Permutation_Forall; eauto).
    assert (ND' : NoDup idx) by (eapply Permutation_NoDup; eauto).
    destruct (zget_some idx i) as (a & Ea); [lia|]. destruct (zget_some idx 0) as (r & Er); [lia|].
    rewrite Ea, Er. cbn [obind].
    assert (Oa : ok a) by (eapply all_ok_get; eauto). assert (Or : ok r) by (eapply all_ok_get; eauto).
    (* the root is worst *)
    assert (RW : forall c x, 0 <= c < k -> zget idx c = Some x -> ~ better r x).
    { intros c x Hc Ex. destruct (Z.eq_dec c 0) as [->|].
      - rewrite Er in Ex. injection Ex as <-. intros (v & w & E1 & E2 & D). rewrite E1 in E2. injection E2 as <-.
        rewrite (vo_irr _ _ VO) in D. discriminate.
      - apply rb_nbetter. eapply heap_root; eauto; [apply rVO|]. lia. }
    destruct (compare_spec dir eqv data a r) as (c & -> & HC); auto. cbn [obind].
    destruct HC as [[-> HC]|[-> HC]]; cbn [Z.ltb Z.compare].
    + destruct (swap_spec idx 0 i) as (idx1 & E1 & L1 & G); try lia. rewrite E1. cbn [obind].
      assert (P1 : Permutation idx idx1) by (eapply swap_perm; eauto; lia).
      destruct (sift_down_spec rdir eqv data rVO (length idx) idx1 0 0 (k - 1)) as (idx2 & E2 & M2 & H2); try lia.
      { eapply Permutation_Forall; eauto. } { eapply Permutation_NoDup; eauto. }
      { intros p q x y A1 A2 A3 A4 A5 A6. rewrite G in A5, A6. unfold child in A3.
        destruct (Z.eqb_spec p i); [lia|]. destruct (Z.eqb_spec p 0); [lia|].
        destruct (Z.eqb_spec q i); [lia|]. destruct (Z.eqb_spec q 0); [lia|].
        apply (H p q); auto. }
      { intros p q x y A1 A2. unfold child in A2. lia. }
      rewrite E2. cbn [obind]. pose proof M2 as (P2 & O2 & IN2).
      apply IHn; try lia. split; [|split; auto].
      { eapply perm_trans; [exact P|]. eapply perm_trans; eauto. }
      intros p q x y A1 A2 A3 A4. rewrite O2 in A4 by lia.
      destruct (IN2 p) as (p' & Hp' & Ep'); [lia|]. rewrite Ep' in A3. rewrite G in A3, A4.
      destruct (Z.eqb_spec p' i); [lia|].
      assert (AR : ~ better r a) by (apply b_nbetter; auto).
      assert (XB : ~ better r x).
      { destruct (Z.eqb_spec p' 0).
        - rewrite Ea in A3. injection A3 as <-. auto.
        - apply (RW p'); auto. lia. }
      destruct (Z.eqb_spec q i).
      { rewrite Er in A4. injection A4 as <-. auto. }
      destruct (Z.eqb_spec q 0); [lia|].
      destruct (Z.eqb_spec p' 0).
      * rewrite Ea in A3. injection A3 as <-. intros BY. apply (B 0 q r y); auto; try lia.
        eapply better_trans1; eauto.
      * apply (B p' q); auto; lia.
    + apply IHn; try lia. split; auto. split; auto. intros p q x y A1 A2 A3 A4.
      destruct (Z.eq_dec q i) as [->|]; [|apply (B p q); auto; lia].
      rewrite Ea in A4. injection A4 as <-. intros BY.
      assert (BR : better a r). { eapply better_trans1; eauto. }
      apply HC. destruct BR as (v & w & ? & ? & ?). exists v, w. auto.
Qed.

(** The contract of the C library's qsort_r / of quick_sort_custom. *)
Definition sorts (f : list V -> list Z -> option (list Z)) : Prop :=
  forall idx, idx <> [] -> Forall ok idx -> NoDup idx ->
  exists idx', f data idx = Some idx' /\ Permutation idx idx' /\ StronglySorted (before dir eqv data) idx'.

Lemma put0_spec {A} (l : list A) k s : sub l 0 k = Some s -> forall s', Permutation s s' -> 0 <= k ->
  Permutation l (put l 0 s') /\ firstn (Z.to_nat k) (put l 0 s') = s' /\ skipn (Z.to_nat k) (put l 0 s') = skipn (Z.to_nat k) l.
Proof.
  intros E s' P Hk. unfold sub in E. destruct ((0 <=? 0) && (0 + k <=? Z.of_nat (length l)) && (0 <=? k)) eqn:C; [|discriminate].
  apply andb_true_iff in C as [C _]. apply andb_true_iff in C as [_ C]. apply Z.leb_le in C.
  cbn [skipn Z.to_nat] in E. injection E as E.
  pose proof (Permutation_length P) as L. rewrite <- E, firstn_length in L.
  unfold put. cbn [Z.to_nat firstn app Nat.add].
  assert (L' : length s' = Z.to_nat k) by lia.
  split; [|split].
  - rewrite L'. rewrite <- (firstn_skipn (Z.to_nat k) l) at 1. rewrite E. now apply Permutation_app_tail.
  - rewrite <- L'. rewrite firstn_app. rewrite Nat.sub_diag. cbn [firstn]. now rewrite firstn_all, app_nil_r.
  - rewrite <- L'. rewrite skipn_app, Nat.sub_diag, skipn_all. reflexivity.
Qed.

Theorem topk_slice_spec f k sorted idx : sorts f -> 0 < k < Z.of_nat (length idx) ->
  Permutation (zrange (Z.of_nat (length data))) idx ->
  exists idx', topk_slice dir rdir eqv f k sorted data idx = Some idx' /\
    Permutation (zrange (Z.of_nat (length data))) idx' /\ best dir k data (firstn (Z.to_nat k) idx') /\
    (sorted = true -> StronglySorted (before dir eqv data) (firstn (Z.to_nat k) idx')).
Proof.
  intros SF Hk P0.
  assert (HO : Forall ok idx).
  { eapply Permutation_Forall; [exact P0|]. apply Forall_forall. intros x Hx. apply zrange_In in Hx. exact Hx. }
  assert (ND : NoDup idx) by (eapply Permutation_NoDup; [exact P0|apply NoDup_zseq]).
  unfold topk_slice.
  destruct (make_heap_spec rdir eqv data rVO idx k) as (idx1 & E1 & M1 & H1); try lia; auto.
  rewrite E1. cbn [obind]. pose proof M1 as (P1 & _). pose proof (Permutation_length P1) as L1.
  destruct (topk_loop idx k (Z.to_nat (Z.of_nat (length idx) - k)) HO ND ltac:(lia) k idx1) as (idx2 & E2 & P2 & H2 & B2); try lia.
  { split; auto. split; auto. intros; lia. }
  rewrite E2. cbn [obind]. pose proof (Permutation_length P2) as L2.
  assert (HO2 : Forall ok idx2) by (eapply Permutation_Forall; eauto).
  assert (ND2 : NoDup idx2) by (eapply Permutation_NoDup; eauto).
  assert (BEST : best dir k data (firstn (Z.to_nat k) idx2)).
  { assert (ND3 := ND2). rewrite <- (firstn_skipn (Z.to_nat k) idx2) in ND3. apply NoDup_app_l' in ND3.
    split; [rewrite firstn_length; lia|]. split; auto.
    assert (IN : forall i, In i (firstn (Z.to_nat k) idx2) -> exists a, 0 <= a < k /\ zget idx2 a = Some i).
    { intros i Hi. apply In_nth_error in Hi as (a & Ea).
      assert (a < Z.to_nat k)%nat. { assert (a < length (firstn (Z.to_nat k) idx2))%nat by (apply nth_error_Some; congruence). rewrite firstn_length in H. lia. }
      rewrite nth_error_firstn_lt in Ea by auto. exists (Z.of_nat a). split; [lia|]. rewrite zget_spec, Nat2Z.id by lia. auto. }
    split.
    - intros i Hi. apply IN in Hi as (a & _ & Ea). eapply all_ok_get in Ea; eauto.
    - intros i j v w Hi Hj Ev Ew. apply IN in Hi as (a & Ha & Ea).
      assert (In j idx2).
      { eapply Permutation_in; [eapply perm_trans; [exact P0|exact P2]|]. apply zrange_In. eapply zget_len; eauto. }
      apply In_nth_error in H as (b & Eb).
      destruct (Nat.lt_ge_cases b (Z.to_nat k)) as [LT|GE].
      { exfalso. apply Hj. eapply nth_error_In with (n := b). rewrite nth_error_firstn_lt; eauto. }
      assert (b < length idx2)%nat by (apply nth_error_Some; congruence).
      destruct (dir w v) eqn:D; auto. exfalso. apply (B2 a (Z.of_nat b) i j); auto; try lia.
      + rewrite zget_spec, Nat2Z.id by lia. auto.
      + exists w, v. auto. }
  destruct sorted.
  - destruct (sub_spec idx2 0 k) as (s & Es & Ls & Ds & _); try lia. rewrite Es. cbn [obind].
    cbn [Z.to_nat skipn] in Ds.
    destruct (SF s) as (s' & Es' & Ps & Ss).
    { intros ->. simpl in Ls. lia. }
    { apply Forall_forall. intros x Hx. rewrite Forall_forall in HO2. apply HO2. rewrite Ds in Hx.
      rewrite <- (firstn_skipn (Z.to_nat k) idx2). apply in_or_app. auto. }
    { rewrite Ds. eapply NoDup_app_l' with (l' := skipn (Z.to_nat k) idx2). now rewrite firstn_skipn. }
    rewrite Es'. cbn [obind]. destruct (put0_spec idx2 k s Es s' Ps ltac:(lia)) as (P3 & F3 & S3).
    eexists. split; [reflexivity|]. split; [eapply perm_trans; [exact P0|eapply perm_trans; eauto]|].
    rewrite F3. split; auto. rewrite <- Ds in BEST. destruct BEST as (B1' & B2' & B3' & B4').
    split; [apply Permutation_length in Ps; lia|]. split; [eapply Permutation_NoDup; eauto|]. split.
    + intros i Hi. apply B3'. eapply Permutation_in; [apply Permutation_sym|]; eauto.
    + intros i j v w Hi Hj. apply B4'.
      * eapply Permutation_in; [apply Permutation_sym|]; eauto.
      * intros Hj'. apply Hj. eapply Permutation_in; eauto.
  - exists idx2. split; auto. split; [eapply perm_trans; eauto|]. split; auto. discriminate.
Qed.
End TopK.

(** ** The loop over slices *)
Lemma sub_iff {A} (l : list A) off n s : sub l off n = Some s <->
  (0 <= off /\ 0 <= n /\ off + n <= Z.of_nat (length l) /\ Z.of_nat (length s) = n /\
   forall i, 0 <= i < n -> zget s i = zget l (off + i)).
Proof.
  split.
  - intros E. assert (0 <= off /\ 0 <= n /\ off + n <= Z.of_nat (length l)) as (H1 & H2 & H3).
    { unfold sub in E. destruct (Z.leb_spec 0 off), (Z.leb_spec (off + n) (Z.of_nat (length l))), (Z.leb_spec 0 n); try discriminate. auto. }
    destruct (sub_spec l off n) as (s' & E' & L & _ & G); auto. rewrite E in E'. injection E' as <-. auto.
  - intros (H1 & H2 & H3 & L & G). destruct (sub_spec l off n) as (s' & E' & L' & _ & G'); auto. rewrite E'. f_equal.
    apply zget_ext; [lia|]. intros i Hi. rewrite G, G' by lia. auto.
Qed.

Lemma zget_skipn {A} (l : list A) n i : 0 <= i -> zget (skipn n l) i = zget l (Z.of_nat n + i).
Proof. intros. rewrite !zget_spec by lia. rewrite nth_error_skipn'. f_equal. lia. Qed.
Lemma zget_firstn {A} (l : list A) n i : 0 <= i < Z.of_nat n -> zget (firstn n l) i = zget l i.
Proof. intros. rewrite !zget_spec by lia. apply nth_error_firstn_lt. lia. Qed.

Lemma put_length {A} (l : list A) off s : 0 <= off -> off + Z.of_nat (length s) <= Z.of_nat (length l) ->
  length (put l off s) = length l.
Proof. intros. unfold put. rewrite !app_length, firstn_length, skipn_length. lia. Qed.

Lemma zget_put {A} (l : list A) off s i : 0 <= off -> off + Z.of_nat (length s) <= Z.of_nat (length l) -> 0 <= i ->
  zget (put l off s) i = if (off <=? i) && (i <? off + Z.of_nat (length s)) then zget s (i - off) else zget l i.
Proof.
  intros H1 H2 Hi. unfold put.
  assert (LF : length (firstn (Z.to_nat off) l) = Z.to_nat off) by (rewrite firstn_length; lia).
  destruct (Z.leb_spec off i); cbn [andb].
  - rewrite zget_app2 by lia. rewrite LF. destruct (Z.ltb_spec i (off + Z.of_nat (length s))).
    + rewrite zget_app1 by lia. f_equal. lia.
    + rewrite zget_app2 by lia. rewrite zget_skipn by lia. f_equal. lia.
  - rewrite zget_app1 by lia. apply zget_firstn. lia.
Qed.

Section Slices.
Context {V : Type}.
Variables (work : Z -> list V -> list Z -> option (list Z)) (data : list V) (order : list Z) (n M : Z).
Variable Q : Z -> list Z -> Prop.
Hypothesis Hn : 0 < n.
Hypothesis LD : Z.of_nat (length data) = M * n.
Hypothesis LO : Z.of_nat (length order) = M * n.
Hypothesis W : forall k d s, 0 <= k < M -> sub data (k * n) n = Some d -> sub order (k * n) n = Some s ->
  exists s', work (k * n) d s = Some s' /\ Z.of_nat (length s') = n /\ Q k s'.

Lemma slices_loop m : forall j ord, 0 <= j -> j + Z.of_nat m = M -> length ord = length order ->
  (forall k, j <= k < M -> sub ord (k * n) n = sub order (k * n) n) ->
  (forall k, 0 <= k < j -> exists s', sub ord (k * n) n = Some s' /\ Q k s') ->
  exists ord', foldM (fun off ord =>
        d <- sub data off n ;; s <- sub ord off n ;; s' <- work off d s ;; Some (put ord off s'))
      (map (fun k => k * n) (zseq j m)) ord = Some ord' /\ length ord' = length order /\
    (forall k, 0 <= k < M -> exists s', sub ord' (k * n) n = Some s' /\ Q k s').
Proof.
  induction m; intros j ord Hj HM HL H1 H2.
  - exists ord. split; auto. split; auto. intros k Hk. apply H2. lia.
  - cbn [zseq map foldM].
    destruct (sub_spec data (j * n) n) as (d & Ed & _); try nia. rewrite Ed. cbn [obind].
    destruct (sub_spec order (j * n) n) as (s & Es & _); try nia. rewrite H1 by lia. rewrite Es. cbn [obind].
    destruct (W j d s) as (s' & E' & L' & Hq); auto; try lia. rewrite E'. cbn [obind].
    assert (B1 : 0 <= j * n) by nia. assert (B2 : j * n + Z.of_nat (length s') <= Z.of_nat (length ord)) by nia.
    apply IHm; try lia.
    + rewrite put_length; auto.
    + intros k Hk. rewrite <- H1 by lia.
      destruct (sub_spec ord (k * n) n) as (t & Et & Lt & _ & Gt); try nia. rewrite Et. apply sub_iff.
      repeat split; try nia; auto.
      { rewrite put_length; auto. nia. }
      intros i Hi. rewrite zget_put by (auto; nia). rewrite Gt by auto.
      destruct (Z.leb_spec (j * n) (k * n + i)), (Z.ltb_spec (k * n + i) (j * n + Z.of_nat (length s'))); cbn [andb]; auto. nia.
    + intros k Hk. destruct (Z.eq_dec k j) as [->|].
      * exists s'. split; auto. apply sub_iff. repeat split; try nia; auto.
        { rewrite put_length; auto. nia. }
        intros i Hi. rewrite zget_put by (auto; nia).
        destruct (Z.leb_spec (j * n) (j * n + i)), (Z.ltb_spec (j * n + i) (j * n + Z.of_nat (length s'))); cbn [andb]; try lia.
        f_equal. lia.
      * destruct (H2 k) as (t & Et & Hq2); [lia|]. exists t. split; auto.
        apply sub_iff in Et as (_ & _ & _ & Lt & Gt). apply sub_iff. repeat split; try nia; auto.
        { rewrite put_length; auto. nia. }
        intros i Hi. rewrite zget_put by (auto; nia). rewrite Gt by auto.
        destruct (Z.leb_spec (j * n) (k * n + i)), (Z.ltb_spec (k * n + i) (j * n + Z.of_nat (length s'))); cbn [andb]; auto. nia.
Qed.
End Slices.

Lemma zseq_blocks S m : 0 <= S -> forall a,
  flat_map (fun i => map (fun o => i * S + o) (zrange S)) (zseq a m) = zseq (a * S) (m * Z.to_nat S).
Proof.
  intros HS. induction m; intros a; [reflexivity|]. cbn [zseq flat_map]. rewrite IHm.
  cbn [Nat.mul]. rewrite zseq_app. f_equal.
  - unfold zrange. assert (K : forall c b t, map (fun o => c + o) (zseq b t) = zseq (c + b) t).
    { intros c b t. revert b. induction t; intros b; cbn [zseq map]; auto. rewrite IHt. f_equal. f_equal. lia. }
    rewrite K. f_equal. lia.
  - f_equal. lia.
Qed.

Lemma omStrides_snoc outer n : omStrides (outer ++ [n]) = map (fun s => s * n) (omStrides outer) ++ [1].
Proof.
  induction outer as [|d outer IH]; [reflexivity|].
  cbn [app]. rewrite !omStrides_cons, IH. cbn [map app]. f_equal. rewrite size_app, size_cons, size_nil. lia.
Qed.

Lemma slice_offsets_spec outer n : okshape outer ->
  slice_offsets outer (map (fun s => s * n) (omStrides outer)) = map (fun k => k * n) (zrange (size outer)).
Proof.
  induction outer as [|d outer IH]; intros OK.
  - rewrite size_nil. reflexivity.
  - apply okshape_cons in OK as [Hd OK]. rewrite omStrides_cons. cbn [map slice_offsets]. rewrite IH by auto.
    pose proof (size_nonneg outer OK) as HS. rewrite size_cons.
    transitivity (map (fun k => k * n) (flat_map (fun i => map (fun o => i * size outer + o) (zrange (size outer))) (zrange d))).
    + rewrite !flat_map_concat_map, concat_map, map_map. f_equal. apply map_ext. intros i. rewrite !map_map.
      apply map_ext. intros o. ring.
    + f_equal. unfold zrange. rewrite zseq_blocks by auto. f_equal. rewrite Z2Nat.inj_mul by lia. reflexivity.
Qed.

Lemma is_row_sub {A} outer n (data : list A) o s : valid outer o -> 0 <= n -> is_data (outer ++ [n]) data ->
  (is_row outer n data o s <-> sub data (rm outer o * n) n = Some s).
Proof.
  intros HV Hn HD. unfold is_data in HD. rewrite size_app, size_cons, size_nil in HD.
  pose proof (rm_bound outer o HV) as RB.
  assert (E : forall i, 0 <= i < n -> elem (outer ++ [n]) data (o ++ [i]) = zget data (rm outer o * n + i)).
  { intros i Hi. unfold elem. pose proof (valid_length _ _ HV) as HL. rewrite rowmajor_rm by (rewrite !app_length; simpl; lia).
    rewrite rm_app by auto. f_equal. cbn [rm]. rewrite size_cons, size_nil. lia. }
  rewrite sub_iff. unfold is_row. split.
  - intros (L & G). repeat split; try nia. intros i Hi. rewrite <- G, E by auto. auto.
  - intros (_ & _ & _ & L & G). split; auto. intros i Hi. rewrite E, G by auto. auto.
Qed.

Lemma for_slices_spec {V} outer n (data : list V) order work (Q : index -> list Z -> Prop) :
  (length outer <= 5)%nat -> okshape outer -> 0 < n -> is_data (outer ++ [n]) data -> is_data (outer ++ [n]) order ->
  (forall off o d s, valid outer o -> is_row outer n data o d -> is_row outer n order o s ->
     exists s', work off d s = Some s' /\ Z.of_nat (length s') = n /\ Q o s') ->
  exists order', for_slices (outer ++ [n]) (omStrides (outer ++ [n])) data order work = Some order' /\
    is_data (outer ++ [n]) order' /\
    forall o, valid outer o -> exists s', is_row outer n order' o s' /\ Q o s'.
Proof.
  intros HR OK Hn HD HO HW. unfold for_slices. rewrite app_length, omStrides_snoc, app_length, map_length, omStrides_length.
  cbn [length]. rewrite !last_last, !removelast_last, Nat.eqb_refl.
  replace (length outer + 1 =? 0)%nat with false by (symmetry; apply Nat.eqb_neq; lia).
  replace (6 <? length outer + 1)%nat with false by (symmetry; apply Nat.ltb_ge; lia). cbn [orb negb Z.eqb Pos.eqb].
  rewrite slice_offsets_spec by auto.
  pose proof (size_nonneg outer OK) as HS.
  assert (LD : Z.of_nat (length data) = size outer * n).
  { unfold is_data in HD. rewrite size_app, size_cons, size_nil in HD. lia. }
  assert (LO : Z.of_nat (length order) = size outer * n).
  { unfold is_data in HO. rewrite size_app, size_cons, size_nil in HO. lia. }
  destruct (slices_loop work data order n (size outer) (fun k s => Q (unrm outer k) s) Hn LD LO) with
    (m := Z.to_nat (size outer)) (j := 0) (ord := order) as (order' & E & L & G); auto; try lia.
  { intros k d s Hk Ed Es. destruct (unrm_spec outer k OK Hk) as (U1 & U2).
    apply HW; auto.
    - apply is_row_sub; auto; try lia. now rewrite U2.
    - apply is_row_sub; auto; try lia. now rewrite U2. }
  exists order'. split; auto.
  assert (HD' : is_data (outer ++ [n]) order'). { unfold is_data in *. now rewrite L. }
  split; auto. intros o HV. pose proof (rm_bound outer o HV) as RB.
  destruct (G (rm outer o) RB) as (s' & Es' & Hq). rewrite unrm_rm in Hq by auto.
  exists s'. split; auto. apply is_row_sub; auto. lia.
Qed.
