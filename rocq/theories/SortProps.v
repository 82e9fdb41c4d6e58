(** C18, C19: sorting and TopK along the last axis. *)
From Coq Require Import List ZArith Lia Bool Arith Permutation Sorted.
From Verif Require Import Util TensorSpec TensorLemmas OMTensorLayoutModel OMTensorLayoutProofs SortModel SortSpec SortProofs TopKProofs.
Import ListNotations.
Open Scope Z_scope.

(** The buffer the generated code passes: every row holds 0..n-1. *)
Definition initial_order (outer : shape) (n : Z) (order : list Z) : Prop :=
  is_data (outer ++ [n]) order /\ forall o, valid outer o -> is_row outer n order o (zrange n).

(** The contract of a comparison sort (qsort_r, qsort_s). *)
Definition comparison_sort {V} (dir eqv : V -> V -> bool) (f : list V -> list Z -> option (list Z)) : Prop :=
  forall data, sorts dir eqv data f.

(** The built-in quick sort honours the contract, for every outcome of rand(),
    and its explicit stack never overflows (an overflow would be [None]). *)
Theorem C18_quick_sort {V} (dir eqv : V -> V -> bool) : value_order dir eqv ->
  forall (rand : nat -> Z) (data : list V) (idx : list Z), idx <> [] ->
  Forall (fun i => 0 <= i < Z.of_nat (length data)) idx -> NoDup idx ->
  exists idx', quick_sort_custom dir eqv (map rand (seq 0 (length idx))) data idx = Some idx' /\
    Permutation idx idx' /\ StronglySorted (before dir eqv data) idx'.
Proof.
  intros VO rand data idx NE HO ND. apply quick_sort_custom_spec; auto. now rewrite map_length, seq_length.
Qed.

Lemma sort_row {V} (dir eqv : V -> V -> bool) f (d : list V) : comparison_sort dir eqv f -> d <> [] ->
  exists s', f d (zrange (Z.of_nat (length d))) = Some s' /\ length s' = length d /\ sorted_indices dir eqv d s'.
Proof.
  intros HF NE. destruct (HF d (zrange (Z.of_nat (length d)))) as (s' & E & P & S).
  - intros E. apply (f_equal (@length Z)) in E. rewrite zrange_length in E. destruct d; simpl in *; [congruence|lia].
  - apply Forall_forall. intros x Hx. apply zrange_In in Hx. exact Hx.
  - apply NoDup_zseq.
  - exists s'. split; auto. split; [|split; auto]. apply Permutation_length in P. rewrite zrange_length in P. lia.
Qed.

Lemma row_len {A} outer n (data : list A) o s : is_row outer n data o s -> Z.of_nat (length s) = n.
Proof. now intros []. Qed.
Lemma row_eq {A} outer n (data : list A) o s s' : is_row outer n data o s -> is_row outer n data o s' -> s = s'.
Proof. intros [L G] [L' G']. apply zget_ext; [lia|]. intros i Hi. rewrite <- G, <- G' by lia. auto. Qed.

(** C18.  Sorting returns, for every row, the indices of the row in order, ties
    in increasing index order, for every comparison sort and every rand() state
    (the first argument of [sortFunc]). *)
Theorem C18_sort {V} (dir eqv : V -> V -> bool) (sortFunc : Z -> list V -> list Z -> option (list Z)) outer n data order :
  value_order dir eqv -> (forall st, comparison_sort dir eqv (sortFunc st)) ->
  (length outer <= 5)%nat -> okshape (outer ++ [n]) -> is_data (outer ++ [n]) data -> initial_order outer n order ->
  exists order', omTensorSort sortFunc (outer ++ [n]) (omStrides (outer ++ [n])) data order = Some order' /\
    is_data (outer ++ [n]) order' /\
    forall o x, valid outer o -> is_row outer n data o x ->
      exists p, is_row outer n order' o p /\ sorted_indices dir eqv x p.
Proof.
  intros VO HF HR OK HD [HO HI]. unfold omTensorSort. rewrite last_last.
  apply Forall_app in OK as [OK On]. inversion On as [|? ? Hn _]; subst.
  destruct (Z.eqb_spec n 0) as [->|NZ].
  - exists order. split; auto. split; auto. intros o x HV HX. exists (zrange 0). split; auto.
    pose proof (row_len _ _ _ _ _ HX). destruct x; [|simpl in *; lia]. split; constructor.
  - destruct (for_slices_spec outer n data order sortFunc
      (fun o s' => forall x, is_row outer n data o x -> sorted_indices dir eqv x s')) as (order' & E & HD' & G); auto; try lia.
    + intros off o d s HV Hd Hs. pose proof (row_len _ _ _ _ _ Hd) as Ld.
      destruct (sort_row dir eqv (sortFunc off) d) as (s' & E & L & S); auto.
      { intros ->. simpl in Ld. lia. }
      rewrite Ld in E. exists s'. rewrite (row_eq _ _ _ _ _ _ Hs (HI o HV)). split; auto. split; [lia|].
      intros x Hx. rewrite (row_eq _ _ _ _ _ _ Hx Hd). auto.
    + exists order'. split; auto. split; auto. intros o x HV HX. destruct (G o HV) as (p & Hp & Hq). eauto.
Qed.

(** C18 for the built-in quick sort, with an arbitrary rand() sequence per row. *)
Corollary C18_sort_builtin {V} (dir eqv : V -> V -> bool) (rand : Z -> nat -> Z) outer n data order :
  value_order dir eqv ->
  (length outer <= 5)%nat -> okshape (outer ++ [n]) -> is_data (outer ++ [n]) data -> initial_order outer n order ->
  exists order', omTensorSort (fun st d idx => quick_sort_custom dir eqv (map (rand st) (seq 0 (length idx))) d idx)
      (outer ++ [n]) (omStrides (outer ++ [n])) data order = Some order' /\
    is_data (outer ++ [n]) order' /\
    forall o x, valid outer o -> is_row outer n data o x ->
      exists p, is_row outer n order' o p /\ sorted_indices dir eqv x p.
Proof.
  intros VO. apply C18_sort; auto. intros st d idx NE HO ND. apply C18_quick_sort; auto.
Qed.

(** C19.  TopK returns, for every row, k distinct indices such that no other
    index of the row has a strictly better value, in order when [sorted] is
    set; [large] is the (floating-point) choice between a heap and a full sort. *)
Theorem C19_topk_partial {V} (dir rdir eqv : V -> V -> bool) (sortFunc : Z -> list V -> list Z -> option (list Z)) large outer n data order k sorted :
  value_order dir eqv -> (forall v w, rdir v w = dir w v) -> (forall st, comparison_sort dir eqv (sortFunc st)) ->
  (length outer <= 5)%nat -> okshape (outer ++ [n]) -> is_data (outer ++ [n]) data -> initial_order outer n order ->
  0 <= k <= n -> (large = false -> k < n) ->
  exists order', omTensorTopK dir rdir eqv sortFunc large (outer ++ [n]) (omStrides (outer ++ [n])) data order k sorted = Some order' /\
    is_data (outer ++ [n]) order' /\
    forall o x, valid outer o -> is_row outer n data o x ->
      exists p, is_row outer n order' o p /\ best dir k x (firstn (Z.to_nat k) p) /\
        (sorted = true -> StronglySorted (before dir eqv x) (firstn (Z.to_nat k) p)).
Proof.
  intros VO RD HF HR OK HD HO Hk HL. unfold omTensorTopK. rewrite last_last.
  destruct (Z.eqb_spec k 0) as [->|NZ]; [|destruct (Z.eqb_spec n 0) as [->|NZ']; [lia|]]; cbn [orb].
  - exists order. split; auto. split; [apply HO|]. intros o x HV HX. exists (zrange n). split; [apply HO; auto|].
    cbn [Z.to_nat firstn]. split; [|constructor]. split; auto. split; [constructor|]. split; intros; contradiction.
  - destruct large.
    + destruct (C18_sort dir eqv sortFunc outer n data order) as (order' & E & HD' & G); auto.
      exists order'. split; auto. split; auto. intros o x HV HX. destruct (G o x HV HX) as (p & Hp & P & S).
      exists p. split; auto. pose proof (row_len _ _ _ _ _ HX) as Lx. pose proof (row_len _ _ _ _ _ Hp) as Lp.
      assert (SS := S). rewrite <- (firstn_skipn (Z.to_nat k) p) in S.
      assert (ND : NoDup p) by (eapply Permutation_NoDup; [exact P|apply NoDup_zseq]).
      assert (KEY : forall (l1 l2 : list Z), StronglySorted (before dir eqv x) (l1 ++ l2) ->
         StronglySorted (before dir eqv x) l1 /\ forall a b, In a l1 -> In b l2 -> before dir eqv x a b).
      { induction l1; simpl; intros l2 HS; [split; [constructor|tauto]|].
        inversion HS as [|? ? HS1 HS2]; subst. destruct (IHl1 l2 HS1) as [S1 S2]. rewrite Forall_app in HS2. destruct HS2 as [F1 F2].
        split; [constructor; auto|]. intros a0 b [->|Ha] Hb; auto. rewrite Forall_forall in F2. auto. }
      destruct (KEY _ _ S) as [S1 S2]. split; [|auto].
      split; [rewrite firstn_length; lia|]. split.
      { eapply NoDup_app_l'. rewrite firstn_skipn. exact ND. }
      split.
      { intros i Hi. assert (In i p) by (rewrite <- (firstn_skipn (Z.to_nat k) p); apply in_or_app; auto).
        eapply Permutation_in in H; [|apply Permutation_sym; exact P]. apply zrange_In in H. auto. }
      intros i j v w Hi Hj Ev Ew.
      assert (Hj' : In j p). { eapply Permutation_in; [exact P|]. apply zrange_In. eapply zget_len; eauto. }
      rewrite <- (firstn_skipn (Z.to_nat k) p) in Hj'. apply in_app_or in Hj' as [?|Hj']; [contradiction|].
      destruct (S2 i j Hi Hj') as (v' & w' & E1 & E2 & B). rewrite Ev in E1. rewrite Ew in E2.
      injection E1 as <-. injection E2 as <-. destruct (dir w v) eqn:D; auto. destruct B as [B|[B _]].
      * pose proof (vo_trans _ _ VO _ _ _ B D) as X. rewrite (vo_irr _ _ VO) in X. discriminate.
      * apply (vo_eqv _ _ VO) in B. destruct B. congruence.
    + destruct HO as [HO HI]. apply Forall_app in OK as [OK On].
      destruct (for_slices_spec outer n data order (fun off => topk_slice dir rdir eqv (sortFunc off) k sorted)
        (fun o p => forall x, is_row outer n data o x -> best dir k x (firstn (Z.to_nat k) p) /\
           (sorted = true -> StronglySorted (before dir eqv x) (firstn (Z.to_nat k) p)))) as (order' & E & HD' & G); auto; try lia.
      * intros off o d s HV Hd Hs. pose proof (row_len _ _ _ _ _ Hd) as Ld.
        rewrite (row_eq _ _ _ _ _ _ Hs (HI o HV)).
        destruct (topk_slice_spec dir rdir eqv d VO RD (sortFunc off) k sorted (zrange n)) as (s' & E & P & B & S).
        { apply HF. } { rewrite zrange_length. specialize (HL eq_refl). lia. } { now rewrite Ld. }
        exists s'. split; auto. split; [apply Permutation_length in P; rewrite zrange_length in P; lia|].
        intros x Hx. rewrite (row_eq _ _ _ _ _ _ Hx Hd). auto.
      * exists order'. split; auto. split; auto. intros o x HV HX. destruct (G o HV) as (p & Hp & Hq). eauto.
Qed.

(** With a full sort, or with pairwise distinct values, the result is exactly the
    ONNX TopK (ties broken by the lower index). *)
Lemma best_top_k {V} (dir eqv : V -> V -> bool) k (x : list V) p : value_order dir eqv ->
  (forall i j v w, zget x i = Some v -> zget x j = Some w -> eqv v w = true -> i = j) ->
  best dir k x p -> StronglySorted (before dir eqv x) p ->
  (forall idx, idx <> [] -> Forall (fun i => 0 <= i < Z.of_nat (length x)) idx -> NoDup idx ->
     exists idx', Permutation idx idx' /\ StronglySorted (before dir eqv x) idx') ->
  top_k dir eqv k x p.
Proof.
  intros VO INJ (L & ND & R & B) S SRT. split; auto.
  set (r := filter (fun j => negb (existsb (Z.eqb j) p)) (zrange (Z.of_nat (length x)))).
  assert (INR : forall j, In j r <-> (0 <= j < Z.of_nat (length x) /\ ~ In j p)).
  { intros j. unfold r. rewrite filter_In, zrange_In. rewrite negb_true_iff.
    assert (existsb (Z.eqb j) p = false <-> ~ In j p).
    { split.
      - intros E HI. assert (existsb (Z.eqb j) p = true); [|congruence]. apply existsb_exists. exists j. split; auto. apply Z.eqb_refl.
      - intros NI. destruct (existsb (Z.eqb j) p) eqn:E; auto. apply existsb_exists in E as (y & Hy & Ey). apply Z.eqb_eq in Ey. subst. contradiction. }
    tauto. }
  assert (exists r', Permutation r r' /\ StronglySorted (before dir eqv x) r') as (r' & Pr & Sr).
  { destruct r as [|a r0] eqn:ER; [exists []; split; constructor|]. rewrite <- ER in *. apply SRT.
    - rewrite ER. discriminate.
    - apply Forall_forall. intros j Hj. apply INR in Hj. tauto.
    - apply NoDup_filter. apply NoDup_zseq. }
  exists r'. split.
  - apply NoDup_Permutation.
    + apply NoDup_zseq.
    + assert (NR : NoDup r') by (eapply Permutation_NoDup; [exact Pr|]; apply NoDup_filter, NoDup_zseq).
      assert (DJ : forall j, In j p -> ~ In j r').
      { intros j Hj Hr. eapply Permutation_in in Hr; [|apply Permutation_sym; exact Pr]. apply INR in Hr. tauto. }
      clear - ND NR DJ. induction ND; simpl; auto. constructor.
      * rewrite in_app_iff. intros [?|?]; [contradiction|]. eapply DJ; eauto. now left.
      * apply IHND. intros j Hj. apply DJ. now right.
    + intros j. rewrite zrange_In, in_app_iff. split.
      * intros Hj. destruct (in_dec Z.eq_dec j p); auto. right. eapply Permutation_in; [exact Pr|]. apply INR. auto.
      * intros [Hj|Hj]; [auto|]. eapply Permutation_in in Hj; [|apply Permutation_sym; exact Pr]. apply INR in Hj. tauto.
  - assert (X : forall i j, In i p -> In j r' -> before dir eqv x i j).
    { intros i j Hi Hj. eapply Permutation_in in Hj; [|apply Permutation_sym; exact Pr]. apply INR in Hj as [Hj NJ].
      destruct (zget_some x i (R i Hi)) as (v & Ev), (zget_some x j Hj) as (w & Ew).
      exists v, w. repeat split; auto. left. pose proof (B i j v w Hi NJ Ev Ew) as D.
      destruct (dir v w) eqn:D'; auto. exfalso. apply NJ. assert (i = j); [|congruence].
      eapply INJ; eauto. apply (vo_eqv _ _ VO). auto. }
    clear - S Sr X. induction S; simpl; auto. constructor.
    + apply IHS. intros. apply X; auto. now right.
    + apply Forall_app. split; auto. apply Forall_forall. intros j Hj. apply X; auto. now left.
Qed.

Theorem C19_topk_distinct {V} (dir rdir eqv : V -> V -> bool) (sortFunc : Z -> list V -> list Z -> option (list Z)) large outer n data order k :
  value_order dir eqv -> (forall v w, rdir v w = dir w v) -> (forall st, comparison_sort dir eqv (sortFunc st)) ->
  (length outer <= 5)%nat -> okshape (outer ++ [n]) -> is_data (outer ++ [n]) data -> initial_order outer n order ->
  0 <= k <= n -> (large = false -> k < n) ->
  exists order', omTensorTopK dir rdir eqv sortFunc large (outer ++ [n]) (omStrides (outer ++ [n])) data order k true = Some order' /\
    forall o x, valid outer o -> is_row outer n data o x ->
      (forall i j v w, zget x i = Some v -> zget x j = Some w -> eqv v w = true -> i = j) ->
      exists p, is_row outer n order' o p /\ top_k dir eqv k x (firstn (Z.to_nat k) p).
Proof.
  intros VO RD HF HR OK HD HO Hk HL.
  destruct (C19_topk_partial dir rdir eqv sortFunc large outer n data order k true) as (order' & E & HD' & G); auto.
  exists order'. split; auto. intros o x HV HX INJ. destruct (G o x HV HX) as (p & Hp & B & S).
  exists p. split; auto. apply best_top_k; auto. intros idx NE FO ND.
  destruct (C18_quick_sort dir eqv VO (fun _ => 0) x idx NE FO ND) as (idx' & _ & P & S'). eauto.
Qed.

(** Integers in descending order are a [value_order]. *)
Lemma gt_order : value_order (fun a b => b <? a) Z.eqb.
Proof.
  constructor.
  - intros x. apply Z.ltb_irrefl.
  - intros x y z H1 H2. apply Z.ltb_lt in H1, H2. apply Z.ltb_lt. lia.
  - intros x y. rewrite Z.eqb_eq, !Z.ltb_ge. lia.
  - intros x y z H1 H2. apply Z.eqb_eq in H1, H2. apply Z.eqb_eq. lia.
Qed.

(** C19, as ONNX states it (ties go to the lower index), is false: with the heap
    path, the largest 2 of [1;1;2;0] are reported as indices [2;1], not [2;0]. *)
Definition zsort (st : Z) : list Z -> list Z -> option (list Z) :=
  fun d idx => quick_sort_custom (fun a b => b <? a) Z.eqb (map (fun _ => 0) (seq 0 (length idx))) d idx.
Lemma zsort_ok st : comparison_sort (fun a b => b <? a) Z.eqb (zsort st).
Proof. intros d idx NE HO ND. apply (C18_quick_sort _ _ gt_order (fun _ => 0)); auto. Qed.

Theorem C19_ties_refuted :
  exists data order' p, omTensorTopK (fun a b => b <? a) Z.ltb Z.eqb zsort false [4] (omStrides [4]) data (zrange 4) 2 true = Some order' /\
    is_row [] 4 order' [] p /\ firstn 2 p = [2; 1] /\
    ~ top_k (fun a b => b <? a) Z.eqb 2 data (firstn 2 p) /\ top_k (fun a b => b <? a) Z.eqb 2 data [2; 0].
Proof.
  exists [1; 1; 2; 0], [2; 1; 0; 3], [2; 1; 0; 3]. split; [reflexivity|]. split.
  { split; [reflexivity|]. intros i Hi. assert (i = 0 \/ i = 1 \/ i = 2 \/ i = 3) as [->|[->|[->| ->]]] by lia; reflexivity. }
  split; [reflexivity|]. split.
  - intros (_ & rest & P & S). cbn [firstn app] in *.
    inversion S as [|? ? S1 F1]; subst. inversion S1 as [|? ? S2 F2]; subst.
    assert (In 0 rest).
    { assert (In 0 (2 :: 1 :: rest)) by (eapply Permutation_in; [exact P|]; simpl; auto).
      simpl in H. destruct H as [H|[H|H]]; [discriminate|discriminate|auto]. }
    rewrite Forall_forall in F2. destruct (F2 0 H) as (v & w & E1 & E2 & [D|[_ D]]); [|lia].
    vm_compute in E1, E2. injection E1 as <-. injection E2 as <-. discriminate.
  - split; [reflexivity|]. exists [1; 3]. split.
    + change (zrange (Z.of_nat (length [1; 1; 2; 0]))) with [0; 1; 2; 3]. apply NoDup_Permutation.
      * repeat constructor; simpl; lia.
      * cbn [app]. repeat constructor; simpl; lia.
      * intros x. simpl. lia.
    + cbn [app]. repeat constructor; unfold before; eexists; eexists; (split; [reflexivity|split; [reflexivity|]]); vm_compute; auto.
Qed.

(** Non-vacuity: a 2x3 tensor is sorted row by row, ties by index. *)
Example C18_nonvacuous : initial_order [2] 3 [0;1;2;0;1;2] /\
  omTensorSort zsort [2; 3] (omStrides [2; 3]) [5;7;5;1;2;3] [0;1;2;0;1;2] = Some [1;0;2;2;1;0].
Proof.
  split; [|reflexivity]. split; [reflexivity|]. intros o HV. inversion HV as [|? x ? ? Hx HV']; subst. inversion HV'; subst.
  split; [reflexivity|]. intros i Hi.
  assert (x = 0 \/ x = 1) as [->| ->] by lia; assert (i = 0 \/ i = 1 \/ i = 2) as [->|[->| ->]] by lia; reflexivity.
Qed.
Example C19_nonvacuous :
  omTensorTopK (fun a b => b <? a) Z.ltb Z.eqb zsort false [2; 3] (omStrides [2; 3]) [5;8;7;1;2;3] [0;1;2;0;1;2] 2 true
    = Some [1;2;0;2;1;0].
Proof. reflexivity. Qed.

Print Assumptions C18_quick_sort.
Print Assumptions C18_sort.
Print Assumptions C18_sort_builtin.
Print Assumptions C19_topk_partial.
Print Assumptions C19_topk_distinct.
Print Assumptions C19_ties_refuted.
