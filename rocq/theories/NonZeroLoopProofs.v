From Coq Require Import List ZArith Lia Bool Arith Permutation Sorted.
From Verif Require Import Util TensorSpec TensorLemmas ShapeOpsCopies LoopModel LoopProofs CumSumProofs GatherLoopProofs CopyLoopProofs NonZeroLoopModel.
Import ListNotations.
Open Scope Z_scope.

(** Counters of one dimension: [cnt a k] for dimension [a], position [k]. *)
Definition reps (s : list Z) (sums : list (mem Z)) (cnt : nat -> Z -> Z) : Prop :=
  length sums = length s /\ forall a, (a < length s)%nat -> exists m, nth_error sums a = Some m /\ mShape m = [nth a s 0] /\
    forall k, 0 <= k < nth a s 0 -> mAt m [k] = Some (cnt a k).

Lemma reps_nil sums cnt : reps [] sums cnt <-> sums = [].
Proof. split; [intros [H _]; now destruct sums|intros ->; split; auto; cbn; lia]. Qed.
Lemma reps_cons d s sums cnt : reps (d :: s) sums cnt <-> exists m ms, sums = m :: ms /\ mShape m = [d] /\ (forall k, 0 <= k < d -> mAt m [k] = Some (cnt O k)) /\ reps s ms (fun a => cnt (S a)).
Proof.
  split.
  - intros [L H]. destruct sums as [|m ms]; [discriminate|]. exists m, ms. split; auto. destruct (H O) as (m' & E & A & B); [cbn; lia|]. injection E as <-. split; auto. split; auto.
    split; [cbn in L; lia|]. intros a Ha. destruct (H (S a)) as (m' & E & A' & B'); [cbn; lia|]. exists m'. auto.
  - intros (m & ms & -> & A & B & L & H). split; [cbn; lia|]. intros [|a] Ha.
    + exists m. auto.
    + cbn in Ha. destruct (H a ltac:(lia)) as (m' & E & A' & B'). exists m'. auto.
Qed.

Lemma iter1 {S} d (f : list Z -> S -> option S) s : iterate [d] f s = foldM (fun k s => f [k] s) (zrange d) s.
Proof. unfold iterate. cbn [indices]. revert s. induction (zrange d) as [|k l IH]; intros s; cbn [flat_map map app foldM]; auto. destruct (f [k] s); cbn [obind]; auto. Qed.

Lemma zeroSums_ok s : exists sums, zeroSums s = Some sums /\ reps s sums (fun _ _ => 0).
Proof.
  induction s as [|d s (ms & E & R)]; cbn [zeroSums]; [exists []; split; auto; now apply reps_nil|].
  destruct (iterate_fill [d] (fun _ => Some 0) (alloc [d])) as (m & Em & Sm & A); auto; [intros; eexists; reflexivity|].
  cbn [obind] in Em. rewrite Em. cbn [obind]. rewrite E. cbn [obind]. exists (m :: ms). split; auto. apply reps_cons. exists m, ms. split; auto. split; auto. split; auto.
  intros k K. apply A. apply valid_cons. split; auto. constructor.
Qed.
Lemma addSums_ok z s : forall idx sums cnt, valid s idx -> reps s sums cnt ->
  exists sums', addSums idx z sums = Some sums' /\ reps s sums' (fun a k => cnt a k + if nth a idx 0 =? k then z else 0).
Proof.
  induction s as [|d s IH]; intros idx sums cnt V R.
  - inversion V; subst. apply reps_nil in R as ->. exists []. split; auto. now apply reps_nil.
  - destruct idx as [|i idx]; [inversion V|]. apply valid_cons in V as [I V]. apply reps_cons in R as (m & ms & -> & Sm & A & R).
    cbn [addSums]. assert (Vi : valid (mShape m) [i]) by (rewrite Sm; apply valid_cons; split; auto; constructor).
    rewrite load_ok, A by auto. cbn [obind]. rewrite store_ok by auto. cbn [obind]. destruct (IH idx ms _ V R) as (ms' & E & R'). rewrite E. cbn [obind].
    eexists. split; [reflexivity|]. apply reps_cons. eexists _, _. split; [reflexivity|]. cbn [mShape mAt nth]. split; [exact Sm|]. split; [|exact R'].
    intros k K. cbn [ieqb]. rewrite andb_true_r. destruct (Z.eqb_spec i k) as [->|N]; [reflexivity|]. rewrite A by auto. f_equal. lia.
Qed.

Definition countZ {A} (p : A -> bool) (l : list A) : Z := Z.of_nat (length (filter p l)).
Lemma countZ_nonneg {A} (p : A -> bool) l : 0 <= countZ p l.
Proof. unfold countZ. lia. Qed.
Lemma countZ_cons {A} (p : A -> bool) x l : countZ p (x :: l) = (if p x then 1 else 0) + countZ p l.
Proof. unfold countZ. cbn [filter]. destruct (p x); cbn [length]; lia. Qed.
Lemma filter_len_ext {A} (f g : A -> bool) l : (forall x, f x = g x) -> length (filter f l) = length (filter g l).
Proof. intros H. rewrite (filter_ext f g); auto. Qed.

Section NonZero.
Context {T : Type} (isZero : T -> bool) (x : mem T) (dv : list Z -> T).
Notation s := (mShape x).
Hypothesis HD : forall i, valid s i -> mAt x i = Some (dv i).
Notation nonzero := (fun i => negb (isZero (dv i))).

Lemma countLoop_ok : forall sums cnt n, reps s sums cnt ->
  exists sums', countLoop isZero x (n, sums) = Some (n + countZ nonzero (indices s), sums') /\
    reps s sums' (fun a k => cnt a k + countZ (fun i => nonzero i && (nth a i 0 =? k)) (indices s)).
Proof.
  unfold countLoop, iterate. assert (G : forall l, (forall i, In i l -> valid s i) -> forall sums cnt n, reps s sums cnt ->
    exists sums', foldM (fun i st => v <- load x i ;; let zeroOrOne := if isZero v then 0 else 1 in sums <- addSums i zeroOrOne (snd st) ;; Some (fst st + zeroOrOne, sums)) l (n, sums)
      = Some (n + countZ nonzero l, sums') /\ reps s sums' (fun a k => cnt a k + countZ (fun i => nonzero i && (nth a i 0 =? k)) l)).
  { induction l as [|i l IH]; intros Hl sums cnt n R; cbn [foldM].
    - exists sums. unfold countZ. cbn. rewrite Z.add_0_r. split; auto. destruct R as [L R]. split; auto. intros a Ha. destruct (R a Ha) as (m & E & A & B). exists m. split; auto. split; auto. intros k K. rewrite B by auto. f_equal. lia.
    - assert (V : valid s i) by (apply Hl; now left). rewrite load_ok, HD by auto. cbn [obind fst snd]. cbn zeta.
      destruct (addSums_ok (if isZero (dv i) then 0 else 1) s i sums cnt V R) as (sums1 & E1 & R1). rewrite E1. cbn [obind].
      destruct (IH (fun j Hj => Hl j (or_intror Hj)) _ _ (n + if isZero (dv i) then 0 else 1) R1) as (sums2 & E2 & R2). exists sums2. cbn zeta in E2. rewrite E2. split.
      + do 2 f_equal. rewrite countZ_cons. destruct (isZero (dv i)); cbn [negb]; lia.
      + destruct R2 as [L R2]. split; auto. intros a Ha. destruct (R2 a Ha) as (m & E & A & B). exists m. split; auto. split; auto. intros k K. rewrite B by auto. f_equal.
        rewrite countZ_cons. destruct (isZero (dv i)), (nth a i 0 =? k); cbn [negb andb]; lia. }
  intros sums cnt n R. apply G; auto. intros i Hi. now apply indices_In.
Qed.

Definition row (c : Z -> Z) (d : Z) : list Z := flat_map (fun j => repeat j (Z.to_nat (c j))) (zrange d).

Lemma scan_ok (m : mem Z) (c : Z -> Z) d i : mShape m = [d] -> (forall k, 0 <= k < d -> mAt m [k] = Some (c k) /\ 0 <= c k) -> 0 <= i ->
  scanSums m i = Some (match nth_error (row c d) (Z.to_nat i) with Some j => j | None => -1 end).
Proof.
  intros Sm A Hi. unfold scanSums. rewrite Sm, iter1. unfold row.
  set (F := fun (k : Z) (st : Z * Z) => o <- load m [k] ;; (let s := snd st + o in Some (if (i <? s) && (fst st =? -1) then nth 0 [k] 0 else fst st, s))).
  assert (D : forall l, (forall k, In k l -> 0 <= k < d) -> forall p t, p <> -1 -> exists t', foldM F l (p, t) = Some (p, t')).
  { induction l as [|k l IH]; intros Hl p t P; cbn [foldM]; [eexists; reflexivity|]. destruct (A k (Hl k (or_introl eq_refl))) as [Ak Pk]. unfold F at 1.
    rewrite load_ok, Ak by (rewrite Sm; apply valid_cons; split; [apply Hl; now left|constructor]). cbn [obind fst snd]. cbn zeta.
    replace (p =? -1) with false by (symmetry; apply Z.eqb_neq; auto). rewrite andb_false_r. apply IH; auto. intros; apply Hl; now right. }
  assert (G : forall l, (forall k, In k l -> 0 <= k < d) -> forall t, t <= i -> exists t',
    foldM F l (-1, t) = Some (match nth_error (flat_map (fun j => repeat j (Z.to_nat (c j))) l) (Z.to_nat (i - t)) with Some j => j | None => -1 end, t')).
  { induction l as [|k l IH]; intros Hl t Ht; cbn [foldM flat_map]; [exists t; destruct (Z.to_nat (i - t)); reflexivity|].
    destruct (A k (Hl k (or_introl eq_refl))) as [Ak Pk]. unfold F at 1.
    rewrite load_ok, Ak by (rewrite Sm; apply valid_cons; split; [apply Hl; now left|constructor]). cbn [obind fst snd]. cbn zeta. rewrite Z.eqb_refl, andb_true_r. cbn [nth].
    destruct (Z.ltb_spec i (t + c k)).
    - pose proof (Hl k (or_introl eq_refl)). destruct (D l (fun j Hj => Hl j (or_intror Hj)) k (t + c k) ltac:(lia)) as [t' E]. exists t'. rewrite E. do 2 f_equal.
      rewrite nth_error_app1 by (rewrite repeat_length; lia). rewrite nth_error_repeat by lia. reflexivity.
    - destruct (IH (fun j Hj => Hl j (or_intror Hj)) (t + c k) ltac:(lia)) as [t' E]. exists t'. rewrite E. do 2 f_equal.
      rewrite nth_error_app2 by (rewrite repeat_length; lia). rewrite repeat_length. replace (Z.to_nat (i - t) - Z.to_nat (c k))%nat with (Z.to_nat (i - (t + c k))) by lia. reflexivity. }
  destruct (G (zrange d) (fun k Hk => proj1 (zrange_In d k) Hk) 0 Hi) as [t' E]. fold F. rewrite E. cbn [obind fst]. now rewrite Z.sub_0_r.
Qed.

Lemma zseq_nodup n : forall p, NoDup (zseq p n).
Proof. induction n as [|n IH]; intros p; cbn [zseq]; constructor; auto. rewrite zseq_In. lia. Qed.
Lemma count_occ_filter (f : list Z -> Z) (l : list (list Z)) j : count_occ Z.eq_dec (map f l) j = length (filter (fun i => f i =? j) l).
Proof. induction l as [|i l IH]; cbn [map count_occ filter]; auto. destruct (Z.eq_dec (f i) j), (Z.eqb_spec (f i) j); try contradiction; cbn [length]; auto. Qed.
Lemma count_occ_row c l j : NoDup l -> count_occ Z.eq_dec (flat_map (fun k => repeat k (Z.to_nat (c k))) l) j = if in_dec Z.eq_dec j l then Z.to_nat (c j) else O.
Proof.
  induction l as [|k l IH]; intros N; cbn [flat_map]; [reflexivity|]. inversion N as [|? ? N1 N2]; subst. rewrite count_occ_app, (IH N2).
  destruct (Z.eq_dec k j) as [->|NE].
  - rewrite count_occ_repeat_eq by reflexivity. destruct (in_dec Z.eq_dec j (j :: l)) as [_|C]; [|exfalso; apply C; now left]. destruct (in_dec Z.eq_dec j l); [contradiction|lia].
  - rewrite count_occ_repeat_neq by auto. destruct (in_dec Z.eq_dec j (k :: l)) as [I|C], (in_dec Z.eq_dec j l) as [I'|C']; auto; [destruct I; contradiction|exfalso; apply C; now right].
Qed.
Lemma row_sorted c d : StronglySorted Z.le (row c d).
Proof.
  unfold row, zrange. generalize 0 as p. generalize (Z.to_nat d) as n. induction n as [|n IH]; intros p; cbn [zseq flat_map]; [constructor|].
  generalize (IH (p + 1)). assert (B : Forall (fun y => p <= y) (flat_map (fun j => repeat j (Z.to_nat (c j))) (zseq (p + 1) n))).
  { apply Forall_forall. intros y Hy. apply in_flat_map in Hy as (j & Hj & Hy). apply repeat_spec in Hy as ->. apply zseq_In in Hj. lia. }
  revert B. generalize (flat_map (fun j => repeat j (Z.to_nat (c j))) (zseq (p + 1) n)). intros l B SS.
  induction (Z.to_nat (c p)) as [|k IHk]; cbn [repeat app]; auto. constructor; auto. apply Forall_app. split; auto. apply Forall_forall. intros y Hy. apply repeat_spec in Hy as ->. lia.
Qed.

Definition nzList : list (list Z) := filter nonzero (indices s).
Lemma row_perm a : (a < length s)%nat ->
  Permutation (row (fun k => countZ (fun i => nonzero i && (nth a i 0 =? k)) (indices s)) (nth a s 0)) (map (fun i => nth a i 0) nzList).
Proof.
  intros Ha. apply (Permutation_count_occ Z.eq_dec). intros j. unfold row. rewrite count_occ_row by (unfold zrange; apply zseq_nodup). rewrite count_occ_filter.
  assert (E : length (filter (fun i => nth a i 0 =? j) nzList) = length (filter (fun i => nonzero i && (nth a i 0 =? j)) (indices s))).
  { unfold nzList. generalize (indices s). induction l as [|i l IH]; cbn [filter]; auto. destruct (nonzero i); cbn [andb filter]; auto. destruct (nth a i 0 =? j); cbn [length]; auto. }
  rewrite E. unfold countZ. rewrite Nat2Z.id. destruct (in_dec Z.eq_dec j (zrange (nth a s 0))) as [I|N]; auto.
  destruct (filter (fun i => nonzero i && (nth a i 0 =? j)) (indices s)) as [|i l] eqn:F; auto. exfalso. apply N.
  assert (In i (filter (fun i => nonzero i && (nth a i 0 =? j)) (indices s))) as Hi by (rewrite F; now left). apply filter_In in Hi as [H1 H2]. apply indices_In in H1.
  apply andb_true_iff in H2 as [_ H2]. apply Z.eqb_eq in H2. subst j. apply zrange_In. now apply nth_valid.
Qed.

Lemma nonZero_ok : exists out, nonZeroLoop isZero x = Some out /\ mShape out = [Z.of_nat (length s); Z.of_nat (length nzList)] /\
  forall a, (a < length s)%nat -> exists r, StronglySorted Z.le r /\ Permutation r (map (fun i => nth a i 0) nzList) /\
    forall k, 0 <= k < Z.of_nat (length nzList) -> mAt out [Z.of_nat a; k] = zget r k.
Proof.
  unfold nonZeroLoop. destruct (zeroSums_ok s) as (sums0 & E0 & R0). rewrite E0. cbn [obind]. destruct (countLoop_ok sums0 _ 0 R0) as (sums & E1 & R). rewrite E1. cbn [obind fst snd].
  set (cnt := fun (a : nat) k => countZ (fun i => nonzero i && (nth a i 0 =? k)) (indices s)).
  assert (R' : reps s sums cnt) by exact R. clear R. replace (0 + countZ nonzero (indices s)) with (Z.of_nat (length nzList)) by reflexivity.
  set (n := Z.of_nat (length nzList)). set (rank := Z.of_nat (length s)).
  set (f := fun p : list Z => rsum <- zget sums (nth 1 p 0) ;; scanSums rsum (nth 0 p 0)).
  assert (Fv : forall a k, (a < length s)%nat -> 0 <= k < n -> f [k; Z.of_nat a] = zget (row (cnt a) (nth a s 0)) k).
  { intros a k Ha K. unfold f. cbn [nth]. destruct R' as [_ R']. destruct (R' a Ha) as (m & E & Sm & A). unfold zget at 1. destruct (Z.ltb_spec (Z.of_nat a) 0); [lia|]. rewrite Nat2Z.id, E. cbn [obind].
    rewrite (scan_ok m (cnt a) (nth a s 0) k); auto; [|intros j J; split; [apply A; auto|apply countZ_nonneg]|lia].
    unfold zget. destruct (Z.ltb_spec k 0); [lia|]. assert (L : (Z.to_nat k < length (row (cnt a) (nth a s 0%Z)))%nat).
    { pose proof (Permutation_length (row_perm a Ha)) as PL. rewrite map_length in PL. change (length (row (cnt a) (nth a s 0%Z)) = length nzList) in PL. rewrite PL. unfold n in K. lia. }
    destruct (nth_error (row (cnt a) (nth a s 0)) (Z.to_nat k)) eqn:EN; auto. apply nth_error_None in EN. lia. }
  assert (P : forall p, valid [n; rank] p -> exists k a, p = [k; Z.of_nat a] /\ 0 <= k < n /\ (a < length s)%nat).
  { intros p V. destruct p as [|k [|a [|]]]; try solve [inversion V as [|? ? ? ? ? V2]; inversion V2 as [|? ? ? ? ? V3]; inversion V3].
    apply valid_cons in V as [K V]. apply valid_cons in V as [A _]. exists k, (Z.to_nat a). rewrite Z2Nat.id by lia. split; auto. split; auto. unfold rank in A. lia. }
  destruct (iterate_stores [n; rank] (fun p => [nth 1 p 0; nth 0 p 0]) f (alloc [rank; n])) as (out & E & S1 & A & _).
  - intros p V. destruct (P p V) as (k & a & -> & K & Ha). cbn [nth alloc mShape]. split; [repeat (apply valid_cons; split; auto); try constructor; unfold rank; lia|].
    rewrite Fv by auto. assert (L : (Z.to_nat k < length (row (cnt a) (nth a s 0%Z)))%nat).
    { pose proof (Permutation_length (row_perm a Ha)) as PL. rewrite map_length in PL. change (length (row (cnt a) (nth a s 0%Z)) = length nzList) in PL. rewrite PL. unfold n in K. lia. }
    unfold zget. destruct (Z.ltb_spec k 0); [lia|]. destruct (nth_error (row (cnt a) (nth a s 0)) (Z.to_nat k)) eqn:EN; [eexists; reflexivity|]. apply nth_error_None in EN. lia.
  - intros p q Vp Vq EQ. destruct (P p Vp) as (k & a & -> & K & Ha). destruct (P q Vq) as (k' & a' & -> & K' & Ha'). cbn [nth] in EQ. injection EQ as E2 E3. congruence.
  - exists out. split; [|split; [exact S1|]].
    + rewrite <- E. change [n; rank] with ([n] ++ [rank]). unfold iterate at 1 3. rewrite indices_app, <- foldM_flat. apply foldM_ext. intros i m Hi. apply indices_In in Hi.
      destruct i as [|i [|]]; try solve [inversion Hi as [|? ? ? ? ? V2]; inversion V2]. rewrite foldM_map. unfold iterate. apply foldM_ext. intros b m' Hb. apply indices_In in Hb.
      destruct b as [|b [|]]; try solve [inversion Hb as [|? ? ? ? ? V2]; inversion V2]. reflexivity.
    + intros a Ha. exists (row (cnt a) (nth a s 0)). split; [apply row_sorted|]. split; [now apply row_perm|]. intros k K.
      rewrite <- Fv by auto. apply (A [k; Z.of_nat a]). repeat (apply valid_cons; split; auto); try constructor; unfold rank; lia.
Qed.
End NonZero.

(** Sorted permutations are equal. *)
Lemma sorted_perm_eq (l : list Z) : forall m, StronglySorted Z.le l -> StronglySorted Z.le m -> Permutation l m -> l = m.
Proof.
  induction l as [|a l IH]; intros m Sl Sm P; [symmetry; now apply Permutation_nil|]. destruct m as [|b m]; [apply Permutation_sym, Permutation_nil in P; discriminate|].
  inversion Sl as [|? ? S1 F1]; subst. inversion Sm as [|? ? S2 F2]; subst. rewrite Forall_forall in F1, F2.
  assert (a = b).
  { assert (In a (b :: m)) as [->|I1] by (eapply Permutation_in; [exact P|now left]); auto. assert (In b (a :: l)) as [->|I2] by (eapply Permutation_in; [apply Permutation_sym; exact P|now left]); auto.
    specialize (F1 b I2). specialize (F2 a I1). lia. }
  subst b. f_equal. apply IH; auto. eapply Permutation_cons_inv; exact P.
Qed.
Lemma filter_sorted {A} (R : A -> A -> Prop) p l : StronglySorted R l -> StronglySorted R (filter p l).
Proof.
  induction 1 as [|a l SS IH F]; cbn [filter]; [constructor|]. destruct (p a); auto. constructor; auto. rewrite Forall_forall in *. intros y Hy. apply filter_In in Hy as [Hy _]. auto.
Qed.
Lemma map_sorted {A} (R : A -> A -> Prop) (f : A -> Z) l : (forall a b, R a b -> f a <= f b) -> StronglySorted R l -> StronglySorted Z.le (map f l).
Proof. intros H. induction 1 as [|a l SS IH F]; cbn [map]; constructor; auto. rewrite Forall_forall in *. intros y Hy. apply in_map_iff in Hy as (z & <- & Hz). auto. Qed.
Lemma indices_first_sorted s : (1 <= length s)%nat -> StronglySorted (fun i j => nth 0 i 0 <= nth 0 j 0) (indices s).
Proof.
  destruct s as [|d s]; [cbn; lia|]. intros _. cbn [indices]. unfold zrange. set (R := fun i j : list Z => nth 0 i 0 <= nth 0 j 0).
  generalize 0 as p. generalize (Z.to_nat d) as n.
  induction n as [|n IH]; intros p; cbn [zseq flat_map]; [constructor|]. generalize (IH (p + 1)).
  assert (B : Forall (fun y => p <= nth 0 y 0) (flat_map (fun i => map (cons i) (indices s)) (zseq (p + 1) n))).
  { apply Forall_forall. intros y Hy. apply in_flat_map in Hy as (j & Hj & Hy). apply in_map_iff in Hy as (r & <- & _). apply zseq_In in Hj. cbn. lia. }
  revert B. generalize (flat_map (fun i => map (cons i) (indices s)) (zseq (p + 1) n)). intros l B SS. clear IH.
  induction (indices s) as [|k t IHk]; cbn [map app]; auto. constructor; auto. apply Forall_app. split; auto.
  apply Forall_forall. intros y Hy. apply in_map_iff in Hy as (r & <- & _). unfold R. cbn. lia.
Qed.
