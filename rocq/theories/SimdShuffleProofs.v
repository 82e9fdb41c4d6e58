(** Proofs about the horizontal SIMD reductions. *)
From Coq Require Import List ZArith Lia Bool Arith Permutation.
From Verif Require Import Util TensorSpec TensorLemmas BroadcastModel BroadcastFlat BroadcastProps LoopModel LoopProofs CumSumProofs GatherLoopModel GatherLoopProofs CopyLoopProofs ArgLoopModel ArgLoopProofs ReduceLoopSpec ReduceLoopModel ReduceLoopProofs SimdReduceModel SimdReduceProofs.
Import ListNotations.
Open Scope Z_scope.

Section Nat.
Local Open Scope nat_scope.
Lemma nth_flat {A} (f : nat -> list A) k d : (forall p, length (f p) = k) -> forall n a q e, q < n -> e < k -> nth (q * k + e) (flat_map f (seq a n)) d = nth e (f (a + q)) d.
Proof.
  intros H. induction n as [|n IH]; intros a q e Q E; [lia|]. cbn [seq flat_map]. destruct q as [|q].
  - cbn [Nat.mul Nat.add]. rewrite app_nth1 by (rewrite H; lia). now rewrite Nat.add_0_r.
  - rewrite app_nth2 by (rewrite H; cbn; lia). rewrite H. replace (S q * k + e - k) with (q * k + e) by (cbn; lia). rewrite IH by lia. f_equal. f_equal. lia.
Qed.
Lemma flat_length {A} (f : nat -> list A) k : (forall p, length (f p) = k) -> forall n a, length (flat_map f (seq a n)) = n * k.
Proof. intros H. induction n as [|n IH]; intros a; cbn [seq flat_map]; auto. rewrite app_length, H, IH. reflexivity. Qed.
Lemma nth_upd_gen {A} (l : list A) i j v d : i < length l -> nth j (upd i v l) d = if j =? i then v else nth j l d.
Proof. revert i j; induction l as [|x l IH]; intros [|i] [|j] H; cbn in *; try lia; auto. rewrite IH by lia. reflexivity. Qed.

Lemma nth_map_gen {A B} (f : A -> B) l i d d' : i < length l -> nth i (map f l) d = f (nth i l d').
Proof. intros H. rewrite (nth_indep _ d (f d')) by (now rewrite map_length). apply map_nth. Qed.
Lemma merge_nth {T} (d : T) l r step m half q e : 0 < step -> length l = 2 * step * m -> length r = length l -> half + step * m <= length l -> q < m -> e < 2 * step ->
  nth (q * (2 * step) + e) (shuffle d l r (shuffleMask (length l) step half)) d = if e <? step then nth (half + q * step + e) l d else nth (half + q * step + (e - step)) r d.
Proof.
  intros P L R H Q E. unfold shuffle, shuffleMask. rewrite L. replace (2 * step * m / (2 * step)) with m by (rewrite Nat.mul_comm, Nat.div_mul; lia).
  assert (LF : forall p, length (map (fun e => half + p * step + e) (seq 0 step) ++ map (fun e => half + 2 * step * m + p * step + e) (seq 0 step)) = 2 * step).
  { intros p. rewrite app_length, !map_length, seq_length. lia. }
  rewrite (nth_map_gen _ _ _ _ 0) by (rewrite (flat_length _ _ LF); nia).
  rewrite (nth_flat _ _ _ LF) by auto. cbn [Nat.add].
  assert (MN : nth e (map (fun e => half + q * step + e) (seq 0 step) ++ map (fun e => half + 2 * step * m + q * step + e) (seq 0 step)) 0 = if e <? step then half + q * step + e else half + 2 * step * m + q * step + (e - step)).
  { destruct (Nat.ltb_spec e step).
    - rewrite app_nth1 by (rewrite map_length, seq_length; lia). rewrite (nth_map_gen _ _ _ _ 0) by (rewrite seq_length; lia). now rewrite seq_nth by lia.
    - rewrite app_nth2 by (rewrite map_length, seq_length; lia). rewrite map_length, seq_length. rewrite (nth_map_gen _ _ _ _ 0) by (rewrite seq_length; lia). now rewrite seq_nth by lia. }
  rewrite MN. destruct (Nat.ltb_spec e step).
  - rewrite app_nth1 by nia. reflexivity.
  - rewrite app_nth2 by nia. f_equal. nia.
Qed.
Lemma merge_length {T} (d : T) l r step m half : 0 < step -> length l = 2 * step * m -> length (shuffle d l r (shuffleMask (length l) step half)) = length l.
Proof.
  intros P L. unfold shuffle, shuffleMask. rewrite map_length, L. replace (2 * step * m / (2 * step)) with m by (rewrite Nat.mul_comm, Nat.div_mul; lia).
  rewrite (flat_length _ (2 * step)) by (intros p; rewrite app_length, !map_length, seq_length; lia). lia.
Qed.
Lemma map2_length {A B C} (f : A -> B -> C) l m : length l = length m -> length (map2 f l m) = length l.
Proof. revert m; induction l as [|x l IH]; intros [|y m] H; cbn in *; try lia; auto. Qed.
Lemma map2_nth {A B C} (f : A -> B -> C) l m i da db dc : length l = length m -> i < length l -> nth i (map2 f l m) dc = f (nth i l da) (nth i m db).
Proof. revert m i; induction l as [|x l IH]; intros [|y m] [|i] H I; cbn in *; try lia; auto. apply IH; lia. Qed.

Section Multi.
Context {T : Type} (op : T -> T -> T) (identity : T).
Hypothesis opA : forall x y z, op x (op y z) = op (op x y) z.
Hypothesis opC : forall x y, op x y = op y x.
Hypothesis opI : forall x, op identity x = x.
Let pairUp (step : nat) (l r : list T) : list T := map2 (fun high low => op low high) (mergeHigh identity l r step) (mergeLow identity l r step).
Lemma pairRound_ok step np (a : list (list T)) : 2 * np <= length a -> length (pairRound op identity step np a) = length a /\
  forall p, p < np -> nth p (pairRound op identity step np a) [] = pairUp step (nth (2 * p) a []) (nth (2 * p + 1) a []).
Proof.
  intros H. assert (G : forall k, k <= np -> let b := pairRound op identity step k a in length b = length a /\ forall p, nth p b [] = if p <? k then pairUp step (nth (2 * p) a []) (nth (2 * p + 1) a []) else nth p a []).
  { induction k as [|k IH]; intros K; cbn zeta.
    - split; [reflexivity|]. intros p. reflexivity.
    - destruct (IH ltac:(lia)) as [L N]. unfold pairRound in *. rewrite seq_S, fold_left_app. cbn [fold_left Nat.add]. set (b := fold_left _ (seq 0 k) a) in *. split; [rewrite upd_length; exact L|].
      intros p. rewrite nth_upd_gen by lia. destruct (Nat.eqb_spec p k) as [->|NE].
      + destruct (Nat.ltb_spec k (S k)); [|lia]. rewrite !N. destruct (Nat.ltb_spec (2 * k) k), (Nat.ltb_spec (2 * k + 1) k); try lia. reflexivity.
      + rewrite N. destruct (Nat.ltb_spec p k), (Nat.ltb_spec p (S k)); auto; lia. }
  destruct (G np (le_n _)) as [L N]. split; auto. intros p P. rewrite N. destruct (Nat.ltb_spec p np); [reflexivity|lia].
Qed.
Definition partial (st : nat) (a : list (list T)) (r q : nat) : T := nth (q * st + r mod st) (nth (r / st) a []) identity.
Lemma multi_ok (R : nat -> T) : forall j st a fuel, 0 < st -> j <= fuel -> let n := 2 ^ j * st in 2 ^ j <= length a -> (forall p, p < 2 ^ j -> length (nth p a []) = n) ->
  (forall r, r < n -> msum op identity (map (partial st a r) (seq 0 (2 ^ j))) = R r) ->
  exists out, multiReduction op identity fuel n st (2 ^ j / 2) a = Some out /\ length out = n /\ forall r, r < n -> nth r out identity = R r.
Proof.
  induction j as [|j IH]; intros st a fuel P F n LA LV HR.
  - assert (EN : n = st) by (unfold n; cbn; lia). replace (multiReduction op identity fuel n st (2 ^ 0 / 2) a) with (Some (nth 0 a [])).
    2:{ destruct fuel; cbn [multiReduction]; destruct (Nat.ltb_spec st n); auto; lia. }
    eexists. split; [reflexivity|]. split; [apply LV; cbn; lia|]. intros r Hr. rewrite <- (HR r Hr). change (2 ^ 0) with 1. cbn [seq map]. unfold msum. cbn [fold_left]. rewrite opI. unfold partial. rewrite Nat.div_small, Nat.mod_small by lia. reflexivity.
  - destruct fuel as [|fuel]; [lia|]. set (m := 2 ^ j) in *. assert (M0 : 0 < m) by (unfold m; apply Nat.neq_0_lt_0, Nat.pow_nonzero; lia). assert (E2 : 2 ^ S j = 2 * m) by (cbn; unfold m; lia). rewrite E2 in *.
    assert (EN : n = 2 * st * m) by (unfold n; rewrite E2; nia). cbn [multiReduction]. destruct (Nat.ltb_spec st n); [|nia].
    replace (2 * m / 2) with m by (rewrite Nat.mul_comm, Nat.div_mul; lia).
    destruct (pairRound_ok st m a ltac:(lia)) as [L1 N1].
    assert (PU : forall p, p < m -> length (nth p (pairRound op identity st m a) []) = n /\
      forall q e, q < m -> e < 2 * st -> nth (q * (2 * st) + e) (nth p (pairRound op identity st m a) []) identity =
        let x k := if e <? st then nth (k * st + e) (nth (2 * p) a []) identity else nth (k * st + (e - st)) (nth (2 * p + 1) a []) identity in op (x (q + m)) (x q)).
    { intros p Hp. rewrite N1 by auto. unfold pairUp, mergeHigh, mergeLow. set (l := nth (2 * p) a []). set (r := nth (2 * p + 1) a []).
      assert (LL : length l = 2 * st * m) by (unfold l; rewrite LV by lia; auto). assert (LR : length r = length l) by (unfold l, r; rewrite !LV by lia; auto).
      assert (H2 : length l / 2 = st * m) by (rewrite LL; replace (2 * st * m) with (st * m * 2) by lia; now rewrite Nat.div_mul).
      split.
      - rewrite map2_length; rewrite !(merge_length _ _ _ _ m) by auto; lia.
      - intros q e Q E. cbn zeta. rewrite (map2_nth _ _ _ _ identity identity) by (rewrite !(merge_length _ _ _ _ m) by auto; nia). rewrite H2.
        rewrite !(merge_nth identity l r st m) by (auto; nia). destruct (Nat.ltb_spec e st); f_equal; f_equal; nia. }
    replace n with (2 ^ j * (st * 2)) by (fold m; nia). apply IH; fold m.
    + lia.
    + lia.
    + lia.
    + intros p Hp. replace (m * (st * 2)) with n by nia. now apply PU.
    + intros r Hr. rewrite <- (HR r ltac:(nia)).
      assert (DM : r = 2 * st * (r / (2 * st)) + r mod (2 * st)) by (apply Nat.div_mod; lia). assert (EB : r mod (2 * st) < 2 * st) by (apply Nat.mod_upper_bound; lia).
      replace (st * 2) with (2 * st) by lia. set (p := r / (2 * st)) in *. set (e := r mod (2 * st)) in *. assert (PB : p < m) by nia.
      assert (PO : forall q, partial st a r q = if e <? st then nth (q * st + e) (nth (2 * p) a []) identity else nth (q * st + (e - st)) (nth (2 * p + 1) a []) identity).
      { intros q. unfold partial. destruct (Nat.ltb_spec e st).
        - replace (r / st) with (2 * p) by (apply (Nat.div_unique r st (2 * p) e); nia). replace (r mod st) with e by (apply (Nat.mod_unique r st (2 * p) e); nia). reflexivity.
        - replace (r / st) with (2 * p + 1) by (apply (Nat.div_unique r st (2 * p + 1) (e - st)); nia). replace (r mod st) with (e - st) by (apply (Nat.mod_unique r st (2 * p + 1) (e - st)); nia). reflexivity. }
      rewrite (map_ext_in (partial (2 * st) _ r) (fun q => op (partial st a r (q + m)) (partial st a r q))).
      2:{ intros q Hq. apply in_seq in Hq. unfold partial at 1. fold p e. rewrite (proj2 (PU p PB)) by lia. cbn zeta. now rewrite !PO. }
      rewrite (msum_map2 op identity opA opC opI). replace (2 * m) with (m + m) by lia. rewrite seq_app, map_app, (msum_app op identity opA opC opI). rewrite opC. f_equal. f_equal. cbn [Nat.add].
      rewrite <- (map_map (fun q => q + m) (partial st a r)). f_equal. assert (G : forall k z, map (fun q => q + m) (seq z k) = seq (z + m) k).
      { clear. induction k as [|k IH]; intros a; cbn [seq map]; auto. now rewrite IH. }
      now rewrite G.
Qed.
End Multi.
End Nat.

Lemma addLast_app o x d : addLast (o ++ [x]) d = o ++ [x + d].
Proof. unfold addLast. now rewrite removelast_last, last_last. Qed.
Lemma addSecond_app o x y d : addSecondLast ((o ++ [x]) ++ [y]) d = (o ++ [x + d]) ++ [y].
Proof. unfold addSecondLast. rewrite removelast_last, last_last, addLast_app. reflexivity. Qed.
Lemma forLoop_one lb ub : forLoop lb ub 1 = zseq lb (Z.to_nat (ub - lb)).
Proof. unfold forLoop, zrange. rewrite Z.div_1_r. rewrite (map_ext _ (fun i => lb + i)) by (intros; lia). rewrite zseq_shift. rewrite Z.add_0_r. do 2 f_equal. lia. Qed.
Lemma blocks_cover U VL : 0 <= U -> 1 <= VL -> flat_map (fun i => zseq i (Z.to_nat (Z.min VL (U - i)))) (forLoop 0 U VL) = zseq 0 (Z.to_nat U).
Proof.
  intros HU HV. unfold forLoop, zrange. rewrite flat_map_concat_map, map_map, <- flat_map_concat_map.
  assert (G : forall m, flat_map (fun x => zseq (0 + VL * x) (Z.to_nat (Z.min VL (U - (0 + VL * x))))) (zseq 0 m) = zseq 0 (Z.to_nat (Z.min (VL * Z.of_nat m) U))).
  { induction m as [|m IH]; [cbn [zseq flat_map]; rewrite Z.mul_0_r, Z.min_l by lia; reflexivity|]. rewrite <- Nat.add_1_r at 1. rewrite zseq_app, flat_map_app, IH. cbn [zseq flat_map]. rewrite app_nil_r, !Z.add_0_l.
    destruct (Z.le_gt_cases (VL * Z.of_nat m) U) as [L|L].
    - rewrite (Z.min_l (VL * Z.of_nat m) U L). replace (VL * Z.of_nat m) with (0 + Z.of_nat (Z.to_nat (VL * Z.of_nat m))) at 2 by nia. rewrite <- zseq_app. f_equal. rewrite <- Z2Nat.inj_add by nia. f_equal. nia.
    - replace (Z.to_nat (Z.min VL (U - VL * Z.of_nat m))) with O by lia. cbn [zseq]. rewrite app_nil_r. f_equal. nia. }
  rewrite G. f_equal. f_equal. pose proof (Z.div_mod (U - 0 + VL - 1) VL ltac:(lia)) as D. pose proof (Z.mod_pos_bound (U - 0 + VL - 1) VL ltac:(lia)) as M. assert (0 <= (U - 0 + VL - 1) / VL) by (apply Z.div_pos; lia). rewrite Z2Nat.id by lia. lia.
Qed.

Section Horizontal.
Context {T : Type} (op : T -> T -> T) (identity : T) (divideBy : option (T -> Z -> T)).
Hypothesis opA : forall x y z, op x (op y z) = op (op x y) z.
Hypothesis opC : forall x y, op x y = op y x.
Hypothesis opI : forall x, op identity x = x.
Variables (flat : mem T) (fo : list Z) (ub VL divisor : Z) (b : bool) (g : list Z -> Z -> T).
Hypothesis HV : 1 <= VL.
Hypothesis HU : 0 <= ub.
Hypothesis HB : b = true -> ub mod VL = 0.
Hypothesis HR : forall o j, valid fo o -> 0 <= j < ub -> load flat (o ++ [j]) = Some (g o j).
Definition rowSum (o : list Z) : T := msum op identity (map (g o) (zseq 0 (Z.to_nat ub))).
Definition rowResult (o : list Z) : T := post divideBy (rowSum o) divisor.
Let oneH := oneHorizontal op identity (fun v => v) divideBy flat ub VL b divisor.

Lemma oneHorizontal_ok o H (tmp out : mem T) : valid fo o -> 1 <= H -> mShape tmp = [H; VL] ->
  exists tmp', mShape tmp' = [H; VL] /\ oneH o (tmp, out) = (out' <- store out o (rowResult o) ;; Some (tmp', out')).
Proof.
  intros VO HH ST. unfold oneH, oneHorizontal. cbn [fst snd].
  destruct (simdReduce_ok op identity opA opC opI (fun v => v) flat (fun _ => g o) (fun _ => o ++ [0]) (fun _ => [0; 0]) [0] VL [H; VL]) with (lb := 0) (ub := ub) (b := b) (tmp := tmp) as (tmp' & lane & E & [HS HL] & M); auto.
  - intros v k _ K. change [0; 0] with ([0] ++ [0]). rewrite addLast_app. cbn [app]. repeat (apply valid_cons; split; [lia|]). constructor.
  - intros v w k l [<-|[]] [<-|[]] _ _ EQ. change [0; 0] with ([0] ++ [0]) in EQ. rewrite !addLast_app in EQ. cbn [app] in EQ. injection EQ as EQ. split; auto; lia.
  - intros Hb. rewrite Z.sub_0_r. auto.
  - intros v j _ J. rewrite addLast_app, Z.add_0_l. auto.
  - unfold afs in E. cbn [map] in E. rewrite E. cbn [obind]. rewrite (vload_ok tmp' [0; 0] 0 VL (lane 0)).
    2:{ intros k K. rewrite Z.add_0_l. rewrite load_ok.
        - apply HL; auto. now left.
        - rewrite HS. change [0; 0] with ([0] ++ [0]). rewrite addLast_app. cbn [app]. repeat (apply valid_cons; split; [lia|]). constructor. }
    cbn [obind]. exists tmp'. split; auto. rewrite (hreduce_msum op identity opA opC opI). rewrite (M 0) by now left. rewrite Z.sub_0_r. reflexivity.
Qed.
Lemma horizontal_ok : exists out, horizontal op identity (fun v => v) divideBy flat fo ub VL b divisor = Some out /\ mShape out = fo /\ forall o, valid fo o -> mAt out o = Some (rowResult o).
Proof.
  unfold horizontal. destruct (iterate_fill fo (fun o => Some (rowResult o)) (alloc fo) eq_refl) as (m & E & SH & R); [intros; eexists; reflexivity|].
  exists m. split; [|split; auto]. rewrite <- E. unfold iterate. apply foldM_ext. intros o out Ho. apply indices_In in Ho.
  destruct (oneHorizontal_ok o 1 (alloc [1; VL]) out Ho ltac:(lia) eq_refl) as (tmp' & _ & E1). unfold oneH in E1. rewrite E1. cbn [obind]. destruct (store out o (rowResult o)); reflexivity.
Qed.

Lemma vlHorizontal_ok K o i (tmp out : mem T) : VL = 2 ^ Z.of_nat K -> (forall v, 0 <= v < VL -> valid fo (o ++ [i + v])) -> mShape tmp = [VL; VL] ->
  exists tmp', vlHorizontal op identity (fun v => v) divideBy flat ub VL b divisor (o ++ [i]) (tmp, out) =
    (out' <- foldM (fun k m => store m (o ++ [k]) (rowResult (o ++ [k]))) (zseq i (Z.to_nat VL)) out ;; Some (tmp', out')).
Proof.
  intros HK VO ST. unfold vlHorizontal. cbn [fst snd].
  assert (EN : Z.to_nat VL = (2 ^ K)%nat) by (rewrite HK; rewrite <- (Nat2Z.id (2 ^ K)), Nat2Z.inj_pow; reflexivity).
  set (ta := fun v => addSecondLast [0; 0] v). set (ia := fun v => addSecondLast ((o ++ [i]) ++ [0]) v).
  assert (ETA : forall v k, addLast (ta v) k = [v; k]).
  { intros v k. unfold ta. change [0; 0] with (([] ++ [0]) ++ [0]). rewrite addSecond_app, addLast_app. cbn [app]. now rewrite !Z.add_0_l. }
  assert (TVL : forall v k, 0 <= v < VL -> 0 <= k < VL -> valid [VL; VL] [v; k]) by (intros; repeat (apply valid_cons; split; [lia|]); constructor).
  destruct (simdReduce_ok op identity opA opC opI (fun v => v) flat (fun v => g (o ++ [i + v])) ia ta (zrange VL) VL [VL; VL]) with (lb := 0) (ub := ub) (b := b) (tmp := tmp) as (tmp' & lane & E & [HS HL] & M); auto.
  - intros v k V K'. apply zrange_In in V. rewrite ETA. apply TVL; auto.
  - intros v w k l V W K' L EQ. rewrite !ETA in EQ. injection EQ as -> ->. auto.
  - intros Hb. rewrite Z.sub_0_r. auto.
  - intros v j V J. apply zrange_In in V. unfold ia. rewrite addSecond_app, addLast_app, Z.add_0_l. apply HR; auto.
  - exists tmp'. unfold afs in E. fold ia ta in E. rewrite E. cbn [obind].
    assert (OM : omap (fun af : list Z * list Z => vload tmp' (snd af) 0 VL) (map (fun v => (ia v, ta v)) (zrange VL)) = Some (map (fun v => map (lane v) (zrange VL)) (zrange VL))).
    { transitivity (omap (fun v => vload tmp' (ta v) 0 VL) (zrange VL)).
      - clear. induction (zrange VL) as [|x l IH]; cbn [map omap snd]; auto. now rewrite IH.
      - apply omap_ok. intros v V. apply vload_ok. intros k K'. rewrite Z.add_0_l, ETA. pose proof V as V'. apply zrange_In in V'. rewrite load_ok by (rewrite HS; apply TVL; auto). rewrite <- ETA. apply HL; auto. }
    rewrite OM. cbn [obind].
    assert (ZR : zrange VL = map Z.of_nat (seq 0 (2 ^ K))).
    { unfold zrange. rewrite EN. clear. assert (G : forall n a, zseq (Z.of_nat a) n = map Z.of_nat (seq a n)).
      { induction n as [|n IH]; intros a; cbn [zseq seq map]; auto. rewrite <- IH. do 2 f_equal. lia. }
      apply (G (2 ^ K)%nat O). }
    destruct (multi_ok op identity opA opC opI (fun r => rowSum (o ++ [i + Z.of_nat r])) K 1 (map (fun v => map (lane v) (zrange VL)) (zrange VL)) (2 ^ K)) as (red & ER & LR & NR).
    + lia.
    + apply Nat.lt_le_incl, Nat.pow_gt_lin_r. lia.
    + rewrite map_length, zrange_length, EN. lia.
    + intros p P. rewrite (nth_map_gen _ _ _ _ 0) by (rewrite zrange_length, EN; lia). rewrite map_length, zrange_length, EN. lia.
    + intros r Hr. rewrite Nat.mul_1_r in Hr. rewrite ZR at 1. unfold partial.
      transitivity (msum op identity (map (lane (Z.of_nat r)) (zrange VL))).
      * f_equal. rewrite ZR. rewrite (map_map Z.of_nat (lane (Z.of_nat r))). apply map_ext_in. intros q Hq. apply in_seq in Hq. rewrite Nat.mod_1_r, Nat.div_1_r, Nat.mul_1_r, Nat.add_0_r.
        rewrite (nth_map_gen _ _ _ _ 0) by (rewrite map_length, seq_length; lia). rewrite !(nth_map_gen _ _ _ _ O) by (rewrite seq_length; lia). rewrite seq_nth by lia. cbn [Nat.add].
        rewrite (nth_map_gen _ _ _ _ 0) by (rewrite map_length, seq_length; lia). rewrite (nth_map_gen _ _ _ _ O) by (rewrite seq_length; lia). rewrite seq_nth by lia. reflexivity.
      * rewrite M by (apply zrange_In; lia). rewrite Z.sub_0_r. reflexivity.
    + rewrite Nat.mul_1_r in *. rewrite EN. rewrite ER. cbn [obind].
      assert (RD : map (fun v => post divideBy v divisor) red = map (fun v => rowResult (o ++ [i + v])) (zrange VL)).
      { rewrite ZR, map_map. apply nth_ext with (d := post divideBy identity divisor) (d' := post divideBy identity divisor); [rewrite !map_length, seq_length; auto|]. intros r Hr. rewrite map_length in Hr.
        rewrite (nth_map_gen _ _ _ _ identity) by auto. rewrite (nth_map_gen _ _ _ _ O) by (rewrite seq_length; lia). rewrite seq_nth by lia. cbn [Nat.add]. rewrite NR by lia. reflexivity. }
      rewrite RD, vstore_eq by lia. rewrite (foldM_ext _ (fun k m => store m (o ++ [i + k]) (rowResult (o ++ [i + k])))) by (intros; now rewrite addLast_app).
      replace (zseq i (2 ^ K)) with (map (fun k => i + k) (zrange VL)) by (unfold zrange; rewrite EN, zseq_shift, Z.add_0_r; reflexivity). rewrite foldM_map. reflexivity.
Qed.

Lemma shuffle_ok K A U : VL = 2 ^ Z.of_nat K -> fo = A ++ [U] -> 0 <= U ->
  exists out, shuffleHorizontal op identity (fun v => v) divideBy flat fo ub VL b divisor = Some out /\ mShape out = fo /\ forall o, valid fo o -> mAt out o = Some (rowResult o).
Proof.
  intros HK EF U0. destruct (iterate_fill fo (fun o => Some (rowResult o)) (alloc fo) eq_refl) as (m & E & SH & R); [intros; eexists; reflexivity|].
  exists m. split; [|split; auto]. rewrite <- E. unfold shuffleHorizontal, iterate. assert (EL : last fo 0 = U) by (rewrite EF; apply last_last). assert (ER : removelast fo = A) by (rewrite EF; apply removelast_last). assert (EI : indices fo = flat_map (fun i => map (app i) (indices [U])) (indices A)) by (rewrite EF; apply indices_app). rewrite EL, ER, EI, <- foldM_flat. apply foldM_ext. intros o out Ho. apply indices_In in Ho.
  cbn [indices]. replace (flat_map (fun i => map (cons i) [[]]) (zrange U)) with (map (fun k => [k]) (zrange U)) by (clear; induction (zrange U) as [|x l IH]; cbn [map flat_map app]; [reflexivity|now rewrite IH]).
  rewrite map_map, foldM_map. unfold zrange. rewrite <- (blocks_cover U VL U0 HV). rewrite <- foldM_flat. apply foldM_ext. intros i out1 Hi.
  assert (I0 : 0 <= i <= U).
  { unfold forLoop in Hi. apply in_map_iff in Hi as (x & <- & Hx). apply zrange_In in Hx. assert (x < (U - 0 + VL - 1) / VL) as X by lia. pose proof (Z.mul_div_le (U - 0 + VL - 1) VL ltac:(lia)). nia. }
  assert (VA : forall k, 0 <= k < U -> valid fo (o ++ [k])).
  { intros k K'. rewrite EF. apply valid_app; [now apply valid_length|]. split; auto. apply valid_cons. split; [lia|constructor]. }
  cbn [obind]. destruct (Z.ltb_spec (U - VL - i) 0).
  - rewrite forLoop_one. rewrite Z.min_r by lia. assert (G : forall l (tmp out : mem T), (forall k, In k l -> 0 <= k < U) -> mShape tmp = [VL; VL] ->
      exists tmp', foldM (fun k st => oneH (o ++ [k]) st) l (tmp, out) = (out' <- foldM (fun k m => store m (o ++ [k]) (rowResult (o ++ [k]))) l out ;; Some (tmp', out'))).
    { induction l as [|k l IH]; intros tmp out2 B ST; cbn [foldM obind]; [eexists; reflexivity|].
      destruct (oneHorizontal_ok (o ++ [k]) VL tmp out2 (VA k (B k (or_introl eq_refl))) HV ST) as (tmp1 & ST1 & E1). rewrite E1. destruct (store out2 (o ++ [k]) (rowResult (o ++ [k]))) as [out3|]; cbn [obind]; [|exists tmp; reflexivity].
      apply IH; auto. intros k' Hk'. apply B. now right. }
    destruct (G (zseq i (Z.to_nat (U - i))) (alloc [VL; VL]) out1) as (tmp' & E1); auto.
    { intros k Hk. apply zseq_In in Hk. lia. }
    unfold oneH in E1. rewrite E1. destruct (foldM _ (zseq i (Z.to_nat (U - i))) out1); reflexivity.
  - rewrite Z.min_l by lia. destruct (vlHorizontal_ok K o i (alloc [VL; VL]) out1 HK) as (tmp' & E1); auto.
    { intros v V. apply VA. lia. }
    rewrite E1. destruct (foldM _ (zseq i (Z.to_nat VL)) out1); reflexivity.
Qed.
End Horizontal.
