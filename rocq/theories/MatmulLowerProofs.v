(** Proofs about the lowerings of MatMul. *)
From Coq Require Import List ZArith Lia Bool Arith.
From Verif Require Import Util TensorSpec TensorLemmas ElementsSpec BroadcastModel LoopModel LoopProofs GatherLoopModel GatherLoopProofs ShapeOpsProofs ConvProofs ReduceLoopModel ReduceLoopProofs SimdReduceModel SimdReduceProofs SimdShuffleProofs KrnlMatmulModel KrnlMatmulProofs MatmulTileProofs.
Import ListNotations.
Open Scope Z_scope.

Lemma fold_pick_list {T} (h : list Z -> T -> T) b : forall l v, NoDup l ->
  fold_left (fun v b' => if ieqb b' b then h b' v else v) l v = if in_dec (list_eq_dec Z.eq_dec) b l then h b v else v.
Proof.
  induction l as [|a l IH]; intros v ND; cbn [fold_left]; [destruct (in_dec _ b []) as [[]|]; auto|]. inversion ND as [|? ? NI ND']; subst. rewrite IH by auto.
  destruct (ieqb a b) eqn:E.
  - apply ieqb_eq in E. subst a. destruct (in_dec _ b l); [contradiction|]. destruct (in_dec _ b (b :: l)) as [|N]; auto. exfalso; apply N; now left.
  - destruct (in_dec _ b l) as [I|N], (in_dec _ b (a :: l)) as [I'|N']; auto; [exfalso; apply N'; now right|]. destruct I' as [->|I']; [rewrite ieqb_refl in E; discriminate|contradiction].
Qed.

Section Lower.
Context {T : Type} (add mul : T -> T -> T) (zero : T).
Hypothesis addC : forall x y, add x y = add y x.

(** A row of A times a column of B. *)
Lemma dot_fold (av bv : Z -> Z -> T) i j ks v : dot add mul av bv i j ks v = fold_left add (map2 mul (map (fun k => av i k) ks) (map (fun k => bv k j) ks)) v.
Proof. rewrite map2_map, fold_left_map. unfold dot. apply fold_left_ext_in. intros; apply addC. Qed.

(** [A] holds the values [av b i k], [b] ranging over [sb]. *)
Definition holdsAll (M : mem T) (sb : list Z) (r c : Z) (v : list Z -> Z -> Z -> T) : Prop :=
  mShape M = sb ++ [r; c] /\ forall b i j, valid sb b -> 0 <= i < r -> 0 <= j < c -> mAt M (b ++ [i; j]) = Some (v b i j).
Lemma holdsAll_tile M sb r c v b : holdsAll M sb r c v -> valid sb b -> holdsTile M sb r c b 0 0 0 r 0 c (v b).
Proof. intros (S1 & H) V. split; auto. split; auto. intros i j Hi Hj. rewrite !Z.sub_0_r. split; [lia|]. split; [lia|]. apply H; auto; lia. Qed.

Section Batched.
Context (archVL : Z) (enableSIMD : bool) (A B : mem T) (sa sb c : list Z) (I J K : dim) (av bv : list Z -> Z -> Z -> T) (fa fb : list Z -> list Z).
Hypothesis HI : 0 <= dval I.
Hypothesis HJ : 0 <= dval J.
Hypothesis HK : 0 <= dval K.
Hypothesis HVL : 1 <= archVL.
Hypothesis HZ : lit J && (dval J =? 1) = true \/ (lit I = true -> 1 <= dval I) /\ (lit K = true -> 1 <= dval K).
Hypothesis HA : holdsAll A sa (dval I) (dval K) av.
Hypothesis HB : holdsAll B sb (dval K) (dval J) bv.
Hypothesis HVect : enableSIMD = true -> lit J = true -> dval J = 1 -> summable add zero /\ pow2 archVL.
Hypothesis FA : forall b, valid c b -> valid sa (fa b).
Hypothesis FB : forall b, valid c b -> valid sb (fb b).
Lemma batched_ok : exists out,
  iterate c (fun b C => tiledProduct add mul zero archVL enableSIMD A B (fa b) (fb b) b I J K C) (memset (c ++ [dval I; dval J]) zero) = Some out /\ mShape out = c ++ [dval I; dval J] /\
  forall b i j, valid c b -> 0 <= i < dval I -> 0 <= j < dval J -> mAt out (b ++ [i; j]) = Some (dot add mul (av (fa b)) (bv (fb b)) i j (zrange (dval K)) zero).
Proof.
  unfold iterate.
  destruct (acc_fold c (dval I) (dval J) (allCells c I J) (fun b C => tiledProduct add mul zero archVL enableSIMD A B (fa b) (fb b) b I J K C)
    (fun b' b x y v => if ieqb b' b then dot add mul (av (fa b')) (bv (fb b')) x y (zrange (dval K)) v else v) (indices c)) with (C := memset (c ++ [dval I; dval J]) zero) (cv := fun (_ : list Z) (_ _ : Z) => zero) as (out & E & S1 & R).
  - intros b Hb. apply indices_In in Hb. apply tiledProduct_acc with (asb := sa) (bsb := sb); auto; apply holdsAll_tile; auto.
  - reflexivity.
  - reflexivity.
  - exists out. split; auto. split; auto. intros b i j Vb Hi Hj. rewrite R by (repeat split; auto; lia). f_equal.
    rewrite (fold_pick_list (fun b' v => dot add mul (av (fa b')) (bv (fb b')) i j (zrange (dval K)) v)) by apply NoDup_indices. destruct (in_dec _ b (indices c)) as [|N]; auto. exfalso; apply N. now apply indices_In.
Qed.
End Batched.
End Lower.

(** ** Shapes *)
(** The batch dimensions broadcast only by missing leading dimensions. *)
Definition suffix (s c : list Z) : Prop := exists p, c = p ++ s.
Lemma suffix_skipn s c : suffix s c -> skipn (length c - length s) c = s.
Proof. intros (p & ->). rewrite app_length. apply skipn_exact. lia. Qed.
Lemma suffix_valid s c b : suffix s c -> valid c b -> valid s (skipn (length b - length s) b).
Proof.
  intros (p & ->) V. pose proof (valid_length _ _ V) as L. rewrite app_length in L. rewrite <- (firstn_skipn (length b - length s) b) in V.
  apply valid_app in V; [apply V|]. rewrite firstn_length. lia.
Qed.
Lemma bsel_suffix s c b : suffix s c -> valid c b -> bsel s b = skipn (length b - length s) b.
Proof.
  intros S V. unfold bsel. pose proof (suffix_valid _ _ _ S V) as H. revert H. generalize (skipn (length b - length s) b). clear. intros l H.
  induction H as [|d i s l D H IH]; cbn [map2]; auto. rewrite IH. f_equal. destruct (Z.eqb_spec d 1); auto. lia.
Qed.
Lemma nth_suffix s c i : suffix s c -> (length c - length s <= i < length c)%nat -> nth i c 0 = nth (i - (length c - length s)) s 0.
Proof. intros (p & ->) H. rewrite app_length in *. rewrite app_nth2 by lia. f_equal. lia. Qed.

Section Dims.
Context (aDims bDims : list dim) (lb rb c : list Z) (vl vr : bool) (M K N : Z).
Hypothesis HA : map dval aDims = lb ++ opt_axis vl M ++ [K].
Hypothesis HB : map dval bDims = rb ++ [K] ++ opt_axis vr N.
Hypothesis HL : suffix lb c.
Hypothesis HR : suffix rb c.
Hypothesis HC : length c = Nat.max (length lb) (length rb).
Hypothesis VL0 : vl = true -> lb = [].
Hypothesis VR0 : vr = true -> rb = [].
Let n := length c.
Let pad := (Dim true 1, true).

Lemma suffix_len s : suffix s c -> (length s <= length c)%nat.
Proof. intros (p & ->). rewrite app_length. lia. Qed.
Lemma lenA : length aDims = (length lb + (if vl then 1 else 2))%nat.
Proof. rewrite <- (map_length dval), HA, !app_length. destruct vl; cbn [opt_axis length]; lia. Qed.
Lemma lenB : length bDims = (length rb + (if vr then 1 else 2))%nat.
Proof. rewrite <- (map_length dval), HB, !app_length. destruct vr; cbn [opt_axis length]; lia. Qed.
Lemma padded : Nat.max (Nat.max (length aDims) (length bDims)) 2 = (n + 2)%nat.
Proof.
  rewrite lenA, lenB. unfold n. destruct vl; [rewrite (VL0 eq_refl) in * | clear VL0]; (destruct vr; [rewrite (VR0 eq_refl) in * | clear VR0]); cbn [length] in *; lia.
Qed.
Lemma nth_dims (l : list dim) i d : (i < length l)%nat -> dval (nth i l d) = nth i (map dval l) 0.
Proof. intros H. rewrite (nth_map_gen _ _ _ _ d) by auto. reflexivity. Qed.

Definition pA := (if vl then n + 1 else n - length lb)%nat.
Lemma padA_eq : padA aDims (n + 2) = repeat pad pA ++ map (fun d => (d, false)) aDims.
Proof. unfold padA, pA. do 2 f_equal. rewrite lenA. pose proof (suffix_len lb HL). unfold n in *. destruct vl; [rewrite (VL0 eq_refl); cbn [length]|]; lia. Qed.
Lemma pA_len : (pA + length aDims = n + 2)%nat.
Proof. unfold pA. rewrite lenA. pose proof (suffix_len lb HL). unfold n in *. destruct vl; [rewrite (VL0 eq_refl); cbn [length]|]; lia. Qed.
Lemma padA_pad i : (i < pA)%nat -> nth i (padA aDims (n + 2)) pad = pad.
Proof. intros H. rewrite padA_eq, app_nth1 by (rewrite repeat_length; auto). apply nth_repeat. Qed.
Lemma padA_real i : (pA <= i < n + 2)%nat -> nth i (padA aDims (n + 2)) pad = (nth (i - pA) aDims (Dim true 1), false).
Proof. intros H. pose proof pA_len. rewrite padA_eq, app_nth2, repeat_length by (rewrite repeat_length; lia). rewrite (nth_map_gen _ _ _ _ (Dim true 1)) by lia. reflexivity. Qed.
Lemma padA_dval i : (pA <= i < n)%nat -> dval (nth (i - pA) aDims (Dim true 1)) = nth i c 0.
Proof.
  intros H. pose proof pA_len as PL. rewrite nth_dims by lia. rewrite HA. unfold pA in *. destruct vl; [lia|]. pose proof (suffix_len lb HL). fold n in H0. rewrite app_nth1 by (unfold n in *; lia). rewrite (nth_suffix lb c i HL) by (fold n; lia). reflexivity.
Qed.

Definition pB := (n - length rb)%nat.
Lemma padB_eq : padB bDims (n + 2) = repeat pad pB ++ map (fun d => (d, false)) bDims ++ (if vr then [pad] else []).
Proof.
  unfold padB, pB. rewrite lenB. pose proof (suffix_len _ HR). unfold n in *. destruct vr.
  - rewrite (VR0 eq_refl). cbn [length Nat.add Nat.eqb]. do 2 f_equal. lia.
  - replace (length rb + 2 =? 1)%nat with false by (symmetry; apply Nat.eqb_neq; lia). rewrite app_nil_r. do 2 f_equal. lia.
Qed.
Lemma pB_len : (pB + length bDims + (if vr then 1 else 0) = n + 2)%nat.
Proof. unfold pB. rewrite lenB. pose proof (suffix_len _ HR). unfold n in *. destruct vr; [rewrite (VR0 eq_refl); cbn [length]|]; lia. Qed.
Lemma padB_pad i : (i < pB)%nat -> nth i (padB bDims (n + 2)) pad = pad.
Proof. intros H. rewrite padB_eq, app_nth1 by (rewrite repeat_length; auto). apply nth_repeat. Qed.
Lemma padB_real i : (pB <= i < n + 2)%nat -> (vr = true -> i <= n)%nat -> nth i (padB bDims (n + 2)) pad = (nth (i - pB) bDims (Dim true 1), false).
Proof.
  intros H H1. pose proof pB_len as L. rewrite padB_eq, app_nth2, repeat_length by (rewrite repeat_length; lia). rewrite app_nth1 by (rewrite map_length; destruct vr; lia). rewrite (nth_map_gen _ _ _ _ (Dim true 1)) by (destruct vr; lia). reflexivity.
Qed.
Lemma padB_last : vr = true -> nth (n + 1) (padB bDims (n + 2)) pad = pad.
Proof. intros E. pose proof pB_len as L. rewrite E in L. rewrite padB_eq, E, app_nth2, repeat_length by (rewrite repeat_length; lia). rewrite app_nth2, map_length by (rewrite map_length; lia). replace (n + 1 - pB - length bDims)%nat with O by lia. reflexivity. Qed.
Lemma padB_dval i : (pB <= i < n)%nat -> dval (nth (i - pB) bDims (Dim true 1)) = nth i c 0.
Proof.
  intros H. pose proof pB_len as PL. rewrite nth_dims by (destruct vr; lia). rewrite HB. unfold pB in *. pose proof (suffix_len _ HR). fold n in H0. rewrite app_nth1 by lia. rewrite (nth_suffix rb c i HR) by (fold n; lia). reflexivity.
Qed.
Lemma batchDim_ok i : (i < n)%nat -> exists d, batchDim (fst (nth i (padA aDims (n + 2)) pad)) (fst (nth i (padB bDims (n + 2)) pad)) = Some d /\ dval d = nth i c 0.
Proof.
  intros H. destruct (Nat.lt_ge_cases i pA) as [H1|H1], (Nat.lt_ge_cases i pB) as [H2|H2].
  - unfold pA, pB, n in *. destruct vl; [rewrite (VL0 eq_refl) in *; cbn [length] in *|]; lia.
  - rewrite padA_pad, padB_real by lia. cbn [fst]. unfold pad, batchDim, isOne. cbn [fst lit dval andb Z.eqb Pos.eqb]. eexists. split; [reflexivity|]. apply padB_dval; lia.
  - rewrite padA_real, padB_pad by lia. cbn [fst]. unfold pad, batchDim. set (a := nth (i - pA) aDims (Dim true 1)). assert (Ha : dval a = nth i c 0) by (apply padA_dval; lia). destruct (isOne a) eqn:E1.
    + cbn [fst isOne lit dval andb Z.eqb Pos.eqb]. eexists. split; [reflexivity|]. unfold isOne in E1. apply andb_prop in E1 as (_ & E1). apply Z.eqb_eq in E1. cbn [dval]. lia.
    + unfold isOne at 1. cbn [fst lit dval andb Z.eqb Pos.eqb]. eexists. split; [reflexivity|]. auto.
  - rewrite padA_real, padB_real by lia. cbn [fst]. unfold batchDim. set (a := nth (i - pA) aDims (Dim true 1)). set (b := nth (i - pB) bDims (Dim true 1)).
    assert (Ha : dval a = nth i c 0) by (apply padA_dval; lia). assert (Hb : dval b = nth i c 0) by (apply padB_dval; lia). rewrite Ha, Hb, Z.eqb_refl.
    destruct (isOne a); [eauto|]. destruct (isOne b); [eauto|]. destruct (lit a), (lit b); cbn [andb]; eauto.
Qed.

Definition dimK : dim := nth (length aDims - 1) aDims (Dim true 1).
Definition dimKb : dim := nth (length rb) bDims (Dim true 1).
Definition dimM : dim := nth (length lb) aDims (Dim true 1).
Definition dimN : dim := nth (length rb + 1) bDims (Dim true 1).
Lemma dimK_ok : dval dimK = K.
Proof. unfold dimK. rewrite nth_dims by (rewrite lenA; destruct vl; lia). rewrite HA, lenA. destruct vl; cbn [opt_axis app]; rewrite app_nth2 by lia; [replace (length lb + 1 - 1 - length lb)%nat with O by lia|replace (length lb + 2 - 1 - length lb)%nat with 1%nat by lia]; reflexivity. Qed.
Lemma dimKb_ok : dval dimKb = K.
Proof. unfold dimKb. rewrite nth_dims by (rewrite lenB; destruct vr; lia). rewrite HB, app_nth2, Nat.sub_diag by lia. reflexivity. Qed.
Lemma dimM_ok : vl = false -> dval dimM = M.
Proof. intros E. unfold dimM. rewrite nth_dims by (rewrite lenA, E; lia). rewrite HA, E, app_nth2, Nat.sub_diag by lia. reflexivity. Qed.
Lemma dimN_ok : vr = false -> dval dimN = N.
Proof. intros E. unfold dimN. rewrite nth_dims by (rewrite lenB, E; lia). rewrite HB, E, app_nth2 by lia. replace (length rb + 1 - length rb)%nat with 1%nat by lia. reflexivity. Qed.

Lemma map_nth_all (l : list Z) : map (fun i => nth i l 0) (seq 0 (length l)) = l.
Proof. rewrite map_nth_seq by lia. cbn [skipn]. apply firstn_all. Qed.
Lemma matmulDims_ok : exists batch, matmulDims aDims bDims = Some (padA aDims (n + 2), padB bDims (n + 2), batch ++ (if vl then [] else [dimM]) ++ (if vr then [] else [dimN])) /\ map dval batch = c.
Proof.
  unfold matmulDims. rewrite padded. replace (n + 2 - 2)%nat with n by lia. replace (n + 2 - 1)%nat with (n + 1)%nat by lia. fold pad.
  pose (g := fun i => match batchDim (fst (nth i (padA aDims (n + 2)) pad)) (fst (nth i (padB bDims (n + 2)) pad)) with Some d => d | None => Dim true 1 end).
  rewrite (omap_ok _ g). 2:{ intros i Hi. apply in_seq in Hi. destruct (batchDim_ok i ltac:(lia)) as (d & E & _). unfold g. rewrite E. reflexivity. }
  cbn [obind]. pose proof pA_len as PA. pose proof pB_len as PB. pose proof (suffix_len lb HL) as SL. pose proof (suffix_len _ HR) as SR. fold n in SL, SR.
  assert (EK : nth (n + 1) (padA aDims (n + 2)) pad = (dimK, false)). { rewrite padA_real by (unfold pA in *; destruct vl; lia). unfold dimK. do 2 f_equal. lia. }
  assert (EKB : nth n (padB bDims (n + 2)) pad = (dimKb, false)). { rewrite padB_real by (unfold pB; lia). unfold dimKb, pB. do 2 f_equal. lia. }
  assert (EM : nth n (padA aDims (n + 2)) pad = if vl then pad else (dimM, false)).
  { unfold dimM. destruct (Bool.bool_dec vl true) as [EV|EV]; [|apply Bool.not_true_is_false in EV]; rewrite EV; [apply padA_pad; unfold pA; rewrite EV; lia|]. assert (EP : pA = (n - length lb)%nat) by (unfold pA; now rewrite EV). rewrite padA_real by lia. rewrite EP. do 2 f_equal. lia. }
  assert (EN : nth (n + 1) (padB bDims (n + 2)) pad = if vr then pad else (dimN, false)).
  { unfold dimN. destruct (Bool.bool_dec vr true) as [EV|EV]; [|apply Bool.not_true_is_false in EV]; rewrite EV; [now apply padB_last|]. rewrite padB_real by (try congruence; unfold pB; lia). unfold pB. do 2 f_equal. lia. }
  rewrite EK, EKB, EM, EN. cbn [fst snd]. rewrite dimK_ok, dimKb_ok, Z.eqb_refl. cbn [negb]. rewrite andb_false_r.
  exists (map g (seq 0 n)). split.
  - do 3 f_equal. destruct vl, vr; reflexivity.
  - rewrite map_map. transitivity (map (fun i => nth i c 0) (seq 0 (length c))); [|apply map_nth_all]. apply map_ext_in. intros i Hi. apply in_seq in Hi. destruct (batchDim_ok i ltac:(lia)) as (d & E & D). unfold g. rewrite E. auto.
Qed.

Lemma flat_single {X} (f : nat -> X) l : flat_map (fun i => [f i]) l = map f l.
Proof. induction l; cbn [flat_map map app]; congruence. Qed.
Lemma flat_none {X} (f : nat -> list X) l : (forall i, In i l -> f i = []) -> flat_map f l = [].
Proof. induction l as [|a l IH]; intros H; cbn [flat_map]; auto. rewrite H by (now left). cbn [app]. apply IH. intros; apply H; now right. Qed.
Lemma flat_ext {X} (f g : nat -> list X) l : (forall i, In i l -> f i = g i) -> flat_map f l = flat_map g l.
Proof. induction l as [|a l IH]; intros H; cbn [flat_map]; auto. rewrite H by (now left). f_equal. apply IH. intros; apply H; now right. Qed.

Lemma accessA_ok b i j k : length b = n ->
  genericAccessA (padA aDims (n + 2)) (b ++ opt_axis vl i ++ opt_axis vr j) k = skipn (n - length lb) b ++ opt_axis vl i ++ [k].
Proof.
  intros Lb. unfold genericAccessA. pose proof pA_len as PA. assert (LP : length (padA aDims (n + 2)) = (n + 2)%nat) by (rewrite padA_eq, app_length, repeat_length, map_length; auto). rewrite LP.
  pose proof (suffix_len lb HL) as SL. fold n in SL. pose proof lenA as LA.
  replace (seq 0 (n + 2)) with (seq 0 pA ++ seq pA (length aDims - 1) ++ [(n + 1)%nat]).
  2:{ replace (n + 2)%nat with (pA + ((length aDims - 1) + 1))%nat by (destruct vl; lia). rewrite !seq_app. cbn [seq Nat.add]. do 3 f_equal. destruct vl; lia. }
  fold pad. rewrite !flat_map_app. rewrite flat_none by (intros q Hq; apply in_seq in Hq; rewrite padA_pad by lia; reflexivity).
  rewrite (flat_ext _ (fun q => [nth q (b ++ opt_axis vl i ++ opt_axis vr j) 0])).
  2:{ intros q Hq. apply in_seq in Hq. rewrite padA_real by (destruct vl; lia). cbn [snd]. replace (q =? n + 2 - 1)%nat with false by (symmetry; apply Nat.eqb_neq; destruct vl; lia). reflexivity. }
  cbn [app flat_map]. rewrite padA_real by (unfold pA in *; destruct vl; lia). cbn [snd]. replace (n + 1 =? n + 2 - 1)%nat with true by (symmetry; apply Nat.eqb_eq; lia). cbn [app].
  rewrite (app_assoc (skipn _ b)). f_equal. rewrite flat_single. destruct (Bool.bool_dec vl true) as [EV|EV]; [|apply Bool.not_true_is_false in EV]; rewrite EV; rewrite EV in LA.
  - rewrite (VL0 EV) in *. cbn [length Nat.add Nat.sub] in *. rewrite LA. cbn [Nat.sub seq map]. cbn [opt_axis app]. rewrite app_nil_r. rewrite Nat.sub_0_r. rewrite skipn_all2 by lia. reflexivity.
  - assert (EP : pA = (n - length lb)%nat) by (unfold pA; now rewrite EV). cbn [opt_axis app]. rewrite map_nth_seq by (rewrite app_length; cbn [length app]; lia). rewrite skipn_app. replace (pA - length b)%nat with O by lia. cbn [skipn].
    rewrite EP. rewrite LA. replace (length lb + 2 - 1)%nat with (length (skipn (n - length lb) b) + 1)%nat by (rewrite skipn_length; lia). rewrite firstn_app_2. reflexivity.
Qed.
Lemma accessB_ok b i j k : length b = n ->
  genericAccessB (padB bDims (n + 2)) (b ++ opt_axis vl i ++ opt_axis vr j) k = skipn (n - length rb) b ++ [k] ++ opt_axis vr j.
Proof.
  intros Lb. unfold genericAccessB. pose proof pB_len as PB. assert (LP : length (padB bDims (n + 2)) = (n + 2)%nat) by (rewrite padB_eq, !app_length, repeat_length, map_length; destruct vr; cbn [length]; lia). rewrite LP.
  pose proof (suffix_len _ HR) as SR. fold n in SR. pose proof lenB as LB.
  replace (seq 0 (n + 2)) with (seq 0 pB ++ seq pB (length rb) ++ [n; (n + 1)%nat]).
  2:{ replace (n + 2)%nat with (pB + (length rb + 2))%nat by (unfold pB; lia). rewrite !seq_app. cbn [seq Nat.add]. unfold pB. do 4 f_equal; [lia|f_equal; lia]. }
  fold pad. rewrite !flat_map_app. rewrite flat_none by (intros q Hq; apply in_seq in Hq; rewrite padB_pad by lia; reflexivity).
  assert (LO : (n < length (b ++ opt_axis vl i ++ opt_axis vr j) \/ (vl = true /\ vr = true))%nat) by (rewrite !app_length; destruct vl, vr; cbn [opt_axis length]; auto; lia).
  assert (LO2 : (n <= length (b ++ opt_axis vl i ++ opt_axis vr j))%nat) by (rewrite app_length; lia).
  rewrite (flat_ext _ (fun q => [nth q (b ++ opt_axis vl i ++ opt_axis vr j) 0])).
  2:{ intros q Hq. apply in_seq in Hq. unfold pB in *. rewrite padB_real by (unfold pB; lia). cbn [snd]. replace (q =? n + 2 - 2)%nat with false by (symmetry; apply Nat.eqb_neq; lia). replace (q =? _)%nat with false by (symmetry; apply Nat.eqb_neq; lia). reflexivity. }
  cbn [app flat_map]. rewrite padB_real by (unfold pB; lia). cbn [snd]. replace (n =? n + 2 - 2)%nat with true by (symmetry; apply Nat.eqb_eq; lia). cbn [app]. f_equal.
  - rewrite flat_single, map_nth_seq by (unfold pB; lia). unfold pB. rewrite skipn_app. replace (n - length rb - length b)%nat with O by lia. cbn [skipn]. apply firstn_exact. rewrite skipn_length. lia.
  - f_equal. rewrite app_nil_r. destruct (Bool.bool_dec vr true) as [EV|EV]; [|apply Bool.not_true_is_false in EV]; rewrite EV; [rewrite padB_last by auto; reflexivity|]. rewrite padB_real by (try congruence; unfold pB; lia). cbn [snd]. replace (n + 1 =? n + 2 - 2)%nat with false by (symmetry; apply Nat.eqb_neq; lia). cbn [opt_axis]. rewrite !app_length. destruct vl; cbn [opt_axis length app].
    + match goal with |- (if ?c then _ else _) = _ => replace c with true by (symmetry; apply Nat.eqb_eq; lia) end. replace (n + 1 - 1)%nat with (length b) by lia. rewrite app_nth2, Nat.sub_diag by lia. reflexivity.
    + match goal with |- (if ?c then _ else _) = _ => replace c with false by (symmetry; apply Nat.eqb_neq; lia) end. replace (n + 1)%nat with (length b + 1)%nat by lia. rewrite app_nth2 by lia. replace (length b + 1 - length b)%nat with 1%nat by lia. reflexivity.
Qed.
Section Top.
Context {T : Type} (add mul : T -> T -> T) (zero : T).
Hypothesis addC : forall x y, add x y = add y x.
Context (A B : mem T) (a b : list Z -> T).
Hypothesis SA : mShape A = map dval aDims.
Hypothesis SB : mShape B = map dval bDims.
Hypothesis VA : forall i, valid (map dval aDims) i -> mAt A i = Some (a i).
Hypothesis VB : forall i, valid (map dval bDims) i -> mAt B i = Some (b i).
Hypothesis HK : 0 <= K.

Definition product (bt i j : list Z) : T :=
  fold_left add (map2 mul (map (fun k => a (bsel lb bt ++ i ++ [k])) (zrange K)) (map (fun k => b (bsel rb bt ++ [k] ++ j)) (zrange K))) zero.

Lemma valid_app s1 s2 i1 i2 : valid s1 i1 -> valid s2 i2 -> valid (s1 ++ s2) (i1 ++ i2).
Proof. intros. apply Forall2_app; auto. Qed.
Lemma valid1 x u : 0 <= x < u -> valid [u] [x].
Proof. intros H. constructor; [exact H|constructor]. Qed.
Lemma valid_opt v u x : valid (opt_axis v u) x -> exists q, x = opt_axis v q /\ (v = false -> 0 <= q < u).
Proof.
  intros V. destruct v; cbn [opt_axis] in *; inversion V; subst; [exists 0; split; [auto|discriminate]|]. match goal with H : Forall2 _ [] _ |- _ => inversion H end. eexists. split; [reflexivity|auto].
Qed.
Lemma valid_app_inv s1 s2 i : valid (s1 ++ s2) i -> exists i1 i2, i = i1 ++ i2 /\ valid s1 i1 /\ valid s2 i2.
Proof. intros V. apply Forall2_app_inv_l in V as (i1 & i2 & H1 & H2 & ->). exists i1, i2. auto. Qed.
Lemma opt_valid v u q : (v = false -> 0 <= q < u) -> valid (opt_axis v u) (opt_axis v q).
Proof. destruct v; intros H; [constructor|]. apply valid1. auto. Qed.

Lemma generic_ok batch I J : map dval batch = c -> (vl = false -> dval I = M) -> (vr = false -> dval J = N) -> exists out,
  genericMatmul add mul zero A B (padA aDims (n + 2)) (padB bDims (n + 2)) (batch ++ (if vl then [] else [I]) ++ (if vr then [] else [J])) = Some out /\
  mShape out = c ++ opt_axis vl M ++ opt_axis vr N /\
  forall bt i j, valid c bt -> valid (opt_axis vl M) i -> valid (opt_axis vr N) j -> mAt out (bt ++ i ++ j) = Some (product bt i j).
Proof.
  intros EB EI EJ. assert (ES : map dval (batch ++ (if vl then [] else [I]) ++ (if vr then [] else [J])) = c ++ opt_axis vl M ++ opt_axis vr N).
  { rewrite !map_app, EB. f_equal. f_equal; [clear EJ|clear EI]; [destruct (vl)|destruct (vr)]; cbn [map opt_axis]; auto; f_equal; auto. }
  fold n. unfold genericMatmul. rewrite ES. pose proof pA_len as PA.
  pose proof lenA as LA. assert (LPA : length (padA aDims (n + 2)) = (n + 2)%nat) by (rewrite padA_eq, app_length, repeat_length, map_length; auto). assert (EU : dval (fst (nth (length (padA aDims (n + 2)) - 1) (padA aDims (n + 2)) (Dim true 1, true))) = K).
  { rewrite LPA.
    replace (n + 2 - 1)%nat with (n + 1)%nat by lia. rewrite padA_real by (destruct vl; lia). cbn [fst].
    rewrite <- dimK_ok. unfold dimK. do 2 f_equal. lia. }
  rewrite EU.
  assert (FO : forall bt i j, valid c bt -> valid (opt_axis vl M) i -> valid (opt_axis vr N) j ->
    foldM (fun k acc => loadedA <- load A (genericAccessA (padA aDims (n + 2)) (bt ++ i ++ j) k) ;; loadedB <- load B (genericAccessB (padB bDims (n + 2)) (bt ++ i ++ j) k) ;; Some (add acc (mul loadedA loadedB))) (zrange K) zero = Some (product bt i j)).
  { intros bt i j V1 V2 V3. destruct (valid_opt _ _ _ V2) as (qi & -> & Qi), (valid_opt _ _ _ V3) as (qj & -> & Qj). assert (LB : length bt = n) by (apply valid_length in V1; unfold n; congruence).
    rewrite (foldM_fold _ (fun t k => add t (mul (a (bsel lb bt ++ opt_axis vl qi ++ [k])) (b (bsel rb bt ++ [k] ++ opt_axis vr qj))))).
    - f_equal. unfold product. rewrite map2_map, fold_left_map. reflexivity.
    - intros k t Hk. apply zrange_In in Hk. rewrite accessA_ok by auto. rewrite accessB_ok by auto.
      rewrite (bsel_suffix lb c) by auto. rewrite (bsel_suffix rb c) by auto. rewrite LB.
      assert (W1 : valid (map dval aDims) (skipn (n - length lb) bt ++ opt_axis vl qi ++ [k])).
      { rewrite HA. apply valid_app; [rewrite <- LB; apply (suffix_valid lb c); auto|]. apply valid_app; [auto|apply valid1; auto]. }
      assert (W2 : valid (map dval bDims) (skipn (n - length rb) bt ++ [k] ++ opt_axis vr qj)).
      { rewrite HB. apply valid_app; [rewrite <- LB; apply (suffix_valid rb c); auto|]. apply valid_app; [apply valid1; auto|auto]. }
      rewrite !load_ok by (rewrite ?SA, ?SB; auto). rewrite VA, VB by auto. reflexivity. }
  destruct (iterate_fill (c ++ opt_axis vl M ++ opt_axis vr N) (fun outer => foldM (fun k acc => loadedA <- load A (genericAccessA (padA aDims (n + 2)) outer k) ;; loadedB <- load B (genericAccessB (padB bDims (n + 2)) outer k) ;; Some (add acc (mul loadedA loadedB))) (zrange K) zero) (alloc (c ++ opt_axis vl M ++ opt_axis vr N))) as (out & E & S1 & R).
  - reflexivity.
  - intros o V. apply valid_app_inv in V as (bt & o2 & -> & V1 & V). apply valid_app_inv in V as (i & j & -> & V2 & V3). rewrite FO by auto. eauto.
  - exists out. split; [exact E|]. split; [exact S1|]. intros bt i j V1 V2 V3. rewrite R by (apply valid_app; [|apply valid_app]; auto). apply FO; auto.
Qed.

Lemma suffix_full s : suffix s c -> length s = length c -> s = c.
Proof. intros H L. pose proof (suffix_skipn s c H) as E. rewrite L, Nat.sub_diag in E. cbn [skipn] in E. auto. Qed.

Lemma tiled_ok archVL enableSIMD I J Kd fa fb : vl = false -> vr = false -> dval I = M -> dval J = N -> dval Kd = K -> 0 <= M -> 0 <= N -> 1 <= archVL ->
  (lit I = true -> 1 <= dval I) -> (lit Kd = true -> 1 <= dval Kd) ->
  (enableSIMD = true -> lit J = true -> dval J = 1 -> summable add zero /\ pow2 archVL) ->
  (forall bt, valid c bt -> fa bt = bsel lb bt) -> (forall bt, valid c bt -> fb bt = bsel rb bt) ->
  exists out, iterate c (fun bt C => tiledProduct add mul zero archVL enableSIMD A B (fa bt) (fb bt) bt I J Kd C) (memset (c ++ [M; N]) zero) = Some out /\
  mShape out = c ++ opt_axis vl M ++ opt_axis vr N /\
  forall bt i j, valid c bt -> valid (opt_axis vl M) i -> valid (opt_axis vr N) j -> mAt out (bt ++ i ++ j) = Some (product bt i j).
Proof.
  intros E1 E2 EI EJ EK HM HN HV ZI ZK SM FA FB. rewrite E1, E2 in *. cbn [opt_axis app] in *.
  destruct (batched_ok add mul zero archVL enableSIMD A B lb rb c I J Kd (fun bt i k => a (bt ++ [i; k])) (fun bt k j => b (bt ++ [k; j])) fa fb) as (out & E & S1 & R); try lia; auto.
  - split; [rewrite SA, HA, EI, EK; reflexivity|]. intros bt i k V Hi Hk. apply VA. rewrite HA. apply valid_app; auto. constructor; [lia|]. apply valid1. lia.
  - split; [rewrite SB, HB, EK, EJ; reflexivity|]. intros bt k j V Hk Hj. apply VB. rewrite HB. apply valid_app; auto. constructor; [lia|]. apply valid1. lia.
  - intros bt V. rewrite FA by auto. rewrite (bsel_suffix lb c) by auto. apply (suffix_valid lb c); auto.
  - intros bt V. rewrite FB by auto. rewrite (bsel_suffix rb c) by auto. apply (suffix_valid rb c); auto.
  - rewrite EI, EJ in *. exists out. split; [exact E|]. split; [exact S1|]. intros bt i j V1 V2 V3.
    destruct (valid_opt false M i V2) as (qi & -> & Qi), (valid_opt false N j V3) as (qj & -> & Qj). cbn [opt_axis app].
    rewrite R by auto. f_equal. rewrite dot_fold by auto. rewrite EK, FA, FB by auto. reflexivity.
Qed.
Lemma nth_hit {X} (l : list X) u x r d : length l = u -> nth u (l ++ x :: r) d = x.
Proof. intros <-. rewrite app_nth2, Nat.sub_diag by lia. reflexivity. Qed.

Lemma lower_ok archVL enableTiling enableSIMD sameDim : 1 <= archVL -> (vl = false -> 0 <= M) -> (vr = false -> 0 <= N) ->
  (enableTiling = true -> forall d, In d (aDims ++ bDims) -> lit d = true -> dval d <> 0) ->
  (enableTiling = true -> enableSIMD = true -> vr = false -> N = 1 -> summable add zero /\ pow2 archVL) ->
  exists out, lowerMatmul add mul zero archVL enableTiling enableSIMD sameDim aDims bDims A B = Some out /\
  mShape out = c ++ opt_axis vl M ++ opt_axis vr N /\
  forall bt i j, valid c bt -> valid (opt_axis vl M) i -> valid (opt_axis vr N) j -> mAt out (bt ++ i ++ j) = Some (product bt i j).
Proof.
  intros HV HM HN HZ SM. unfold lowerMatmul. destruct matmulDims_ok as (batch & EM & EB). rewrite EM. cbn [obind]. cbv beta iota zeta.
  pose proof lenA as LA. pose proof lenB as LB. pose proof (suffix_len lb HL) as SLl. pose proof (suffix_len rb HR) as SLr.
  pose proof dimM_ok as DM. pose proof dimN_ok as DN. pose proof dimK_ok as DK. pose proof dimKb_ok as DKb.
  set (I := dimM) in *. set (J := dimN) in *.
  assert (GEN := generic_ok batch I J EB DM DN).
  destruct enableTiling; cbn [andb]; [|exact GEN].
  assert (IM : vl = false -> In I (aDims ++ bDims)) by (intros E; rewrite E in LA; apply in_or_app; left; apply nth_In; lia).
  assert (IK : In dimK (aDims ++ bDims)) by (apply in_or_app; left; apply nth_In; destruct vl; lia).
  assert (IKb : In dimKb (aDims ++ bDims)) by (apply in_or_app; right; apply nth_In; destruct vr; lia).
  assert (ZP : forall d, In d (aDims ++ bDims) -> 0 <= dval d -> lit d = true -> 1 <= dval d) by (intros d Hd P Ld; specialize (HZ eq_refl d Hd Ld); lia).
  assert (TIL : forall Kd fa fb, vl = false -> vr = false -> dval Kd = K -> In Kd (aDims ++ bDims) -> (forall bt, valid c bt -> fa bt = bsel lb bt) -> (forall bt, valid c bt -> fb bt = bsel rb bt) ->
    exists out, iterate c (fun bt C => tiledProduct add mul zero archVL enableSIMD A B (fa bt) (fb bt) bt I J Kd C) (memset (c ++ [M; N]) zero) = Some out /\
    mShape out = c ++ opt_axis vl M ++ opt_axis vr N /\
    forall bt i j, valid c bt -> valid (opt_axis vl M) i -> valid (opt_axis vr N) j -> mAt out (bt ++ i ++ j) = Some (product bt i j)).
  { intros Kd fa fb E1 E2 EK IKd FA FB. specialize (DM E1). specialize (DN E2). apply tiled_ok; auto; [apply ZP; auto; rewrite DM; auto|apply ZP; auto; lia|]. intros S1 S2 S3. apply SM; auto. congruence. }
  assert (LBt : length batch = length c) by (rewrite <- EB; now rewrite map_length).
  assert (ID : forall bt s, valid c bt -> suffix s c -> length s = length c -> bt = bsel s bt).
  { intros bt s V Hs E. rewrite (bsel_suffix s c) by auto. apply valid_length in V. rewrite <- V, E, Nat.sub_diag. reflexivity. }
  assert (NI : forall (bt : list Z), [] = bsel [] bt) by reflexivity.
  destruct ((length aDims =? 2)%nat && (length bDims =? 2)%nat) eqn:C1.
  { apply andb_prop in C1 as (C1 & C2). apply Nat.eqb_eq in C1, C2. assert (E1 : vl = false) by (destruct vl; auto; rewrite VL0 in LA by auto; cbn [length] in LA; lia). assert (E2 : vr = false) by (destruct vr; auto; rewrite VR0 in LB by auto; cbn [length] in LB; lia).
    rewrite E1, E2 in *. cbn [app] in *. assert (Llb : lb = []) by (apply length_zero_iff_nil; lia). assert (Lrb : rb = []) by (apply length_zero_iff_nil; lia).
    assert (EC : c = []) by (apply length_zero_iff_nil; rewrite HC, Llb, Lrb; reflexivity). assert (EBt : batch = []) by (apply length_zero_iff_nil; rewrite LBt, EC; reflexivity).
    destruct (TIL dimK (fun _ => []) (fun _ => []) eq_refl eq_refl DK IK) as (out & E & R).
    { intros bt V. rewrite Llb. apply NI. } { intros bt V. rewrite Lrb. apply NI. }
    exists out. split; [|exact R]. rewrite EC in E. rewrite EBt. unfold matmul2d. cbn [app nth map]. specialize (DM eq_refl). specialize (DN eq_refl). rewrite DM, DN.
    replace (nth 1 aDims (Dim true 1)) with dimK by (unfold dimK; rewrite C1; reflexivity).
    unfold iterate in E. cbn [indices foldM app] in E. destruct (tiledProduct _ _ _ _ _ _ _ _ _ _ _ _ _ _) in E |- *; cbn [obind] in E; auto. }
  destruct ((length aDims =? 2)%nat && (2 <? length bDims)%nat) eqn:C2.
  { apply andb_prop in C2 as (C2 & C3). apply Nat.eqb_eq in C2. apply Nat.ltb_lt in C3. assert (E1 : vl = false) by (destruct vl; auto; rewrite VL0 in LA by auto; cbn [length] in LA; lia). assert (E2 : vr = false) by (destruct vr; auto; rewrite VR0 in LB by auto; cbn [length] in LB; lia).
    rewrite E1, E2 in *. cbn [app] in *. specialize (DM eq_refl). specialize (DN eq_refl). assert (Llb : lb = []) by (apply length_zero_iff_nil; lia).
    assert (LC : length rb = length c) by (rewrite HC, Llb; cbn [length]; lia).
    destruct (TIL dimK (fun _ => []) (fun bt => bt) eq_refl eq_refl DK IK) as (out & E & R).
    { intros bt V. rewrite Llb. apply NI. } { intros bt V. apply ID; auto. }
    exists out. split; [|exact R]. rewrite <- E. unfold matmulBroadcasting. cbn [orb negb]. replace (Nat.max (length aDims) (length bDims) - 2)%nat with (length c) by lia.
    rewrite firstn_exact by auto. rewrite !map_app, EB. cbn [map]. rewrite DM, DN. rewrite nth_hit by auto.
    change (batch ++ [I; J]) with (batch ++ [I] ++ [J]). rewrite app_assoc, nth_hit by (rewrite app_length; cbn [length]; lia).
    replace (nth 1 aDims (Dim true 1)) with dimK by (unfold dimK; rewrite C2; reflexivity). reflexivity. }
  destruct ((2 <? length aDims)%nat && (length bDims =? 2)%nat) eqn:C3.
  { apply andb_prop in C3 as (C3 & C4). apply Nat.eqb_eq in C4. apply Nat.ltb_lt in C3. assert (E1 : vl = false) by (destruct vl; auto; rewrite VL0 in LA by auto; cbn [length] in LA; lia). assert (E2 : vr = false) by (destruct vr; auto; rewrite VR0 in LB by auto; cbn [length] in LB; lia).
    rewrite E1, E2 in *. cbn [app] in *. specialize (DM eq_refl). specialize (DN eq_refl). assert (Lrb : rb = []) by (apply length_zero_iff_nil; lia).
    assert (LC : length lb = length c) by (rewrite HC, Lrb; cbn [length]; lia).
    destruct (TIL dimKb (fun bt => bt) (fun _ => []) eq_refl eq_refl DKb IKb) as (out & E & R).
    { intros bt V. apply ID; auto. } { intros bt V. rewrite Lrb. apply NI. }
    exists out. split; [|exact R]. rewrite <- E. unfold matmulBroadcasting. cbn [orb negb]. replace (Nat.max (length aDims) (length bDims) - 2)%nat with (length c) by lia.
    rewrite firstn_exact by auto. rewrite !map_app, EB. cbn [map]. rewrite DM, DN. rewrite nth_hit by auto.
    change (batch ++ [I; J]) with (batch ++ [I] ++ [J]). rewrite app_assoc, nth_hit by (rewrite app_length; cbn [length]; lia).
    replace (nth 0 bDims (Dim true 1)) with dimKb by (unfold dimKb; rewrite Lrb; reflexivity). reflexivity. }
  destruct ((2 <? length aDims)%nat && (length aDims =? length bDims)%nat && forallb sameDim (seq 0 (length aDims - 2))) eqn:C4; [|exact GEN].
  apply andb_prop in C4 as (C4 & _). apply andb_prop in C4 as (C4 & C5). apply Nat.eqb_eq in C5. apply Nat.ltb_lt in C4. assert (E1 : vl = false) by (destruct vl; auto; rewrite VL0 in LA by auto; cbn [length] in LA; lia). assert (E2 : vr = false) by (destruct vr; auto; rewrite VR0 in LB by auto; cbn [length] in LB; lia).
  rewrite E1, E2 in *. cbn [app] in *. specialize (DM eq_refl). specialize (DN eq_refl). assert (LCl : length lb = length c) by lia. assert (LCr : length rb = length c) by lia.
  destruct (TIL dimKb (fun bt => bt) (fun bt => bt) eq_refl eq_refl DKb IKb) as (out & E & R).
  { intros bt V. apply ID; auto. } { intros bt V. apply ID; auto. }
  exists out. split; [|exact R]. rewrite <- E. unfold matmulBroadcasting. cbn [orb negb]. replace (Nat.max (length aDims) (length bDims) - 2)%nat with (length c) by lia.
  rewrite firstn_exact by auto. rewrite !map_app, EB. cbn [map]. rewrite DM, DN. rewrite nth_hit by auto.
  change (batch ++ [I; J]) with (batch ++ [I] ++ [J]). rewrite app_assoc, nth_hit by (rewrite app_length; cbn [length]; lia).
  replace (nth (length c) bDims (Dim true 1)) with dimKb by (unfold dimKb; now rewrite LCr). reflexivity.
Qed.
End Top.
End Dims.
