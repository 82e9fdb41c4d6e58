(** Proofs about the SIMD reductions. *)
From Coq Require Import List ZArith Lia Bool Arith Permutation.
From Verif Require Import Util TensorSpec TensorLemmas BroadcastModel BroadcastFlat BroadcastProps LoopModel LoopProofs CumSumProofs GatherLoopModel GatherLoopProofs CopyLoopProofs ArgLoopModel ArgLoopProofs ReduceLoopSpec ReduceLoopModel ReduceLoopProofs SimdReduceModel.
Import ListNotations.
Open Scope Z_scope.

Lemma stores_gen {T P} (g : P -> list Z) (h : P -> T) l : forall m : mem T, (forall p, In p l -> valid (mShape m) (g p)) ->
  exists m', foldM (fun p m => store m (g p) (h p)) l m = Some m' /\ mShape m' = mShape m /\ (forall j, (forall p, In p l -> g p <> j) -> mAt m' j = mAt m j) /\
    (forall p, In p l -> (forall q, In q l -> g q = g p -> h q = h p) -> mAt m' (g p) = Some (h p)).
Proof.
  induction l as [|p l IH]; intros m V; cbn [foldM].
  - exists m. repeat split; auto. intros p [].
  - rewrite store_ok by (apply V; now left). cbn [obind].
    destruct (IH (Mem (mShape m) (fun j => if ieqb (g p) j then Some (h p) else mAt m j))) as (m' & E & SH & U & W); [intros q Hq; apply V; now right|]. cbn [mShape mAt] in *.
    exists m'. split; [exact E|]. split; [exact SH|]. split.
    + intros j N. rewrite U by (intros q Hq; apply N; now right). now rewrite ieqb_neq by (apply N; now left).
    + intros q Hq HE. destruct (in_dec (list_eq_dec Z.eq_dec) (g q) (map g l)) as [I|I].
      * apply in_map_iff in I as (r & ER & Hr). rewrite <- ER, <- (HE r) by (auto; now right). apply W; auto. intros q0 Hq0 E0. rewrite (HE q0) by (try (now right); congruence). symmetry. apply HE; auto. now right.
      * destruct Hq as [<-|Hq]; [|exfalso; apply I; now apply in_map]. rewrite U by (intros r Hr E0; apply I; rewrite <- E0; now apply in_map). now rewrite ieqb_refl.
Qed.

(** ** Commutative monoids *)
Section Monoid.
Context {T : Type} (op : T -> T -> T) (identity : T).
Hypothesis opA : forall x y z, op x (op y z) = op (op x y) z.
Hypothesis opC : forall x y, op x y = op y x.
Hypothesis opI : forall x, op identity x = x.
Definition msum (l : list T) : T := fold_left op l identity.
Lemma fold_op l : forall x, fold_left op l x = op x (msum l).
Proof. unfold msum. induction l as [|y l IH]; intros x; cbn [fold_left]; [now rewrite opC, opI|]. rewrite IH, (IH (op identity y)), opI. now rewrite opA. Qed.
Lemma msum_cons x l : msum (x :: l) = op x (msum l).
Proof. unfold msum at 1. cbn [fold_left]. now rewrite fold_op, opI. Qed.
Lemma msum_nil : msum [] = identity.
Proof. reflexivity. Qed.
Lemma msum_app a b : msum (a ++ b) = op (msum a) (msum b).
Proof. induction a as [|x a IH]; cbn [app]; [now rewrite msum_nil, opI|]. now rewrite !msum_cons, IH, opA. Qed.
Lemma msum_perm a b : Permutation a b -> msum a = msum b.
Proof. induction 1 as [|x a b P IH|x y a|a b c P1 IH1 P2 IH2]; rewrite ?msum_cons; auto; [now rewrite IH|now rewrite !opA, (opC y x)|congruence]. Qed.
Lemma msum_map2 {A} (f g : A -> T) l : msum (map (fun k => op (f k) (g k)) l) = op (msum (map f l)) (msum (map g l)).
Proof.
  induction l as [|x l IH]; cbn [map]; [now rewrite msum_nil, opI|]. rewrite !msum_cons, IH. rewrite <- !opA. f_equal. rewrite !opA. f_equal. apply opC.
Qed.
Lemma msum_identity {A} (l : list A) : msum (map (fun _ => identity) l) = identity.
Proof. induction l as [|x l IH]; cbn [map]; auto. now rewrite msum_cons, IH, opI. Qed.
Lemma hreduce_msum l : hreduce op identity l = msum l.
Proof. destruct l as [|x l]; cbn [hreduce]; auto. now rewrite fold_op, msum_cons. Qed.
Lemma msum_concat {A} (f : A -> list T) l : msum (flat_map f l) = msum (map (fun a => msum (f a)) l).
Proof. induction l as [|x l IH]; cbn [flat_map map]; auto. now rewrite msum_app, msum_cons, IH. Qed.

(** ** Vector loads and stores *)
Lemma vload_ok (m : mem T) af off n (f : Z -> T) : (forall k, 0 <= k < n -> load m (addLast af (off + k)) = Some (f k)) -> vload m af off n = Some (map f (zrange n)).
Proof. intros H. unfold vload. apply omap_ok. intros k Hk. apply zrange_In in Hk. auto. Qed.
Lemma combine_map {A B C} (f : A -> B) (g : A -> C) l : combine (map f l) (map g l) = map (fun x => (f x, g x)) l.
Proof. induction l as [|x l IH]; cbn [map combine]; congruence. Qed.
Lemma combine_id {A C} (g : A -> C) l : combine l (map g l) = map (fun x => (x, g x)) l.
Proof. etransitivity; [|apply (combine_map (fun x => x) g)]. now rewrite map_id. Qed.
Lemma vstore_eq (m : mem T) af n (f : Z -> T) : 0 <= n -> vstore m af (map f (zrange n)) = foldM (fun k m => store m (addLast af k) (f k)) (zrange n) m.
Proof. intros N. unfold vstore. rewrite map_length, zrange_length, Z2Nat.id by auto. rewrite combine_id, foldM_map. reflexivity. Qed.
Lemma map2_map {A B C D} (F : B -> C -> D) (f : A -> B) (g : A -> C) l : map2 F (map f l) (map g l) = map (fun x => F (f x) (g x)) l.
Proof. induction l as [|x l IH]; cbn [map map2]; congruence. Qed.
Lemma zrange_split n VL : 0 <= n <= VL -> zrange VL = zseq 0 (Z.to_nat n) ++ zseq n (Z.to_nat (VL - n)).
Proof. intros H. unfold zrange. replace (Z.to_nat VL) with (Z.to_nat n + Z.to_nat (VL - n))%nat by lia. rewrite zseq_app. do 2 f_equal. lia. Qed.
Lemma zseq_shift j n : forall a, map (fun k => j + k) (zseq a n) = zseq (j + a) n.
Proof. induction n as [|n IH]; intros a; cbn [zseq map]; auto. rewrite IH. do 2 f_equal. lia. Qed.

Section Steps.
Variables (pre : T -> T) (input : mem T) (f : Z -> Z -> T) (ia ta : Z -> list Z) (L : list Z) (VL : Z) (ts : list Z).
Hypothesis TV : forall v k, In v L -> 0 <= k < VL -> valid ts (addLast (ta v) k).
Hypothesis TI : forall v w k l, In v L -> In w L -> 0 <= k < VL -> 0 <= l < VL -> addLast (ta v) k = addLast (ta w) l -> v = w /\ k = l.
Definition afs := map (fun v => (ia v, ta v)) L.
Definition holds (tmp : mem T) (lane : Z -> Z -> T) : Prop :=
  mShape tmp = ts /\ forall v k, In v L -> 0 <= k < VL -> mAt tmp (addLast (ta v) k) = Some (lane v k).

Lemma store_lanes (tmp : mem T) n (h : Z -> Z -> T) : mShape tmp = ts -> 0 <= n <= VL ->
  exists tmp', foldM (fun v m => vstore m (ta v) (map (h v) (zrange n))) L tmp = Some tmp' /\ mShape tmp' = ts /\
    (forall v k, In v L -> 0 <= k < VL -> mAt tmp' (addLast (ta v) k) = if k <? n then Some (h v k) else mAt tmp (addLast (ta v) k)).
Proof.
  intros E N. destruct (stores_gen (fun p => addLast (ta (fst p)) (snd p)) (fun p => h (fst p) (snd p)) (flat_map (fun v => map (pair v) (zrange n)) L) tmp) as (m' & EM & SM & U & W).
  - intros p Hp. apply in_flat_map in Hp as (v & Hv & Hp). apply in_map_iff in Hp as (k & <- & Hk). apply zrange_In in Hk. cbn [fst snd]. rewrite E. apply TV; auto; lia.
  - exists m'. split; [|split; [congruence|]].
    + rewrite <- foldM_flat in EM. rewrite <- EM. apply foldM_ext. intros v m Hv. rewrite vstore_eq by lia. rewrite foldM_map. reflexivity.
    + intros v k Hv Hk. destruct (Z.ltb_spec k n).
      * apply (W (v, k)).
        -- apply in_flat_map. exists v. split; auto. apply in_map. apply zrange_In. lia.
        -- intros [w l] Hq EQ. cbn [fst snd] in *. apply in_flat_map in Hq as (w' & Hw & Hq). apply in_map_iff in Hq as (l' & EP & Hl). injection EP as -> ->. apply zrange_In in Hl. destruct (TI w v l k) as [-> ->]; auto; lia.
      * apply U. intros [w l] Hq EQ. cbn [fst snd] in *. apply in_flat_map in Hq as (w' & Hw & Hq). apply in_map_iff in Hq as (l' & EP & Hl). injection EP as -> ->. apply zrange_In in Hl. destruct (TI w v l k) as [-> ->]; auto; lia.
Qed.

Lemma step_ok j n tmp lane : holds tmp lane -> 0 <= n <= VL -> (forall v k, In v L -> 0 <= k < n -> load input (addLast (ia v) (j + k)) = Some (f v (j + k))) ->
  exists tmp', reduceStep op pre input afs j n tmp = Some tmp' /\ holds tmp' (fun v k => if k <? n then op (lane v k) (pre (f v (j + k))) else lane v k).
Proof.
  intros [HS HL] N R. unfold reduceStep, afs.
  assert (OM : forall {A B} (F : A -> option B) (g : Z -> A) (l : list Z), omap F (map g l) = omap (fun x => F (g x)) l).
  { intros A B F g l. induction l as [|x l IH]; cbn [map omap]; auto. now rewrite IH. }
  rewrite !OM. cbn [fst snd].
  rewrite (omap_ok _ (fun v => map (fun k => f v (j + k)) (zrange n))) by (intros v Hv; apply vload_ok; auto). cbn [obind].
  rewrite (omap_ok _ (fun v => map (lane v) (zrange n))).
  2:{ intros v Hv. apply vload_ok. intros k Hk. rewrite Z.add_0_l. rewrite load_ok by (rewrite HS; apply TV; auto; lia). apply HL; auto; lia. }
  cbn [obind]. rewrite map2_map. rewrite combine_map, foldM_map. cbn [fst snd].
  destruct (store_lanes tmp n (fun v k => op (lane v k) (pre (f v (j + k)))) HS N) as (tmp' & E & S' & W).
  exists tmp'. split.
  - etransitivity; [|exact E]. apply foldM_ext. intros v m Hv. now rewrite map2_map.
  - split; auto. intros v k Hv Hk. rewrite W by auto. destruct (k <? n); auto.
Qed.

Lemma lane_sum (lane g : Z -> T) j n : 0 <= n <= VL ->
  msum (map (fun k => if k <? n then op (lane k) (g (j + k)) else lane k) (zrange VL)) = op (msum (map lane (zrange VL))) (msum (map g (zseq j (Z.to_nat n)))).
Proof.
  intros N. rewrite (map_ext (fun k => if k <? n then op (lane k) (g (j + k)) else lane k) (fun k => op (lane k) (if k <? n then g (j + k) else identity))).
  2:{ intros k. destruct (k <? n); auto. now rewrite opC, opI. }
  rewrite msum_map2. f_equal. rewrite (zrange_split n VL N), map_app, msum_app.
  rewrite (map_ext_in _ (fun k => g (j + k)) (zseq 0 (Z.to_nat n))) by (intros k Hk; apply zseq_In in Hk; destruct (Z.ltb_spec k n); auto; lia).
  rewrite (map_ext_in _ (fun _ => identity) (zseq n _)) by (intros k Hk; apply zseq_In in Hk; destruct (Z.ltb_spec k n); auto; lia).
  rewrite msum_identity, opC, opI. rewrite <- (map_map (fun k => j + k) g). rewrite zseq_shift. now rewrite Z.add_0_r.
Qed.

Lemma steps_ok steps : (forall p, In p steps -> 0 <= snd p <= VL) -> (forall v j, In v L -> In j (handled steps) -> load input (addLast (ia v) j) = Some (f v j)) ->
  forall tmp lane, holds tmp lane -> exists tmp' lane', foldM (fun p m => reduceStep op pre input afs (fst p) (snd p) m) steps tmp = Some tmp' /\ holds tmp' lane' /\
    forall v, In v L -> msum (map (lane' v) (zrange VL)) = op (msum (map (lane v) (zrange VL))) (msum (map (fun j => pre (f v j)) (handled steps))).
Proof.
  induction steps as [|[j n] steps IH]; intros B R tmp lane H; cbn [foldM handled flat_map fst snd].
  - exists tmp, lane. split; auto. split; auto. intros v _. cbn [map]. now rewrite msum_nil, opC, opI.
  - assert (N : 0 <= n <= VL) by (apply (B (j, n)); now left).
    destruct (step_ok j n tmp lane H N) as (tmp1 & E1 & H1).
    { intros v k Hv Hk. apply R; auto. cbn [handled flat_map fst snd]. apply in_app_iff. left. apply zseq_In. lia. }
    rewrite E1. cbn [obind]. destruct (IH (fun p Hp => B p (or_intror Hp)) (fun v j0 Hv Hj => R v j0 Hv (proj2 (in_app_iff _ _ _) (or_intror Hj))) tmp1 _ H1) as (tmp2 & lane2 & E2 & H2 & M).
    exists tmp2, lane2. split; auto. split; auto. intros v Hv. rewrite M by auto. cbv beta. rewrite (lane_sum (lane v) (fun x => pre (f v x)) j n N). rewrite map_app, msum_app. now rewrite opA.
Qed.

Lemma simdIterate_lengths lb ub b p : 1 <= VL -> In p (simdIterate lb ub VL b) -> 0 <= snd p <= VL.
Proof.
  intros V. unfold simdIterate. destruct (Z.ltb_spec 1 VL).
  - destruct b.
    + intros H1. apply in_map_iff in H1 as (x & <- & _). cbn. lia.
    + intros H1. apply in_app_iff in H1 as [H1|H1]; apply in_map_iff in H1 as (x & <- & _); cbn; lia.
  - intros H1. apply in_map_iff in H1 as (x & <- & _). cbn. lia.
Qed.
Lemma simdIterate_handled lb ub b : 1 <= VL -> (lb <= ub \/ VL = 1) -> (b = true -> (ub - lb) mod VL = 0) ->
  handled (simdIterate lb ub VL b) = zseq lb (Z.to_nat (ub - lb)).
Proof.
  intros V B F. destruct (Z.eq_dec VL 1) as [E|NE].
  - rewrite E. unfold simdIterate. cbn [Z.ltb Z.compare Pos.compare Pos.compare_cont]. apply handled_scalar.
  - destruct B as [B|B]; [|lia]. destruct b; [|apply C43_simd_loop; lia].
    destruct (C43_full_simd lb ub VL B ltac:(lia)) as (e & He & E & Z0). rewrite E. rewrite Z0 by auto. f_equal. lia.
Qed.

Lemma simdReduce_ok lb ub b (tmp : mem T) : mShape tmp = ts -> 1 <= VL -> (lb <= ub \/ VL = 1) -> (b = true -> (ub - lb) mod VL = 0) ->
  (forall v j, In v L -> lb <= j < ub -> load input (addLast (ia v) j) = Some (f v j)) ->
  exists tmp' lane, simdReduce op identity pre input afs lb ub VL b tmp = Some tmp' /\ holds tmp' lane /\
    forall v, In v L -> msum (map (lane v) (zrange VL)) = msum (map (fun j => pre (f v j)) (zseq lb (Z.to_nat (ub - lb)))).
Proof.
  intros S0 V B F R. unfold simdReduce.
  destruct (store_lanes tmp VL (fun _ _ => identity) S0 ltac:(lia)) as (tmp0 & E0 & S1 & W).
  assert (RP : repeat identity (Z.to_nat VL) = map (fun _ => identity) (zrange VL)).
  { unfold zrange. generalize (Z.to_nat VL) 0. induction n as [|n IH]; intros z; cbn [repeat zseq map]; auto. now rewrite (IH (z + 1)). }
  replace (foldM (fun af m => vstore m (snd af) (repeat identity (Z.to_nat VL))) afs tmp) with (Some tmp0).
  2:{ unfold afs. rewrite foldM_map. cbn [snd]. rewrite <- E0. now rewrite RP. }
  cbn [obind]. assert (H0 : holds tmp0 (fun _ _ => identity)).
  { split; auto. intros v k Hv Hk. rewrite W by auto. destruct (Z.ltb_spec k VL); [auto|lia]. }
  pose proof (simdIterate_handled lb ub b V B F) as HH.
  destruct (steps_ok (simdIterate lb ub VL b) (fun p => simdIterate_lengths lb ub b p V)) with (tmp := tmp0) (lane := fun _ _ : Z => identity) as (tmp' & lane & E & H & M).
  - intros v j Hv Hj. rewrite HH in Hj. apply zseq_In in Hj. apply R; auto. lia.
  - exact H0.
  - exists tmp', lane. split; auto. split; auto. intros v Hv. rewrite M by auto. rewrite msum_identity, opI, HH. reflexivity.
Qed.
End Steps.

(** ** Full reductions *)
Section Full.
Variable pre : T -> T.
Lemma oneStep_ok (input tmp : mem T) (g : Z -> T) lb ub VL b t n W : mShape input = [n] -> mShape tmp = [W] -> 0 <= t * VL -> t * VL + VL <= W -> 1 <= VL -> (lb <= ub \/ VL = 1) -> (b = true -> (ub - lb) mod VL = 0) ->
  (forall j, lb <= j < ub -> 0 <= j < n /\ mAt input [j] = Some (g j)) ->
  exists tmp', oneStep op identity pre input lb ub VL b t tmp = Some (msum (map (fun j => pre (g j)) (zseq lb (Z.to_nat (ub - lb)))), tmp') /\ mShape tmp' = [W].
Proof.
  intros SI ST H0 HW V B F R. unfold oneStep.
  destruct (simdReduce_ok pre input (fun _ j => g j) (fun _ => [0]) (fun _ => [t * VL]) [0] VL [W]) with (lb := lb) (ub := ub) (b := b) (tmp := tmp) as (tmp' & lane & E & [HS HL] & M); auto.
  - intros v k _ K. unfold addLast. cbn [removelast last app]. apply valid_cons. split; [lia|constructor].
  - intros v w k l [<-|[]] [<-|[]] _ _ EQ. unfold addLast in EQ. cbn [removelast last app] in EQ. injection EQ as EQ. split; auto. lia.
  - intros v j _ K. destruct (R j K) as [J E]. unfold addLast. cbn [removelast last app]. rewrite Z.add_0_l. rewrite load_ok by (rewrite SI; apply valid_cons; split; [lia|constructor]). exact E.
  - unfold afs in E. cbn [map] in E. rewrite E. cbn [obind]. rewrite (vload_ok tmp' [t * VL] 0 VL (lane 0)).
    2:{ intros k K. rewrite Z.add_0_l. rewrite load_ok by (rewrite HS; unfold addLast; cbn [removelast last app]; apply valid_cons; split; [lia|constructor]). apply HL; auto. now left. }
    cbn [obind]. exists tmp'. split; auto. do 2 f_equal. rewrite hreduce_msum. apply M. now left.
Qed.
Lemma indices_unrm s : okshape s -> indices s = map (unrm s) (zrange (size s)).
Proof.
  intros OK. pose proof (size_nonneg _ OK) as SP. pose proof (indices_length s OK) as IL. apply zget_ext; [rewrite map_length, zrange_length; lia|]. intros k K. rewrite zget_map. unfold zrange.
  rewrite zget_zseq by lia. cbn [option_map]. rewrite Z.add_0_l. destruct (unrm_spec s k OK ltac:(lia)) as [V E]. rewrite <- E at 1. now apply indices_nth.
Qed.
Variables (input : mem T) (dv : list Z -> T).
Let s := mShape input.
Hypothesis OK : okshape s.
Hypothesis HD : forall i, valid s i -> mAt input i = Some (dv i).
Lemma flat_ok : let n := size s in mShape (reinterpret input [n]) = [n] /\ forall j, 0 <= j < n -> 0 <= j < n /\ mAt (reinterpret input [n]) [j] = Some (dv (unrm s j)).
Proof.
  intros n. split; [reflexivity|]. intros j J. split; auto. destruct (unrm_spec s j OK J) as [V E]. rewrite (reinterpret_at input [n] [j] (unrm s j)); auto. cbn [rm]. rewrite size_nil. fold s. lia.
Qed.
Lemma fold_mul l : fold_left Z.mul l 1 = size l.
Proof. rewrite fold_left_mul. unfold size. lia. Qed.
Lemma elements_flat : map (fun j => pre (dv (unrm s j))) (zseq 0 (Z.to_nat (size s))) = map (fun i => pre (dv i)) (indices s).
Proof. rewrite (indices_unrm s OK). rewrite map_map. reflexivity. Qed.
Lemma full_ok divideBy VL b : s <> [] -> 1 <= VL -> (b = true -> size s mod VL = 0) ->
  exists out, fullReduction op identity pre divideBy VL b input = Some out /\ mShape out = [] /\
    mAt out [] = Some (post divideBy (msum (map (fun i => pre (dv i)) (indices s))) (size s)).
Proof.
  intros NE V F. unfold fullReduction. fold s. replace (length s =? 0)%nat with false by (destruct s; [congruence|reflexivity]). rewrite fold_mul. destruct flat_ok as [S1 R1]. pose proof (size_nonneg _ OK).
  destruct (oneStep_ok (reinterpret input [size s]) (alloc [VL]) (fun j => dv (unrm s j)) 0 (size s) VL b 0 (size s) VL S1 eq_refl) as (tmp & E & _); try lia; auto.
  - intros Hb. rewrite Z.sub_0_r. auto.
  - fold s in E. rewrite E. cbn [obind fst]. rewrite Z.sub_0_r, elements_flat. rewrite store_ok by constructor. eexists. split; [reflexivity|]. split; reflexivity.
Qed.
Lemma chunks_cover n : 0 <= n -> forall m, flat_map (fun t => zseq (fst (chunk n 8 t)) (Z.to_nat (snd (chunk n 8 t) - fst (chunk n 8 t)))) (zseq 0 m) = zseq 0 (Z.to_nat (Z.min (Z.of_nat m * - (- n / 8)) n)).
Proof.
  intros N. set (b := - (- n / 8)). assert (0 <= b) by (unfold b; assert (- n / 8 <= 0) by (apply Z.div_le_upper_bound; lia); lia).
  induction m as [|m IH]; [cbn [zseq flat_map]; rewrite Z.mul_0_l, Z.min_l by lia; reflexivity|].
  rewrite <- Nat.add_1_r at 1. rewrite zseq_app, flat_map_app, IH. cbn [zseq flat_map]. rewrite app_nil_r. unfold chunk. cbn [fst snd]. fold b. rewrite Z.add_0_l.
  destruct (Z.le_gt_cases (Z.of_nat m * b) n) as [L|L].
  - rewrite (Z.min_l (Z.of_nat m * b) n L). replace (Z.of_nat m * b) with (0 + Z.of_nat (Z.to_nat (Z.of_nat m * b))) at 2 by nia. rewrite <- zseq_app. f_equal. rewrite <- Z2Nat.inj_add by nia. f_equal. nia.
  - replace (Z.to_nat (Z.min (Z.of_nat m * b + b) n - Z.of_nat m * b)) with O by lia. cbn [zseq]. rewrite app_nil_r. f_equal. nia.
Qed.
Lemma ceil8 n : 0 <= n -> n <= 8 * - (- n / 8).
Proof. intros N. pose proof (Z.mul_div_le (- n) 8 ltac:(lia)). lia. Qed.
Definition chunkSum (t : Z) : T := msum (map (fun j => pre (dv (unrm s j))) (zseq (fst (chunk (size s) 8 t)) (Z.to_nat (snd (chunk (size s) 8 t) - fst (chunk (size s) 8 t))))).
Lemma parallel_ok divideBy VL threads : s <> [] -> 1 <= VL -> Permutation threads (zrange 8) -> (VL = 1 \/ 7 * - (- size s / 8) <= size s) -> (forall t, 0 <= t < 8 -> pre (chunkSum t) = chunkSum t) ->
  exists out, fullReductionParallel op identity pre divideBy VL threads input = Some out /\ mShape out = [] /\
    mAt out [] = Some (post divideBy (msum (map (fun i => pre (dv i)) (indices s))) (size s)).
Proof.
  intros NE V P SZ HP. unfold fullReductionParallel. fold s. replace (length s =? 0)%nat with false by (destruct s; [congruence|reflexivity]). rewrite fold_mul. destruct flat_ok as [S1 R1]. pose proof (size_nonneg _ OK) as NN. set (n := size s) in *. set (bs := - (- n / 8)) in *.
  assert (BS : 0 <= bs) by (unfold bs; assert (- n / 8 <= 0) by (apply Z.div_le_upper_bound; lia); lia).
  assert (G : forall l (tmp out : mem T), (forall t, In t l -> 0 <= t < 8) -> mShape tmp = [8 * VL] -> mShape out = [8] ->
    exists tmp' out', foldM (fun t st => r <- oneStep op identity pre (reinterpret input [n]) (fst (chunk n 8 t)) (snd (chunk n 8 t)) VL false t (fst st) ;; out <- store (snd st) [t] (fst r) ;; Some (snd r, out)) l (tmp, out) = Some (tmp', out') /\
      mShape tmp' = [8 * VL] /\ mShape out' = [8] /\ forall t, mAt out' [t] = if in_dec Z.eq_dec t l then Some (chunkSum t) else mAt out [t]).
  { induction l as [|t l IH]; intros tmp out B ST SO; cbn [foldM].
    - exists tmp, out. repeat split; auto.
    - assert (TB : 0 <= t < 8) by (apply B; now left). cbn [fst snd].
      destruct (oneStep_ok (reinterpret input [n]) tmp (fun j => dv (unrm s j)) (fst (chunk n 8 t)) (snd (chunk n 8 t)) VL false t n (8 * VL) S1 ST) as (tmp1 & E1 & ST1); try nia; try discriminate.
      + destruct SZ as [SZ|SZ]; [now right|left]. unfold chunk. cbn [fst snd]. fold bs. nia.
      + intros j J. apply R1. unfold chunk in J. cbn [fst snd] in J. fold bs in J. nia.
      + rewrite E1. cbn [obind fst snd]. rewrite store_ok by (rewrite SO; apply valid_cons; split; [lia|constructor]). cbn [obind].
        destruct (IH tmp1 (Mem (mShape out) (fun j => if ieqb [t] j then Some (msum (map (fun j => pre (dv (unrm s j))) (zseq (fst (chunk n 8 t)) (Z.to_nat (snd (chunk n 8 t) - fst (chunk n 8 t)))))) else mAt out j))) as (tmp' & out' & E2 & ST2 & SO2 & R2); auto.
        { intros u Hu. apply B. now right. }
        exists tmp', out'. split; [exact E2|]. split; auto. split; auto. intros u. rewrite R2. cbn [mAt]. destruct (in_dec Z.eq_dec u l) as [I|I], (in_dec Z.eq_dec u (t :: l)) as [J|J]; auto.
        * exfalso. apply J. now right.
        * destruct J as [<-|J]; [|contradiction]. rewrite ieqb_refl. reflexivity.
        * rewrite ieqb_neq; auto. intros EQ. injection EQ as ->. apply J. now left. }
  destruct (G threads (alloc [8 * VL]) (alloc [8])) as (tmp & out & E & ST & SO & R); auto.
  { intros t Ht. apply zrange_In. eapply Permutation_in; eauto. }
  rewrite E. cbn [obind fst snd].
  destruct (oneStep_ok out tmp chunkSum 0 8 1 false 0 8 (8 * VL) SO ST) as (tmp2 & E2 & _); try lia; try discriminate.
  { intros j J. split; auto. rewrite R. destruct (in_dec Z.eq_dec j threads) as [I|I]; auto. exfalso. apply I. apply Permutation_sym in P. eapply Permutation_in; [exact P|]. now apply zrange_In. }
  rewrite E2. cbn [obind fst]. rewrite store_ok by constructor. eexists. split; [reflexivity|]. split; [reflexivity|]. cbn [mAt ieqb]. do 2 f_equal.
  rewrite (map_ext_in _ chunkSum) by (intros t Ht; apply zseq_In in Ht; apply HP; lia).
  rewrite <- elements_flat. fold n. replace (Z.to_nat n) with (Z.to_nat (Z.min (Z.of_nat 8 * - (- n / 8)) n)) by (pose proof (ceil8 n NN); f_equal; lia).
  rewrite <- (chunks_cover n NN 8). rewrite flat_map_concat_map, concat_map, map_map, <- flat_map_concat_map. rewrite msum_concat. reflexivity.
Qed.
End Full.
End Monoid.
