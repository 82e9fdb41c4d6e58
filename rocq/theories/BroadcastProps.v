(** C29 (broadcast shapes), C30 (loop collapsing), C42 (element access), C43 (SIMD loop). *)
From Coq Require Import List ZArith Lia Bool Arith.
From Verif Require Import Util TensorSpec TensorLemmas BroadcastModel BroadcastSpec BroadcastProofs BroadcastFlat.
Import ListNotations.
Open Scope Z_scope.

(** Run-time shapes of the operands. *)
Notation shapes_at rho shapes := (map (map (ev rho)) shapes).
(** Dimensions known only at run time are not 0. *)
Definition dynamic_dims_positive (rho : nat -> Z) (shapes : list (list dim)) : Prop :=
  forall s d, In s shapes -> In d s -> (exists n, d = Lit n) \/ 1 <= ev rho d.

(** ** C29 *)
(** Whatever the run-time values, if the run-time shapes broadcast to R then shape
    inference succeeds and its result evaluates to R. *)
Theorem C29_broadcast_shape : forall rho shapes R, broadcast (shapes_at rho shapes) R -> dynamic_dims_positive rho shapes ->
  exists out, computeShape false shapes = Some out /\ map (ev rho) out = R.
Proof. intros rho shapes R HB HG. exact (compute_ok rho shapes R HB HG). Qed.
(** Static shapes are accepted only when they broadcast. *)
Theorem C29_static_rejected : forall rho shapes out, (forall s d, In s shapes -> In d s -> exists n, d = Lit n) ->
  computeShape false shapes = Some out -> broadcast (shapes_at rho shapes) (map (ev rho) out).
Proof. intros rho shapes out HL E. apply (compute_lit rho); auto. intros s d Hs Hd. destruct (HL s d Hs Hd) as [m ->]. reflexivity. Qed.
(** Unidirectional broadcasting (PRelu): the result is the shape of the first operand. *)
Theorem C29_unidirectional : forall rho s0 rest, broadcast (shapes_at rho (s0 :: rest)) (map (ev rho) s0) ->
  exists out, computeShape true (s0 :: rest) = Some out /\ map (ev rho) out = map (ev rho) s0.
Proof. intros rho s0 rest HB. exact (compute_uni rho (s0 :: rest) _ s0 rest eq_refl HB eq_refl). Qed.
(** Two dynamic dimensions, 0 and 1 at run time: the result should be 0, the code
    computes max(0, 1) = 1. *)
Theorem C29_zero_refuted : exists rho shapes R out, broadcast (shapes_at rho shapes) R /\
  computeShape false shapes = Some out /\ map (ev rho) out <> R.
Proof.
  exists (fun x => Z.of_nat x), [[Dyn 0]; [Dyn 1]], [0]. eexists. split; [|split; [vm_compute; reflexivity|vm_compute; discriminate]].
  split; [|split].
  - intros s [<-|[<-|[]]]; cbn; lia.
  - exists [0]. split; [now left|reflexivity].
  - intros j Hj. cbn in Hj. assert (j = 0%nat) as -> by lia. split; [now left|]. intros v [<-|[<-|[]]]; cbn; lia.
Qed.
(** Non-vacuity: (2, ?, 3), (?, 1), (4, ?) with 5 and 1 and 3 at run time. *)
Definition demo_shapes : list (list dim) := [[Lit 2; Dyn 0; Lit 3]; [Dyn 1; Lit 1]; [Lit 4; Dyn 2]].
Definition demo_rho (x : nat) : Z := nth x [4; 1; 3] 0.
Example C29_ex : broadcast (shapes_at demo_rho demo_shapes) [2; 4; 3] /\ dynamic_dims_positive demo_rho demo_shapes /\
  computeShape false demo_shapes = Some [Lit 2; Lit 4; Lit 3].
Proof.
  split; [split; [|split]|split].
  - intros s Hs. cbn in Hs. repeat (destruct Hs as [<-|Hs]; [cbn; lia|]). destruct Hs.
  - exists [2; 4; 3]. split; [now left|reflexivity].
  - intros j Hj. cbn in Hj. assert (j = 0 \/ j = 1 \/ j = 2)%nat as [-> |[-> | ->]] by lia;
      (split; [cbn; tauto|]; intros v Hv; cbn in Hv |- *; intuition lia).
  - intros s d Hs Hd. cbn in Hs. repeat (destruct Hs as [<-|Hs]; [cbn in Hd; repeat (destruct Hd as [<-|Hd]; [solve [left; eauto | right; cbn; lia]|]); destruct Hd|]). destruct Hs.
  - reflexivity.
Qed.

(** ** C42: the elements read *)
Definition sameShape_sound (rho : nat -> Z) (shapes : list (list dim)) (same : nat -> bool) : Prop :=
  forall i, same i = true -> map (ev rho) (nth i shapes []) = map (ev rho) (nth 0 shapes []).
Theorem C42_element_access : forall rho shapes R uni same op iv,
  broadcast (shapes_at rho shapes) R -> (uni = true -> R = map (ev rho) (nth 0 shapes [])) ->
  sameShape_sound rho shapes same -> (op < length shapes)%nat -> valid R iv ->
  let s := map (ev rho) (nth op shapes []) in
  let accesses := getAccess uni (hasNoBroadcast same shapes) false (inputsDims shapes) op (length s) (length R) in
  map (evAcc rho iv) accesses = bindex s iv /\ valid s (bindex s iv).
Proof.
  intros rho shapes R uni same op iv HB HU HS Ho V s accesses. split; [|apply (bindex_valid rho shapes R); auto].
  unfold accesses, s. rewrite map_length. rewrite (broadcast_rank rho shapes R HB). apply (access_ok rho shapes R); auto.
  split; [|exact HU]. intros N. apply (noBroadcast_ok rho shapes R same); auto.
Qed.
(** Broadcasting is ruled out only if all (padded) shapes equal the output's. *)
Theorem C42_no_broadcast_sound : forall rho shapes R same, broadcast (shapes_at rho shapes) R -> sameShape_sound rho shapes same ->
  hasNoBroadcast same shapes = true -> forall s j, In s (shapes_at rho shapes) -> (j < length R)%nat -> rdim s j = rdim R j.
Proof.
  intros rho shapes R same HB HS N s j Hs Hj. apply in_map_iff in Hs as (s0 & <- & Hs). apply (In_nth _ _ []) in Hs as (op & Ho & <-).
  pose proof (broadcast_rank rho shapes R HB) as ER. rewrite ER in Hj.
  pose proof (noBroadcast_ok rho shapes R same HB HS N op (outRank shapes - 1 - j) Ho ltac:(lia)) as E.
  rewrite col_nth in E by auto. rewrite nth_pad in E by (try lia; apply outRank_le, nth_In; auto).
  replace (outRank shapes - 1 - (outRank shapes - 1 - j))%nat with j in E by lia. unfold evS in E. rewrite E.
  rewrite <- rdim_nth by lia. f_equal. lia.
Qed.
Example C42_ex : map (evAcc demo_rho [1; 3; 2]) (getAccess false (hasNoBroadcast (fun _ => false) demo_shapes) false (inputsDims demo_shapes) 1 2 3) = [0; 0]
  /\ map (evAcc demo_rho [1; 3; 2]) (getAccess false false false (inputsDims demo_shapes) 2 2 3) = [3; 2].
Proof. split; reflexivity. Qed.

(** ** C30 *)
(** [same a b r]: the analysis claims that dimension r (negative: from the right) of
    operands a and b is equal. *)
Definition sameDim_sound (rho : nat -> Z) (shapes : list (list dim)) (same : nat -> nat -> Z -> bool) : Prop :=
  forall a b r, same a b r = true -> r < 0 ->
    rdim (map (ev rho) (nth a shapes [])) (Z.to_nat (- r - 1)) = rdim (map (ev rho) (nth b shapes [])) (Z.to_nat (- r - 1)).
Lemma same_col rho shapes same : sameDim_sound rho shapes same ->
  forall a b q, (a < length shapes)%nat -> (b < length shapes)%nat -> (q < outRank shapes)%nat ->
  same a b (Z.of_nat q - Z.of_nat (outRank shapes)) = true ->
  ev rho (nth a (col (inputsDims shapes) q) (Lit 1)) = ev rho (nth b (col (inputsDims shapes) q) (Lit 1)).
Proof.
  intros H a b q Ha Hb Hq E. rewrite !col_nth, !nth_pad by (auto; try (apply outRank_le, nth_In; auto)).
  specialize (H a b _ E ltac:(lia)). clear E. rename H into E. replace (Z.to_nat (- (Z.of_nat q - Z.of_nat (outRank shapes)) - 1)) with (outRank shapes - 1 - q)%nat in E by lia. exact E.
Qed.
(** Each operand is, on the k collapsed dimensions, a single element or laid out like
    the output; and the collapsed size is that of the output. *)
Theorem C30_collapse_valid : forall rho shapes R same k litSize dynSize,
  broadcast (shapes_at rho shapes) R -> sameDim_sound rho shapes same ->
  hasManageableBroadcast same shapes = (k, litSize, dynSize) ->
  (k <= length R)%nat /\
  litSize * prodZ (map (ev rho) dynSize) = size (skipn (length R - k) R) /\
  forall s, In s (shapes_at rho shapes) -> (forall j, (j < k)%nat -> rdim s j = 1) \/ (forall j, (j < k)%nat -> rdim s j = rdim R j).
Proof.
  intros rho shapes R same k ls ds HB HS E. pose proof (broadcast_rank rho shapes R HB) as ER.
  pose proof (manageable_ok rho shapes R HB same (same_col rho shapes same HS)) as M. rewrite E in M. destruct M as (M1 & M2 & M3).
  rewrite ER. split; [auto|split; [exact M2|]]. intros s Hs. apply in_map_iff in Hs as (s0 & <- & Hs). apply (In_nth _ _ []) in Hs as (op & Ho & <-).
  assert (V : forall j, (j < k)%nat -> ev rho (nth op (col (inputsDims shapes) (outRank shapes - 1 - j)) (Lit 1)) = rdim (map (ev rho) (nth op shapes [])) j).
  { intros j Hj. rewrite col_nth by auto. rewrite nth_pad by (try lia; apply outRank_le, nth_In; auto).
    replace (outRank shapes - 1 - (outRank shapes - 1 - j))%nat with j by lia. reflexivity. }
  destruct (M3 op Ho) as [H|H]; [left|right]; intros j Hj.
  - rewrite <- V by auto. rewrite H by lia. reflexivity.
  - rewrite <- V by auto. rewrite H by lia. rewrite <- rdim_nth by lia. f_equal. lia.
Qed.
(** The flattened code reads, for every output position, the element that broadcasting
    prescribes. *)
Theorem C30_flattened_access : forall rho shapes R uni sameS sameD k litSize dynSize op outer inner,
  broadcast (shapes_at rho shapes) R -> (uni = true -> R = map (ev rho) (nth 0 shapes [])) ->
  sameShape_sound rho shapes sameS -> sameDim_sound rho shapes sameD ->
  hasManageableBroadcast sameD shapes = (k, litSize, dynSize) -> (1 <= k)%nat ->
  (op < length shapes)%nat -> valid R (outer ++ inner) -> length inner = k ->
  let s := map (ev rho) (nth op shapes []) in
  flatRead uni (hasNoBroadcast sameS shapes) rho shapes k op outer (rowmajor (skipn (length R - k) R) inner)
    = rowmajor s (bindex s (outer ++ inner)).
Proof.
  intros rho shapes R uni sameS sameD k ls ds op outer inner HB HU HS HD E K1 Ho V LI s. pose proof (broadcast_rank rho shapes R HB) as ER.
  pose proof (manageable_ok rho shapes R HB sameD (same_col rho shapes sameD HD)) as M. rewrite E in M. destruct M as (M1 & _ & M3).
  rewrite ER. pose proof (valid_length _ _ V) as LV. rewrite app_length in LV.
  apply (flatRead_ok rho shapes R); auto; try lia. 
  split; [|exact HU]. intros N. apply (noBroadcast_ok rho shapes R sameS); auto.
Qed.
(** (2, 3, ?, 4), (3, ?, 4), (1): with an analysis that knows the two ? to be the same,
    three loops collapse. *)
Definition demo2 : list (list dim) := [[Lit 2; Lit 3; Dyn 0; Lit 4]; [Lit 3; Dyn 1; Lit 4]; [Lit 1]].
Definition demo2_rho (x : nat) : Z := 5.
Example C30_ex : hasManageableBroadcast (fun a b r => r =? -2) demo2 = (3%nat, 12, [Dyn 1]) /\
  hasManageableBroadcast (fun a b r => false) demo2 = (1%nat, 4, []) /\
  broadcast (shapes_at demo2_rho demo2) [2; 3; 5; 4] /\ valid [2; 3; 5; 4] ([1] ++ [2; 4; 3]).
Proof.
  split; [reflexivity|split; [reflexivity|split; [split; [|split]|]]].
  - intros s Hs. cbn in Hs. repeat (destruct Hs as [<-|Hs]; [cbn; lia|]). destruct Hs.
  - exists [2; 3; 5; 4]. split; [now left|reflexivity].
  - intros j Hj. cbn in Hj. assert (j = 0 \/ j = 1 \/ j = 2 \/ j = 3)%nat as [-> |[-> |[-> | ->]]] by lia;
      (split; [cbn; tauto|]; intros v Hv; cbn in Hv |- *; unfold demo2_rho in *; cbn in Hv |- *; intuition lia).
  - cbn [app]. repeat constructor; lia.
Qed.

(** ** C43 *)
Definition handled (l : list (Z * Z)) : list Z := flat_map (fun p => zseq (fst p) (Z.to_nat (snd p))) l.
Lemma handled_app a b : handled (a ++ b) = handled a ++ handled b.
Proof. apply flat_map_app. Qed.
Lemma handled_scalar lb ub : handled (map (fun i => (i, 1)) (forLoop lb ub 1)) = zseq lb (Z.to_nat (ub - lb)).
Proof.
  unfold handled, forLoop, zrange. rewrite flat_vec by lia. rewrite Z.div_1_r.
  replace (ub - lb + 1 - 1) with (ub - lb) by lia. f_equal. lia.
Qed.
(** The vector loop and its scalar remainder handle exactly lb, ..., ub-1, each once
    and in order. *)
Theorem C43_simd_loop : forall lb ub VL, lb <= ub -> 0 <= VL -> handled (simdIterate lb ub VL false) = zseq lb (Z.to_nat (ub - lb)).
Proof.
  intros lb ub VL H HV. unfold simdIterate. destruct (Z.ltb_spec 1 VL); [|apply handled_scalar].
  rewrite handled_app, handled_scalar. unfold handled, forLoop, zrange. rewrite flat_vec by lia.
  set (t := ub - lb). pose proof (Z.mod_pos_bound t VL ltac:(lia)) as M. pose proof (Z.div_mod t VL ltac:(lia)) as D.
  replace (ub - (VL - 1) - lb + VL - 1) with t by (unfold t; lia).
  assert (0 <= t / VL) by (apply Z.div_pos; unfold t; lia).
  replace (Z.to_nat (ub - (lb + (t - t mod VL)))) with (Z.to_nat (t mod VL)) by (unfold t; f_equal; lia).
  replace (Z.to_nat VL * Z.to_nat (t / VL))%nat with (Z.to_nat (VL * (t / VL))) by (rewrite Z2Nat.inj_mul by lia; reflexivity).
  replace (lb + (t - t mod VL)) with (lb + Z.of_nat (Z.to_nat (VL * (t / VL)))) by nia.
  rewrite <- zseq_app. f_equal. rewrite <- Z2Nat.inj_add by nia. f_equal. lia.
Qed.
(** Forced full vectors: the positions are covered, with fewer than VL past the end. *)
Theorem C43_full_simd : forall lb ub VL, lb <= ub -> 2 <= VL -> exists extra, 0 <= extra < VL /\
  handled (simdIterate lb ub VL true) = zseq lb (Z.to_nat (ub - lb + extra)) /\ ((ub - lb) mod VL = 0 -> extra = 0).
Proof.
  intros lb ub VL H HV. unfold simdIterate. destruct (Z.ltb_spec 1 VL); [|lia].
  unfold handled, forLoop, zrange. rewrite flat_vec by lia. set (t := ub - lb). set (q := (t + VL - 1) / VL).
  pose proof (Z.mod_pos_bound (t + VL - 1) VL ltac:(lia)) as M. pose proof (Z.div_mod (t + VL - 1) VL ltac:(lia)) as D. fold q in D.
  assert (0 <= q) by (apply Z.div_pos; unfold t; lia). assert (0 <= t) by (unfold t; lia).
  exists (VL * q - t). split; [lia|split].
  - f_equal. replace (t + (VL * q - t)) with (VL * q) by lia. rewrite Z2Nat.inj_mul by lia. reflexivity.
  - intros E. apply Z.mod_divide in E; [|lia]. destruct E as [c Ec]. assert (q = c); [|lia]. nia.
Qed.
(** So the full form touches positions past the end. *)
Theorem C43_full_simd_overruns_refuted : exists lb ub VL, lb <= ub /\ In ub (handled (simdIterate lb ub VL true)).
Proof. exists 0, 5, 4. split; [lia|]. vm_compute. tauto. Qed.
Example C43_ex : simdIterate 0 10 4 false = [(0, 4); (4, 4); (8, 1); (9, 1)].
Proof. reflexivity. Qed.

Print Assumptions C29_broadcast_shape.
Print Assumptions C29_static_rejected.
Print Assumptions C29_unidirectional.
Print Assumptions C29_zero_refuted.
Print Assumptions C42_element_access.
Print Assumptions C42_no_broadcast_sound.
Print Assumptions C30_collapse_valid.
Print Assumptions C30_flattened_access.
Print Assumptions C43_simd_loop.
Print Assumptions C43_full_simd.
Print Assumptions C43_full_simd_overruns_refuted.
