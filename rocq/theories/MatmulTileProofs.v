(** Proofs about the blocked loops around krnl.matmul. *)
From Coq Require Import List ZArith Lia Bool Arith.
From Verif Require Import Util TensorSpec TensorLemmas BroadcastModel LoopModel LoopProofs GatherLoopModel GatherLoopProofs ConvProofs ReduceLoopModel ReduceLoopProofs SimdReduceModel SimdReduceProofs SimdShuffleProofs KrnlMatmulModel KrnlMatmulProofs.
Import ListNotations.
Open Scope Z_scope.

Definition onTile (i t U : Z) : Prop := 1 <= t /\ 0 <= i < U /\ i mod t = 0.
Definition ext (i t U : Z) : Z := Z.min t (U - i).

Lemma forLoop_In lb U t i : 1 <= t -> In i (forLoop lb U t) -> lb <= i < U /\ (i - lb) mod t = 0.
Proof.
  intros Ht H. unfold forLoop in H. apply in_map_iff in H as (q & <- & Hq). apply zrange_In in Hq. split.
  - assert (H : t * ((U - lb + t - 1) / t) <= U - lb + t - 1) by (apply Z.mul_div_le; lia). nia.
  - replace (lb + t * q - lb) with (q * t) by lia. apply Z.mod_mul. lia.
Qed.
Lemma onTile_forLoop i t U : 1 <= t -> In i (forLoop 0 U t) -> onTile i t U.
Proof. intros Ht H. apply forLoop_In in H as (H1 & H2); auto. rewrite Z.sub_0_r in H2. repeat split; auto; lia. Qed.
Lemma onTile_last i t U : onTile i t U -> U mod t = 0 -> i + t <= U.
Proof.
  intros (Ht & Hi & Hm) HU. pose proof (Z.div_mod i t ltac:(lia)) as E1. pose proof (Z.div_mod U t ltac:(lia)) as E2. rewrite Hm in E1. rewrite HU in E2.
  assert (i / t < U / t) by nia. nia.
Qed.
Lemma tileSize_ok i t U : onTile i t (dval U) -> tileSize i t U = ext i t (dval U).
Proof.
  intros H. unfold tileSize, ext. destruct (lit U); cbn [andb]; [|apply Z.min_comm]. destruct (Z.eqb_spec (dval U mod t) 0) as [E|E]; [|apply Z.min_comm].
  pose proof (onTile_last _ _ _ H E). lia.
Qed.
Lemma isTileFull_ok i t U : onTile i t (dval U) -> isTileFull i t U = (i + t <=? dval U).
Proof.
  intros H. unfold isTileFull. destruct (lit U && (dval U mod t =? 0)) eqn:E.
  - apply andb_prop in E as (_ & E). apply Z.eqb_eq in E. pose proof (onTile_last _ _ _ H E). symmetry. apply Z.leb_le. lia.
  - destruct (Z.leb_spec 0 (dval U - t - i)), (Z.leb_spec (i + t) (dval U)); auto; lia.
Qed.
Lemma partialTileSize_ok i t U : onTile i t (dval U) -> dval U < i + t -> partialTileSize i t U = ext i t (dval U).
Proof.
  intros (Ht & Hi & Hm) HF. unfold partialTileSize, ext. rewrite Z.min_r by lia. destruct (lit U); [|lia].
  pose proof (Z.div_mod i t ltac:(lia)) as E1. rewrite Hm in E1. replace (dval U) with (dval U - i + (i / t) * t) at 1 by lia. rewrite Z.mod_add by lia. apply Z.mod_small. lia.
Qed.
Lemma blocks_pick {T} (h : T -> T) y U t v : 1 <= t -> 0 <= y < U ->
  fold_left (fun v j => if (j <=? y) && (y <? j + ext j t U) then h v else v) (forLoop 0 U t) v = h v.
Proof.
  intros Ht Hy. unfold forLoop. rewrite fold_left_map. rewrite (fold_left_ext_in _ (fun v g => if y / t =? g then h v else v)).
  - rewrite fold_pick_range. replace ((0 <=? y / t) && (y / t <? (U - 0 + t - 1) / t)) with true; auto. symmetry. apply andb_true_intro. split; [apply Z.leb_le; apply Z.div_pos; lia|]. apply Z.ltb_lt. Z.to_euclidean_division_equations. nia.
  - intros w g Hg. apply zrange_In in Hg. unfold ext. replace ((0 + t * g <=? y) && (y <? 0 + t * g + Z.min t (U - (0 + t * g)))) with (y / t =? g); auto.
    destruct (Z.eqb_spec (y / t) g), (Z.leb_spec (0 + t * g) y), (Z.ltb_spec y (0 + t * g + Z.min t (U - (0 + t * g)))); auto; cbn [andb]; exfalso; Z.to_euclidean_division_equations; nia.
Qed.

Section Product.
Context {T : Type} (add mul : T -> T -> T) (zero : T) (av bv : Z -> Z -> T).
Context (archVL : Z).
Definition summable : Prop := (forall x y z, add x (add y z) = add (add x y) z) /\ (forall x y, add x y = add y x) /\ (forall x, add zero x = x).
Definition pow2 (v : Z) : Prop := exists K : nat, v = 2 ^ Z.of_nat K.

Section One.
Context (cb : list Z) (MI MJ : Z) (P : list Z -> Z -> Z -> Prop).
Hypothesis HP : forall b x y, P b x y -> valid cb b /\ 0 <= x < MI /\ 0 <= y < MJ.
Context (A B : mem T) (asb bsb : list Z) (ar ac br bc : Z) (aPre bPre cPre : list Z) (a0 a1 b0 b1 c0 c1 i0 j0 k0 ti tj tk : Z) (I J K : dim) (simdize : bool).
Hypothesis OI : onTile i0 ti (dval I).
Hypothesis OJ : onTile j0 tj (dval J).
Hypothesis OK : onTile k0 tk (dval K).
Hypothesis HA : holdsTile A asb ar ac aPre a0 a1 i0 (ext i0 ti (dval I)) k0 (ext k0 tk (dval K)) av.
Hypothesis HB : holdsTile B bsb br bc bPre b0 b1 k0 (ext k0 tk (dval K)) j0 (ext j0 tj (dval J)) bv.
Hypothesis HC : forall i j, i0 <= i < i0 + ext i0 ti (dval I) -> j0 <= j < j0 + ext j0 tj (dval J) -> P cPre (i - c0) (j - c1).
Hypothesis HVect : simdize = true -> lit J = true -> dval J = 1 -> summable /\ pow2 archVL /\ bc = 1 /\ b1 = 0 /\ MJ = 1 /\ c1 = 0.

Lemma krnlMatmul_acc : acc cb MI MJ P
  (krnlMatmul add mul zero archVL A (aPre, (a0, a1)) B (bPre, (b0, b1)) (cPre, (c0, c1)) (i0, j0, k0) (I, J, K) (ti, tj, tk) simdize)
  (tileT add mul av bv cPre c0 c1 i0 j0 k0 (ext i0 ti (dval I)) (ext j0 tj (dval J)) (ext k0 tk (dval K))).
Proof.
  assert (PI : 1 <= ext i0 ti (dval I)) by (unfold ext, onTile in *; lia). assert (PJ : 1 <= ext j0 tj (dval J)) by (unfold ext, onTile in *; lia). assert (PK : 1 <= ext k0 tk (dval K)) by (unfold ext, onTile in *; lia).
  pose proof (genScalar_acc add mul av bv cb MI MJ P HP A B asb bsb ar ac br bc aPre bPre cPre a0 a1 b0 b1 c0 c1 i0 j0 k0 _ _ _ HA HB HC) as GS.
  pose proof (genSimdMatMat_acc add mul av bv cb MI MJ P HP A B asb bsb ar ac br bc aPre bPre cPre a0 a1 b0 b1 c0 c1 i0 j0 k0 _ _ _ HA HB HC ltac:(lia)) as GM.
  unfold krnlMatmul. cbn [fst snd]. rewrite !tileSize_ok by auto. rewrite !isTileFull_ok by auto.
  assert (FI : i0 + ti <= dval I -> ext i0 ti (dval I) = ti) by (unfold ext; lia). assert (FJ : j0 + tj <= dval J -> ext j0 tj (dval J) = tj) by (unfold ext; lia). assert (FK : k0 + tk <= dval K -> ext k0 tk (dval K) = tk) by (unfold ext; lia).
  destruct (Z.leb_spec (i0 + ti) (dval I)) as [LI|LI], (Z.leb_spec (j0 + tj) (dval J)) as [LJ|LJ], (Z.leb_spec (k0 + tk) (dval K)) as [LK|LK]; cbn [andb];
    try rewrite (partialTileSize_ok j0 tj J OJ) by lia.
  all: destruct simdize; cbn [andb]; [|solve [try rewrite FI in GS, GM |- * by lia; try rewrite FJ in GS, GM |- * by lia; try rewrite FK in GS, GM |- * by lia; exact GS]].
  all: destruct (lit J && (dval J =? 1)) eqn:EV; [|solve [try rewrite FI in GS, GM |- * by lia; try rewrite FJ in GS, GM |- * by lia; try rewrite FK in GS, GM |- * by lia; first [exact GM | exact GS]]].
  all: destruct (ti mod archVL =? 0) eqn:EI, (tk mod archVL =? 0) eqn:EK; cbn [andb]; try solve [try rewrite FI in GS, GM |- * by lia; try rewrite FJ in GS, GM |- * by lia; try rewrite FK in GS, GM |- * by lia; exact GS].
  apply andb_prop in EV as (LJ1 & EJ1). apply Z.eqb_eq in EJ1. apply Z.eqb_eq in EI. apply Z.eqb_eq in EK.
  destruct (HVect eq_refl LJ1 EJ1) as ((opA & opC & opI) & (p & Hp) & -> & -> & -> & ->).
  assert (J0 : j0 = 0) by (unfold onTile in *; lia). subst j0. assert (EJ : ext 0 tj (dval J) = 1) by (unfold ext, onTile in *; lia).
  rewrite FI in HA, HC |- * by lia. rewrite FK in HA, HB |- * by lia. rewrite EJ in HB, HC |- *.
  apply (genSimdMatVect_acc add mul zero av bv cb MI 1 P HP A B asb bsb ar ac br 1 aPre bPre cPre a0 a1 b0 0 c0 0 i0 0 k0 ti 1 tk HA HB HC opA opC opI archVL p); auto; lia.
Qed.
End One.

(** ** The three blocked loops *)
Lemma dot_flat {X} i j (g : X -> list Z) l : forall v, fold_left (fun v a => dot add mul av bv i j (g a) v) l v = dot add mul av bv i j (flat_map g l) v.
Proof. unfold dot. induction l as [|a l IH]; intros v; cbn [flat_map fold_left]; auto. rewrite IH. now rewrite fold_left_app. Qed.
Lemma dot_blocks i j U t v : 0 <= U -> 1 <= t -> fold_left (fun v k => dot add mul av bv i j (zseq k (Z.to_nat (ext k t U))) v) (forLoop 0 U t) v = dot add mul av bv i j (zrange U) v.
Proof. intros HU Ht. rewrite dot_flat. unfold ext. now rewrite blocks_cover. Qed.
Lemma fold_if {X Y} (c : bool) (f : X -> Y -> X) l : forall v, fold_left (fun v a => if c then f v a else v) l v = if c then fold_left f l v else v.
Proof. destruct c; intros v; auto. apply fold_same. Qed.

Lemma tilesFor_pos simd I J K ti tj tk s : 1 <= archVL -> 0 <= dval I -> 0 <= dval J -> 0 <= dval K ->
  (lit J && (dval J =? 1) = true \/ (lit I = true -> 1 <= dval I) /\ (lit K = true -> 1 <= dval K)) ->
  tilesFor archVL I J K simd = (ti, tj, tk, s) -> 1 <= ti /\ 1 <= tj /\ 1 <= tk /\ (s = true -> simd = true).
Proof.
  intros HV HI HJ HK HZ. unfold tilesFor. destruct (lit J && (dval J =? 1)) eqn:EJ.
  - unfold matVectTiles. intros E. pose proof (Z.div_pos (dval K) archVL HK ltac:(lia)). pose proof (Z.div_pos (dval I) archVL HI ltac:(lia)).
    destruct (lit K), (64 * archVL <? dval K / archVL * archVL), (Z.ltb_spec (dval K / archVL * archVL) archVL), (lit I), (dval I <? 2 * archVL), (Z.ltb_spec (dval I / archVL * archVL) archVL); cbn [andb] in E; apply pair_equal_spec in E as (E & <-); apply pair_equal_spec in E as (E & <-); apply pair_equal_spec in E as (<- & <-); (split; [|split; [|split]]); try lia; auto; try discriminate.
  - destruct HZ as [HZ|(Z1 & Z2)]; [discriminate|]. unfold matMatTiles. intros E. injection E as <- <- <- <-.
    repeat split.
    + destruct (lit I); cbn [andb]; [|lia]. specialize (Z1 eq_refl). destruct (dval I <? 4); lia.
    + destruct (lit J); [|lia]. destruct (dval J =? 1); [lia|]. match goal with |- _ <= (if ?c then _ else _) => destruct c end; lia.
    + destruct (lit K); cbn [andb]; [|lia]. specialize (Z2 eq_refl). destruct (dval K <? 8); lia.
    + match goal with |- (if ?c then _ else _) = true -> _ => destruct c end; [discriminate|auto].
Qed.

Lemma holds_sub (M : mem T) sb r c pre v i0 In j0 Jn : holdsTile M sb r c pre 0 0 0 r 0 c v -> 0 <= i0 -> i0 + In <= r -> 0 <= j0 -> j0 + Jn <= c -> holdsTile M sb r c pre 0 0 i0 In j0 Jn v.
Proof. intros (S1 & V & H) A1 A2 A3 A4. split; auto. split; auto. intros i j Hi Hj. apply H; lia. Qed.

Section Whole.
Context (cb : list Z) (A B : mem T) (asb bsb : list Z) (aPre bPre cPre : list Z) (I J K : dim) (enableSIMD : bool).
Hypothesis HI : 0 <= dval I.
Hypothesis HJ : 0 <= dval J.
Hypothesis HK : 0 <= dval K.
Hypothesis HVL : 1 <= archVL.
Hypothesis HZ : lit J && (dval J =? 1) = true \/ (lit I = true -> 1 <= dval I) /\ (lit K = true -> 1 <= dval K).
Hypothesis HA : holdsTile A asb (dval I) (dval K) aPre 0 0 0 (dval I) 0 (dval K) av.
Hypothesis HB : holdsTile B bsb (dval K) (dval J) bPre 0 0 0 (dval K) 0 (dval J) bv.
Hypothesis HC : valid cb cPre.
Hypothesis HVect : enableSIMD = true -> lit J = true -> dval J = 1 -> summable /\ pow2 archVL.
Definition allCells (b : list Z) (x y : Z) : Prop := valid cb b /\ 0 <= x < dval I /\ 0 <= y < dval J.

Lemma tiledProduct_acc : acc cb (dval I) (dval J) allCells (tiledProduct add mul zero archVL enableSIMD A B aPre bPre cPre I J K)
  (fun b x y v => if ieqb cPre b then dot add mul av bv x y (zrange (dval K)) v else v).
Proof.
  unfold tiledProduct. destruct (tilesFor archVL I J K enableSIMD) as (((ti & tj) & tk) & s) eqn:ET.
  destruct (tilesFor_pos _ _ _ _ _ _ _ _ HVL HI HJ HK HZ ET) as (Pi & Pj & Pk & Ps).
  unfold blocked. rewrite !(proj2 (Z.leb_gt _ _)) by lia. cbn [obind].
  eapply acc_ext; [apply acc_fold with (g := fun i0 b x y v => fold_left (fun v j0 => fold_left (fun v k0 => tileT add mul av bv cPre 0 0 i0 j0 k0 (ext i0 ti (dval I)) (ext j0 tj (dval J)) (ext k0 tk (dval K)) b x y v) (forLoop 0 (dval K) tk) v) (forLoop 0 (dval J) tj) v)|].
  - intros i0 Hi0. apply onTile_forLoop in Hi0; auto.
    apply acc_fold with (g := fun j0 b x y v => fold_left (fun v k0 => tileT add mul av bv cPre 0 0 i0 j0 k0 (ext i0 ti (dval I)) (ext j0 tj (dval J)) (ext k0 tk (dval K)) b x y v) (forLoop 0 (dval K) tk) v).
    intros j0 Hj0. apply onTile_forLoop in Hj0; auto.
    apply acc_fold with (g := fun k0 => tileT add mul av bv cPre 0 0 i0 j0 k0 (ext i0 ti (dval I)) (ext j0 tj (dval J)) (ext k0 tk (dval K))).
    intros k0 Hk0. apply onTile_forLoop in Hk0; auto.
    assert (B1 : i0 + ext i0 ti (dval I) <= dval I) by (unfold ext; lia). assert (B2 : j0 + ext j0 tj (dval J) <= dval J) by (unfold ext; lia). assert (B3 : k0 + ext k0 tk (dval K) <= dval K) by (unfold ext; lia).
    apply krnlMatmul_acc with (asb := asb) (bsb := bsb) (ar := dval I) (ac := dval K) (br := dval K) (bc := dval J); auto.
    + apply holds_sub; auto; unfold onTile in *; lia.
    + apply holds_sub; auto; unfold onTile in *; lia.
    + intros i j Hi Hj. unfold allCells, onTile in *. split; auto. lia.
    + intros Hs L1 D1. destruct (HVect (Ps Hs) L1 D1). repeat split; auto; apply H.
  - intros b x y v (V & X & Y). unfold tileT.
    transitivity (fold_left (fun v i0 => if (i0 <=? x) && (x <? i0 + ext i0 ti (dval I)) then (if ieqb cPre b then dot add mul av bv x y (zrange (dval K)) v else v) else v) (forLoop 0 (dval I) ti) v).
    + apply fold_left_ext_in. intros w i0 _. rewrite !Z.add_0_r.
      rewrite (fold_left_ext_in _ (fun v j0 => if (j0 <=? y) && (y <? j0 + ext j0 tj (dval J)) then (if ieqb cPre b && ((i0 <=? x) && (x <? i0 + ext i0 ti (dval I))) then dot add mul av bv x y (zrange (dval K)) v else v) else v)).
      * rewrite blocks_pick by lia. destruct (ieqb cPre b), ((i0 <=? x) && (x <? i0 + ext i0 ti (dval I))); auto.
      * intros u j0 _. rewrite fold_if. rewrite dot_blocks by lia. destruct (ieqb cPre b), ((i0 <=? x) && (x <? i0 + ext i0 ti (dval I))), ((j0 <=? y) && (y <? j0 + ext j0 tj (dval J))); auto.
    + now rewrite blocks_pick by lia.
Qed.
End Whole.
End Product.
