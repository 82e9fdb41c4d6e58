(** Proofs about the lowering of Gemm. *)
From Coq Require Import List ZArith Lia Bool Arith.
From Verif Require Import Util TensorSpec TensorLemmas ElementsSpec BroadcastModel LoopModel LoopProofs GatherLoopModel GatherLoopProofs ShapeOpsProofs ConvProofs ReduceLoopModel ReduceLoopProofs SimdReduceModel SimdReduceProofs SimdShuffleProofs KrnlMatmulModel KrnlMatmulProofs MatmulTileProofs MatmulLowerProofs GemmLowerModel.
Import ListNotations.
Open Scope Z_scope.

Lemma valid_two a b i j : valid [a; b] [i; j] <-> 0 <= i < a /\ 0 <= j < b.
Proof. rewrite !valid_cons. split; [tauto|]. intros H. repeat split; try tauto; try lia. constructor. Qed.
Lemma two_inv a b l : valid [a; b] l -> exists i j, l = [i; j] /\ 0 <= i < a /\ 0 <= j < b.
Proof. intros V. destruct l as [|i [|j [|? ?]]]; pose proof (valid_length _ _ V) as L; try discriminate L. apply valid_two in V. exists i, j. tauto. Qed.

(** The tiles of a part of a dimension. *)
Lemma blocks_from {T} (h : T -> T) y lb n t U v : 1 <= t -> 0 <= n -> n mod t = 0 -> y < U ->
  fold_left (fun v j => if (j <=? y) && (y <? j + ext j t U) then h v else v) (forLoop lb (Z.min (lb + n) U) t) v = if (lb <=? y) && (y <? lb + ext lb n U) then h v else v.
Proof.
  intros Ht Hn Hm Hy. unfold forLoop. rewrite fold_left_map. rewrite (fold_left_ext_in _ (fun v g => if (y - lb) / t =? g then h v else v)).
  - rewrite fold_pick_range. replace ((0 <=? (y - lb) / t) && _) with ((lb <=? y) && (y <? lb + ext lb n U)); auto. unfold ext.
    pose proof (Z.div_mod (y - lb) t ltac:(lia)) as E1. pose proof (Z.mod_pos_bound (y - lb) t ltac:(lia)) as B1.
    assert (B2 : (y - lb) / t < (Z.min (lb + n) U - lb + t - 1) / t <-> y - lb < Z.min n (U - lb)).
    { destruct (Z.le_gt_cases U (lb + n)) as [HU|HU].
      - rewrite !Z.min_r by lia. pose proof (Z.div_mod (U - lb + t - 1) t ltac:(lia)) as E2. pose proof (Z.mod_pos_bound (U - lb + t - 1) t ltac:(lia)). split; intros H1; [lia|]. nia.
      - rewrite !Z.min_l by lia. pose proof (Z.div_mod n t ltac:(lia)) as E3. rewrite Hm in E3. replace ((lb + n - lb + t - 1) / t) with (n / t) by (apply (Z.div_unique _ _ _ (t - 1)); lia). split; intros H1; nia. }
    assert (B3 : 0 <= (y - lb) / t <-> lb <= y) by (split; intros; nia).
    apply eq_true_iff_eq. rewrite !andb_true_iff, !Z.leb_le, !Z.ltb_lt. rewrite B2, B3. lia.
  - intros w g Hg. apply zrange_In in Hg. unfold ext. replace ((lb + t * g <=? y) && _) with ((y - lb) / t =? g); auto.
    destruct (Z.eqb_spec ((y - lb) / t) g), (Z.leb_spec (lb + t * g) y), (Z.ltb_spec y (lb + t * g + Z.min t (U - (lb + t * g)))); auto; cbn [andb]; exfalso; pose proof (Z.div_mod (y - lb) t ltac:(lia)); pose proof (Z.mod_pos_bound (y - lb) t ltac:(lia)); nia.
Qed.

Section Gemm.
Context {T : Type} (add mul : T -> T -> T) (zero : T).

(** ** Tile copies *)
Lemma copyTo_ok b0 b1 (source : mem T) src starts (tr : bool) (v : Z -> Z -> T) p0 p1 r0 r1 :
  p0 = (if tr then snd starts else fst starts) -> p1 = (if tr then fst starts else snd starts) ->
  (if tr then tileSize (snd starts) b0 (snd src) else tileSize (fst starts) b0 (fst src)) = r0 ->
  (if tr then tileSize (fst starts) b1 (fst src) else tileSize (snd starts) b1 (snd src)) = r1 ->
  r0 <= b0 -> r1 <= b1 ->
  (forall i j, p0 <= i < p0 + r0 -> p1 <= j < p1 + r1 -> load source (if tr then [j; i] else [i; j]) = Some (v i j)) ->
  exists buff, copyToBuffer (b0, b1) source src starts tr = Some buff /\ holdsTile buff [] b0 b1 [] p0 p1 p0 r0 p1 r1 v.
Proof.
  intros E0 E1 R0 R1 L0 L1 H. unfold copyToBuffer. cbn [fst snd].
  replace (if tr then [tileSize (snd starts) b0 (snd src); tileSize (fst starts) b1 (fst src)] else [tileSize (fst starts) b0 (fst src); tileSize (snd starts) b1 (snd src)]) with [r0; r1] by (destruct tr; congruence).
  destruct (iterate_stores [r0; r1] (fun l => l) (fun l => load source (if tr then [nth 1 l 0 + fst starts; nth 0 l 0 + snd starts] else [nth 0 l 0 + fst starts; nth 1 l 0 + snd starts])) (alloc (T := T) [b0; b1])) as (m & E & S1 & R & _).
  - intros l V. apply two_inv in V as (i & j & -> & Hi & Hj). split; [apply valid_two; cbn [nth]; lia|]. exists (v (i + p0) (j + p1)). cbn [nth]. rewrite <- H by lia. destruct tr; subst p0 p1; do 2 f_equal; (f_equal; lia) || (f_equal; f_equal; lia) || idtac; reflexivity.
  - auto.
  - exists m. split; [exact E|]. split; [exact S1|]. split; [constructor|]. intros i j Hi Hj. split; [lia|]. split; [lia|]. cbn [app]. rewrite R by (apply valid_two; lia). cbn [nth]. rewrite <- H by lia.
    destruct tr; subst p0 p1; f_equal; f_equal; [lia|f_equal; lia|lia|f_equal; lia].
Qed.
Lemma copyFrom_ok b0 b1 (buff dest : mem T) dst starts r0 r1 rows cols :
  tileSize (fst starts) b0 (fst dst) = r0 -> tileSize (snd starts) b1 (snd dst) = r1 -> mShape dest = [rows; cols] ->
  0 <= fst starts -> 0 <= snd starts -> fst starts + r0 <= rows -> snd starts + r1 <= cols ->
  (forall i j, 0 <= i < r0 -> 0 <= j < r1 -> exists v, load buff [i; j] = Some v) ->
  exists dest', copyFromBuffer (b0, b1) buff dst starts dest = Some dest' /\ mShape dest' = [rows; cols] /\
    (forall i j, fst starts <= i < fst starts + r0 -> snd starts <= j < snd starts + r1 -> mAt dest' [i; j] = load buff [i - fst starts; j - snd starts]) /\
    (forall i j, ~ (fst starts <= i < fst starts + r0 /\ snd starts <= j < snd starts + r1) -> mAt dest' [i; j] = mAt dest [i; j]).
Proof.
  intros R0 R1 SD P0 P1 L0 L1 H. unfold copyFromBuffer. cbn [fst snd]. rewrite R0, R1.
  destruct (iterate_stores [r0; r1] (fun l => [nth 0 l 0 + fst starts; nth 1 l 0 + snd starts]) (fun l => load buff l) dest) as (m & E & S1 & R & N).
  - intros l V. apply two_inv in V as (i & j & -> & Hi & Hj). cbn [nth]. split; [rewrite SD; apply valid_two; lia|]. auto.
  - intros l l' V V'. apply two_inv in V as (i & j & -> & Hi & Hj). apply two_inv in V' as (i' & j' & -> & Hi' & Hj'). cbn [nth]. intros EQ. injection EQ as E1 E2. f_equal; [lia|f_equal; lia].
  - exists m. split; [exact E|]. split; [congruence|]. split.
    + intros i j Hi Hj. rewrite <- R by (apply valid_two; lia). cbn [nth]. f_equal. f_equal; [lia|f_equal; lia].
    + intros i j NI. apply N. intros l V. apply two_inv in V as (i' & j' & -> & Hi & Hj). cbn [nth]. intros EQ. injection EQ as <- <-. apply NI. lia.
Qed.

(** ** One cache tile *)
Section Tile.
Context (av bv : Z -> Z -> T) (archVL : Z) (simdize : bool) (dI dJ dK : dim).
Let I := dval dI. Let J := dval dJ. Let K := dval dK.
Hypothesis HS : simdize = true -> lit dJ = true -> dval dJ <> 1.

Section One.
Context (cb : list Z) (MI MJ : Z) (P : list Z -> Z -> Z -> Prop) (aBuff bBuff : mem T) (i1 j1 k1 c0 c1 : Z).
Hypothesis HP : forall b x y, P b x y -> valid cb b /\ 0 <= x < MI /\ 0 <= y < MJ.
Hypothesis HPin : forall b x y, P b x y -> b = [] /\ x + c0 < I /\ y + c1 < J.
Hypothesis OI : onTile i1 32 I.
Hypothesis OJ : onTile j1 64 J.
Hypothesis OK : onTile k1 256 K.
Hypothesis HA : holdsTile aBuff [] 32 256 [] i1 k1 i1 (ext i1 32 I) k1 (ext k1 256 K) av.
Hypothesis HB : holdsTile bBuff [] 256 64 [] k1 j1 k1 (ext k1 256 K) j1 (ext j1 64 J) bv.
Hypothesis HC : forall i j, i1 <= i < i1 + ext i1 32 I -> j1 <= j < j1 + ext j1 64 J -> P [] (i - c0) (j - c1).

Definition inBox (x y : Z) : bool := ((i1 <=? x) && (x <? i1 + ext i1 32 I)) && ((j1 <=? y) && (y <? j1 + ext j1 64 J)).
Lemma sub_tile i2 n t U : 1 <= t -> n mod t = 0 -> 1 <= n -> onTile i2 n U -> forall i, In i (forLoop i2 (Z.min (i2 + n) U) t) -> onTile i t U /\ i2 <= i /\ i + ext i t U <= i2 + ext i2 n U.
Proof.
  intros Ht Hm Hn (_ & Hi & Hz) i H. apply forLoop_In in H as (H1 & H2); auto. unfold onTile, ext.
  assert (D : (i - i2) mod t = 0 -> i mod t = 0).
  { intros _. pose proof (Z.div_mod (i - i2) t ltac:(lia)). pose proof (Z.div_mod n t ltac:(lia)). pose proof (Z.div_mod i2 n ltac:(lia)). rewrite H2, Hm, Hz in *.
    replace i with ((((i - i2) / t) + (n / t) * (i2 / n)) * t) by nia. apply Z.mod_mul. lia. }
  split; [repeat split; auto; lia|]. split; [lia|].
  pose proof (Z.div_mod (i - i2) t ltac:(lia)). pose proof (Z.div_mod n t ltac:(lia)). rewrite H2, Hm in *. assert ((i - i2) / t < n / t) by nia. assert (i + t <= i2 + n) by nia. lia.
Qed.
Lemma holds_part (M : mem T) r c m0 m1 i0 n0 j0 n1 v i j a b : holdsTile M [] r c [] m0 m1 i0 n0 j0 n1 v -> i0 <= i -> i + a <= i0 + n0 -> j0 <= j -> j + b <= j0 + n1 -> holdsTile M [] r c [] m0 m1 i a j b v.
Proof. intros (S1 & V & H) A1 A2 A3 A4. split; auto. split; auto. intros x y Hx Hy. apply H; lia. Qed.

Lemma cacheTile_acc : acc cb MI MJ P (cacheTile add mul zero archVL simdize aBuff bBuff dI dJ dK i1 j1 k1 c0 c1)
  (fun b x y v => if inBox (x + c0) (y + c1) then dot add mul av bv (x + c0) (y + c1) (zseq k1 (Z.to_nat (ext k1 256 K))) v else v).
Proof.
  unfold cacheTile, iCacheTile, jCacheTile, kCacheTile, iRegTile, jRegTile.
  eapply acc_ext; [apply acc_fold with (g := fun j2 b x y v => fold_left (fun v i2 => tileT add mul av bv [] c0 c1 i2 j2 k1 (ext i2 4 I) (ext j2 16 J) (ext k1 256 K) b x y v) (forLoop i1 (Z.min (i1 + 32) I) 4) v)|].
  - intros j2 Hj2. apply (sub_tile j1 64 16 J) in Hj2 as (TJ & LJ & UJ); auto; try lia.
    apply acc_fold with (g := fun i2 => tileT add mul av bv [] c0 c1 i2 j2 k1 (ext i2 4 I) (ext j2 16 J) (ext k1 256 K)).
    intros i2 Hi2. apply (sub_tile i1 32 4 I) in Hi2 as (TI & LI & UI); auto; try lia.
    apply krnlMatmul_acc with (asb := []) (bsb := []) (ar := 32) (ac := 256) (br := 256) (bc := 64); auto.
    + apply (holds_part aBuff _ _ _ _ _ _ _ _ _ _ _ _ _ HA); fold I K; lia.
    + apply (holds_part bBuff _ _ _ _ _ _ _ _ _ _ _ _ _ HB); fold J K; lia.
    + intros i j Hi Hj. fold I in Hi. fold J in Hj. apply HC; lia.
    + intros S1 L1 D1. exfalso. apply (HS S1 L1 D1).
  - intros b x y v p. destruct (HPin _ _ _ p) as (-> & Xc & Yc). unfold tileT, inBox. cbn [ieqb andb].
    transitivity (fold_left (fun v j2 => if (j2 <=? y + c1) && (y + c1 <? j2 + ext j2 16 J) then (if (i1 <=? x + c0) && (x + c0 <? i1 + ext i1 32 I) then dot add mul av bv (x + c0) (y + c1) (zseq k1 (Z.to_nat (ext k1 256 K))) v else v) else v) (forLoop j1 (Z.min (j1 + 64) J) 16) v).
    + apply fold_left_ext_in. intros w j2 _.
      rewrite (fold_left_ext_in _ (fun v i2 => if (i2 <=? x + c0) && (x + c0 <? i2 + ext i2 4 I) then (if (j2 <=? y + c1) && (y + c1 <? j2 + ext j2 16 J) then dot add mul av bv (x + c0) (y + c1) (zseq k1 (Z.to_nat (ext k1 256 K))) v else v) else v)).
      * rewrite blocks_from by (lia || reflexivity). destruct ((i1 <=? x + c0) && _), ((j2 <=? y + c1) && _); auto.
      * intros u i2 _. destruct ((i2 <=? x + c0) && _), ((j2 <=? y + c1) && _); auto.
    + rewrite blocks_from by (lia || reflexivity). destruct ((i1 <=? x + c0) && _), ((j1 <=? y + c1) && _); auto.
Qed.
End One.

(** ** All tiles *)
Context (op : gemmOp (T := T)) (A B : mem T).
Hypothesis HI : 0 <= I.
Hypothesis HJ : 0 <= J.
Hypothesis HK : 0 <= K.
Hypothesis TA : if transA op then dval (snd (aType op)) = I /\ dval (fst (aType op)) = K else dval (fst (aType op)) = I /\ dval (snd (aType op)) = K.
Hypothesis TB : if transB op then dval (snd (bType op)) = K /\ dval (fst (bType op)) = J else dval (fst (bType op)) = K /\ dval (snd (bType op)) = J.
Hypothesis LA : forall i k, 0 <= i < I -> 0 <= k < K -> load A (if transA op then [k; i] else [i; k]) = Some (av i k).
Hypothesis LB : forall k j, 0 <= k < K -> 0 <= j < J -> load B (if transB op then [j; k] else [k; j]) = Some (bv k j).

Lemma ext_bounds i t U : onTile i t U -> 1 <= ext i t U <= t /\ 0 <= i /\ i + ext i t U <= U.
Proof. unfold onTile, ext. lia. Qed.
Lemma copyA_ok i1 k1 : onTile i1 32 I -> onTile k1 256 K -> exists buff, copyA op A i1 k1 = Some buff /\ holdsTile buff [] 32 256 [] i1 k1 i1 (ext i1 32 I) k1 (ext k1 256 K) av.
Proof.
  intros OI OK. pose proof (ext_bounds _ _ _ OI). pose proof (ext_bounds _ _ _ OK). unfold copyA, iCacheTile, kCacheTile. destruct (transA op); destruct TA as (E1 & E2).
  - apply copyTo_ok; cbn [fst snd]; auto; try lia; [rewrite tileSize_ok; rewrite E1; auto|rewrite tileSize_ok; rewrite E2; auto|]. intros i k Hi Hk. apply LA; lia.
  - apply copyTo_ok; cbn [fst snd]; auto; try lia; [rewrite tileSize_ok; rewrite E1; auto|rewrite tileSize_ok; rewrite E2; auto|]. intros i k Hi Hk. apply LA; lia.
Qed.
Lemma copyB_ok k1 j1 : onTile k1 256 K -> onTile j1 64 J -> exists buff, copyB op B k1 j1 = Some buff /\ holdsTile buff [] 256 64 [] k1 j1 k1 (ext k1 256 K) j1 (ext j1 64 J) bv.
Proof.
  intros OK OJ. pose proof (ext_bounds _ _ _ OJ). pose proof (ext_bounds _ _ _ OK). unfold copyB, jCacheTile, kCacheTile. destruct (transB op); destruct TB as (E1 & E2).
  - apply copyTo_ok; cbn [fst snd]; auto; try lia; [rewrite tileSize_ok; rewrite E1; auto|rewrite tileSize_ok; rewrite E2; auto|]. intros k j Hi Hk. apply LB; lia.
  - apply copyTo_ok; cbn [fst snd]; auto; try lia; [rewrite tileSize_ok; rewrite E1; auto|rewrite tileSize_ok; rewrite E2; auto|]. intros k j Hi Hk. apply LB; lia.
Qed.

Definition inR (b : list Z) (x y : Z) : Prop := b = [] /\ 0 <= x < I /\ 0 <= y < J.
Lemma inR_ok b x y : inR b x y -> valid [] b /\ 0 <= x < I /\ 0 <= y < J.
Proof. intros (-> & H). split; [constructor|auto]. Qed.

Lemma direct_acc : mustTileR dJ = false -> acc [] I J inR (tiledProductR add mul zero archVL simdize op A B dI dJ dK) (fun b x y v => dot add mul av bv x y (zrange K) v).
Proof.
  intros MT. unfold tiledProductR. rewrite MT. unfold iCacheTile, jCacheTile, kCacheTile. fold I J K.
  pose (G := fun j1 k1 i1 (b : list Z) x y v => if inBox i1 j1 x y then dot add mul av bv x y (zseq k1 (Z.to_nat (ext k1 256 K))) v else v).
  eapply acc_ext; [apply acc_fold with (g := fun j1 b x y v => fold_left (fun v k1 => fold_left (fun v i1 => G j1 k1 i1 b x y v) (forLoop 0 I 32) v) (forLoop 0 K 256) v)|].
  - intros j1 Hj1. apply onTile_forLoop in Hj1; [|lia]. apply acc_fold with (g := fun k1 b x y v => fold_left (fun v i1 => G j1 k1 i1 b x y v) (forLoop 0 I 32) v).
    intros k1 Hk1. apply onTile_forLoop in Hk1; [|lia]. destruct (copyB_ok k1 j1 Hk1 Hj1) as (bBuff & EB & HB). eapply acc_eq; [|intros C; rewrite EB; cbn [obind]; reflexivity].
    apply acc_fold with (g := fun i1 => G j1 k1 i1). intros i1 Hi1. apply onTile_forLoop in Hi1; [|lia]. destruct (copyA_ok i1 k1 Hi1 Hk1) as (aBuff & EA & HA). eapply acc_eq; [|intros C; rewrite EA; cbn [obind]; reflexivity].
    eapply acc_ext; [apply cacheTile_acc; auto|].
    + apply inR_ok.
    + intros b x y (-> & H1 & H2). rewrite !Z.add_0_r. split; auto. lia.
    + intros i j Hi Hj. pose proof (ext_bounds _ _ _ Hi1). pose proof (ext_bounds _ _ _ Hj1). unfold inR. split; auto. lia.
    + intros b x y v _. unfold G. now rewrite !Z.add_0_r.
  - intros b x y v (-> & Hx & Hy).
    transitivity (fold_left (fun v j1 => if (j1 <=? y) && (y <? j1 + ext j1 64 J) then dot add mul av bv x y (zrange K) v else v) (forLoop 0 J 64) v).
    + apply fold_left_ext_in. intros w j1 _. rewrite (fold_left_ext_in _ (fun v k1 => if (j1 <=? y) && (y <? j1 + ext j1 64 J) then dot add mul av bv x y (zseq k1 (Z.to_nat (ext k1 256 K))) v else v)).
      * rewrite fold_if. now rewrite dot_blocks by lia.
      * intros u k1 _. rewrite (fold_left_ext_in _ (fun v i1 => if (i1 <=? x) && (x <? i1 + ext i1 32 I) then (if (j1 <=? y) && (y <? j1 + ext j1 64 J) then dot add mul av bv x y (zseq k1 (Z.to_nat (ext k1 256 K))) v else v) else v)).
        -- now rewrite blocks_pick by lia.
        -- intros t i1 _. unfold G, inBox. destruct ((i1 <=? x) && _), ((j1 <=? y) && _); auto.
    + now rewrite blocks_pick by lia.
Qed.

(** The tile of the result has 256 columns, of which 64 are computed. *)
Lemma tileR_size j1 : mustTileR dJ = true -> onTile j1 64 J -> tileSize j1 256 dJ = ext j1 256 J.
Proof.
  intros MT (_ & H & _). unfold tileSize, mustTileR, jRegTile in *. fold J in MT |- *. unfold ext. destruct (lit dJ); cbn [negb andb] in *; [|apply Z.min_comm].
  destruct (J <? 16); [discriminate|]. destruct (Z.eqb_spec (J mod 256) 0) as [E|E]; [|apply Z.min_comm]. exfalso. apply negb_true_iff, Z.eqb_neq in MT. apply MT.
  apply Z.mod_divide in E; [|lia]. apply Z.mod_divide; [lia|]. destruct E as (q & ->). exists (16 * q). lia.
Qed.
Lemma tiled_acc : mustTileR dJ = true -> acc [] I J inR (tiledProductR add mul zero archVL simdize op A B dI dJ dK) (fun b x y v => dot add mul av bv x y (zrange K) v).
Proof.
  intros MT. unfold tiledProductR. rewrite MT. unfold iCacheTile, jCacheTile, kCacheTile. fold I J K.
  pose (G := fun i1 j1 (b : list Z) x y v => if inBox i1 j1 x y then dot add mul av bv x y (zrange K) v else v).
  eapply acc_ext; [apply acc_fold with (g := fun i1 b x y v => fold_left (fun v j1 => G i1 j1 b x y v) (forLoop 0 J 64) v)|].
  - intros i1 Hi1. apply onTile_forLoop in Hi1; [|lia]. apply acc_fold with (g := fun j1 => G i1 j1).
    intros j1 Hj1. apply onTile_forLoop in Hj1; [|lia]. pose proof (ext_bounds _ _ _ Hi1) as BI. pose proof (ext_bounds _ _ _ Hj1) as BJ.
    assert (BR : ext j1 64 J <= ext j1 256 J <= 256 /\ j1 + ext j1 256 J <= J) by (unfold ext, onTile in *; lia).
    assert (T0 : tileSize i1 32 dI = ext i1 32 I) by (apply tileSize_ok; auto). assert (T1 := tileR_size j1 MT Hj1).
    intros R cv SR HR. cbn [app] in SR.
    destruct (copyTo_ok 32 256 R (dI, dJ) (i1, j1) false (fun i j => cv [] i j) i1 j1 (ext i1 32 I) (ext j1 256 J)) as (rBuff & ER & SB & _ & HB); auto; try lia.
    { intros i j Hi Hj. rewrite load_ok by (rewrite SR; apply valid_two; lia). apply (HR [] i j). unfold inR. split; auto. lia. }
    rewrite ER. cbn [obind].
    pose (Pr := fun (b : list Z) x y => b = [] /\ 0 <= x < ext i1 32 I /\ 0 <= y < ext j1 256 J).
    destruct (acc_fold [] 32 256 Pr (fun k1 rBuff => aBuff <- copyA op A i1 k1 ;; bBuff <- copyB op B k1 j1 ;; cacheTile add mul zero archVL simdize aBuff bBuff dI dJ dK i1 j1 k1 i1 j1 rBuff)
      (fun k1 b x y v => if inBox i1 j1 (x + i1) (y + j1) then dot add mul av bv (x + i1) (y + j1) (zseq k1 (Z.to_nat (ext k1 256 K))) v else v) (forLoop 0 K 256)) with (C := rBuff) (cv := fun (b : list Z) x y => cv [] (x + i1) (y + j1)) as (rBuff' & EL & SB' & RB).
    { intros k1 Hk1. apply onTile_forLoop in Hk1; [|lia]. destruct (copyA_ok i1 k1 Hi1 Hk1) as (aBuff & EA & HA). destruct (copyB_ok k1 j1 Hk1 Hj1) as (bBuff & EB & HB').
      eapply acc_eq; [|intros C; rewrite EA, EB; cbn [obind]; reflexivity]. apply cacheTile_acc; auto.
      - intros b x y (-> & H1 & H2). split; [constructor|]. lia.
      - intros b x y (-> & H1 & H2). split; auto. lia.
      - intros i j Hi Hj. unfold Pr. split; auto. lia. }
    { exact SB. }
    { intros b x y (-> & H1 & H2). destruct (HB (x + i1) (y + j1) ltac:(lia) ltac:(lia)) as (_ & _ & E). rewrite <- E. do 2 f_equal. cbn [app]. f_equal; [lia|f_equal; lia]. }
    rewrite EL. cbn [obind].
    assert (LR : forall x y, 0 <= x < ext i1 32 I -> 0 <= y < ext j1 256 J -> load rBuff' [x; y] = Some (G i1 j1 [] (x + i1) (y + j1) (cv [] (x + i1) (y + j1)))).
    { intros x y Hx Hy. rewrite load_ok by (rewrite SB'; apply valid_two; lia). change [x; y] with ([] ++ [x; y]). rewrite (RB [] x y) by (unfold Pr; auto). f_equal. unfold G. rewrite fold_if. destruct (inBox _ _ _ _); auto. now rewrite dot_blocks by lia. }
    destruct (copyFrom_ok 32 256 rBuff' R (dI, dJ) (i1, j1) (ext i1 32 I) (ext j1 256 J) I J) as (R' & EF & SF & W & NW); cbn [fst snd]; auto; try lia.
    { intros x y Hx Hy. rewrite LR by auto. eauto. }
    exists R'. split; [exact EF|]. split; [exact SF|]. cbn [fst snd] in *. intros b x y (-> & Hx & Hy). cbn [app].
    destruct (Z.le_gt_cases i1 x), (Z.lt_ge_cases x (i1 + ext i1 32 I)), (Z.le_gt_cases j1 y), (Z.lt_ge_cases y (j1 + ext j1 256 J)).
    1: { rewrite W by lia. rewrite LR by lia. now rewrite !Z.sub_add. }
    all: rewrite NW by lia; change [x; y] with ([] ++ [x; y]); rewrite (HR [] x y) by (unfold inR; auto); f_equal; unfold G, inBox; replace (((i1 <=? x) && (x <? i1 + ext i1 32 I)) && ((j1 <=? y) && (y <? j1 + ext j1 64 J))) with false; auto; symmetry; rewrite !andb_false_iff, !Z.leb_gt, !Z.ltb_ge; lia.
  - intros b x y v (-> & Hx & Hy).
    transitivity (fold_left (fun v i1 => if (i1 <=? x) && (x <? i1 + ext i1 32 I) then dot add mul av bv x y (zrange K) v else v) (forLoop 0 I 32) v).
    + apply fold_left_ext_in. intros w i1 _. rewrite (fold_left_ext_in _ (fun v j1 => if (j1 <=? y) && (y <? j1 + ext j1 64 J) then (if (i1 <=? x) && (x <? i1 + ext i1 32 I) then dot add mul av bv x y (zrange K) v else v) else v)).
      * now rewrite blocks_pick by lia.
      * intros u j1 _. unfold G, inBox. destruct ((i1 <=? x) && _), ((j1 <=? y) && _); auto.
    + now rewrite blocks_pick by lia.
Qed.
Lemma productR_acc : acc [] I J inR (tiledProductR add mul zero archVL simdize op A B dI dJ dK) (fun b x y v => dot add mul av bv x y (zrange K) v).
Proof. destruct (mustTileR dJ) eqn:E; [apply tiled_acc|apply direct_acc]; auto. Qed.
End Tile.

(** ** Bias and scaling *)
Definition inR_ (I J : Z) (b : list Z) (x y : Z) : Prop := b = [] /\ 0 <= x < I /\ 0 <= y < J.
Lemma inR__ok I J b x y : inR_ I J b x y -> valid [] b /\ 0 <= x < I /\ 0 <= y < J.
Proof. intros (-> & H). split; [constructor|auto]. Qed.
Lemma biasAt_ok (C : mem T) cs (cv : list Z -> T) I J i j : mShape C = cs -> is_broadcast cs [I; J] [I; J] -> (forall x, valid cs x -> mAt C x = Some (cv x)) ->
  0 <= i < I -> 0 <= j < J -> biasAt C [i; j] = Some (cv (bsel cs [i; j])).
Proof.
  intros SC (L & HB) HC Hi Hj. unfold biasAt. rewrite SC. cbn [length] in L.
  pose proof (HB 0%nat ltac:(cbn; lia)) as B0. pose proof (HB 1%nat ltac:(cbn; lia)) as B1. unfold dim_back in B0, B1. cbn [rev app nth] in B0, B1.
  assert (E : map (fun x => if 1 <? nth (x - (2 - length cs)) cs 1 then nth x [i; j] 0 else 0) (seq (2 - length cs) (length cs)) = bsel cs [i; j] /\ valid cs (bsel cs [i; j])).
  { destruct cs as [|d0 [|d1 [|d2 cs]]]; cbn [length] in *; [| | |lia]; unfold bsel; cbn [length Nat.sub skipn map2 seq map nth rev app] in *.
    - split; [reflexivity|constructor].
    - assert (D : d0 = J \/ d0 = 1) by lia. split.
      + f_equal. destruct (Z.ltb_spec 1 d0), (Z.eqb_spec d0 1); lia.
      + apply valid_cons. split; [destruct (Z.eqb_spec d0 1); lia|constructor].
    - assert (D0 : d0 = I \/ d0 = 1) by lia. assert (D1 : d1 = J \/ d1 = 1) by lia. split.
      + f_equal; [|f_equal]; [destruct (Z.ltb_spec 1 d0), (Z.eqb_spec d0 1)|destruct (Z.ltb_spec 1 d1), (Z.eqb_spec d1 1)]; lia.
      + apply valid_two. destruct (Z.eqb_spec d0 1), (Z.eqb_spec d1 1); lia. }
  destruct E as (E & V). rewrite E. rewrite load_ok by congruence. auto.
Qed.

Section Whole.
Hypothesis addC : forall x y, add x y = add y x.
Context (op : gemmOp (T := T)) (A B : mem T) (a b : list Z -> T) (I J K : Z) (cs : list Z) (cv : list Z -> T).
Definition opA (i k : Z) : T := a (if transA op then [k; i] else [i; k]).
Definition opB (k j : Z) : T := b (if transB op then [j; k] else [k; j]).
Definition gemmValue (i j : Z) : T :=
  let s := fold_left add (map2 mul (map (fun k => opA i k) (zrange K)) (map (fun k => opB k j) (zrange K))) zero in
  match bias op with None => mul (alpha op) s | Some _ => add (mul (alpha op) s) (mul (beta op) (cv (bsel cs [i; j]))) end.
Hypothesis HI : 0 <= I.
Hypothesis HJ : 0 <= J.
Hypothesis HK : 0 <= K.
Hypothesis TA : [dval (fst (aType op)); dval (snd (aType op))] = if transA op then [K; I] else [I; K].
Hypothesis TB : [dval (fst (bType op)); dval (snd (bType op))] = if transB op then [J; K] else [K; J].
Hypothesis SA : mShape A = if transA op then [K; I] else [I; K].
Hypothesis SB : mShape B = if transB op then [J; K] else [K; J].
Hypothesis DA : forall x, valid (mShape A) x -> mAt A x = Some (a x).
Hypothesis DB : forall x, valid (mShape B) x -> mAt B x = Some (b x).
Hypothesis HBias : forall C, bias op = Some C -> mShape C = cs /\ is_broadcast cs [I; J] [I; J] /\ forall x, valid cs x -> mAt C x = Some (cv x).

Lemma loadA i k : 0 <= i < I -> 0 <= k < K -> load A (if transA op then [k; i] else [i; k]) = Some (opA i k).
Proof. intros Hi Hk. assert (V : valid (mShape A) (if transA op then [k; i] else [i; k])) by (rewrite SA; destruct (transA op); apply valid_two; auto). rewrite load_ok by auto. now apply DA. Qed.
Lemma loadB k j : 0 <= k < K -> 0 <= j < J -> load B (if transB op then [j; k] else [k; j]) = Some (opB k j).
Proof. intros Hk Hj. assert (V : valid (mShape B) (if transB op then [j; k] else [k; j])) by (rewrite SB; destruct (transB op); apply valid_two; auto). rewrite load_ok by auto. now apply DB. Qed.

Lemma gemmDims_ok : exists dI dJ dK, gemmDims op = Some (dI, dJ, dK) /\ dval dI = I /\ dval dJ = J /\ dval dK = K.
Proof.
  unfold gemmDims. destruct (aType op) as (a0 & a1), (bType op) as (b0 & b1). cbn [fst snd] in *.
  assert (EA : dval (fst (if transA op then (a1, a0) else (a0, a1))) = I /\ dval (snd (if transA op then (a1, a0) else (a0, a1))) = K) by (destruct (transA op); injection TA as E1 E2; cbn [fst snd]; auto).
  assert (EB : dval (fst (if transB op then (b1, b0) else (b0, b1))) = K /\ dval (snd (if transB op then (b1, b0) else (b0, b1))) = J) by (destruct (transB op); injection TB as E1 E2; cbn [fst snd]; auto).
  destruct EA as (E1 & E2), EB as (E3 & E4). rewrite E2, E3, Z.eqb_refl. cbn [negb]. rewrite andb_false_r.
  do 3 eexists. split; [reflexivity|]. split; auto. split; auto. destruct (lit (snd _)); auto. destruct (lit (fst _)); auto.
Qed.

Definition dotV (i j : Z) : T := fold_left add (map2 mul (map (fun k => opA i k) (zrange K)) (map (fun k => opB k j) (zrange K))) zero.
Lemma generic_gemm dI dJ dK : dval dI = I -> dval dJ = J -> dval dK = K -> exists out, genericGemm add mul zero op A B dI dJ dK = Some out /\ mShape out = [I; J] /\ forall i j, 0 <= i < I -> 0 <= j < J -> mAt out [i; j] = Some (gemmValue i j).
Proof.
  intros EI EJ EK. unfold genericGemm. rewrite EI, EJ, EK.
  pose (f := fun outer : list Z => red <- foldM (fun k rVal => aVal <- load A (if transA op then [k; nth 0 outer 0] else [nth 0 outer 0; k]) ;; bVal <- load B (if transB op then [nth 1 outer 0; k] else [k; nth 1 outer 0]) ;; Some (add (mul aVal bVal) rVal)) (zrange K) zero ;;
    match bias op with None => Some (mul (alpha op) red) | Some C => c <- biasAt C outer ;; Some (add (mul (alpha op) red) (mul (beta op) c)) end).
  assert (F : forall i j, 0 <= i < I -> 0 <= j < J -> f [i; j] = Some (gemmValue i j)).
  { intros i j Hi Hj. unfold f. cbn [nth]. rewrite (foldM_fold _ (fun t k => add (mul (opA i k) (opB k j)) t)).
    - cbn [obind]. replace (fold_left _ (zrange K) zero) with (dotV i j).
      + unfold gemmValue. fold (dotV i j). destruct (bias op) as [C|] eqn:EB; auto. destruct (HBias C eq_refl) as (SC & BC & HC). rewrite (biasAt_ok C cs cv I J) by auto. reflexivity.
      + unfold dotV. rewrite map2_map, fold_left_map. apply fold_left_ext_in. intros; apply addC.
    - intros k t Hk. apply zrange_In in Hk. rewrite loadA, loadB by auto. reflexivity. }
  destruct (iterate_fill [I; J] f (alloc [I; J])) as (out & E & S1 & R).
  - reflexivity.
  - intros l V. apply two_inv in V as (i & j & -> & Hi & Hj). rewrite F by auto. eauto.
  - exists out. split; [|split; [exact S1|]].
    + rewrite <- E. unfold iterate. apply foldM_ext. intros l m _. unfold f. destruct (foldM _ _ _); cbn [obind]; auto.
    + intros i j Hi Hj. rewrite R by (apply valid_two; auto). auto.
Qed.

Hypothesis A1 : alphaIsOne op = true -> forall x, mul (alpha op) x = x.
Hypothesis B1 : betaIsOne op = true -> forall x, mul (beta op) x = x.
Hypothesis B0 : alphaIsOne op = true -> betaIsZero op = true -> hasBias op = true -> forall x y, valid cs y -> add x (mul (beta op) (cv y)) = x.
Definition finish (i j : Z) (v : T) : T :=
  match bias op with None => mul (alpha op) v | Some _ => add (mul (alpha op) v) (mul (beta op) (cv (bsel cs [i; j]))) end.
Lemma bsel_valid i j C : bias op = Some C -> 0 <= i < I -> 0 <= j < J -> valid cs (bsel cs [i; j]).
Proof.
  intros EB Hi Hj. destruct (HBias C EB) as (SC & BC & HC). pose proof (biasAt_ok C cs cv I J i j SC BC HC Hi Hj) as E. unfold biasAt in E. apply load_inv in E as (V & _). rewrite SC in V.
  destruct BC as (L & HB). cbn [length] in L. pose proof (HB 0%nat ltac:(cbn; lia)) as D0. pose proof (HB 1%nat ltac:(cbn; lia)) as D1. unfold dim_back in D0, D1. cbn [rev app nth] in D0, D1.
  clear V. destruct cs as [|d0 [|d1 [|d2 ?]]]; cbn [length] in *; [| | |lia]; unfold bsel; cbn [length Nat.sub skipn map2 rev app nth] in *.
  - constructor.
  - apply valid_cons. split; [destruct (Z.eqb_spec d0 1); lia|constructor].
  - apply valid_two. destruct (Z.eqb_spec d0 1), (Z.eqb_spec d1 1); lia.
Qed.
Lemma alphaBeta_ok dI dJ (R : mem T) (v : Z -> Z -> T) : dval dI = I -> dval dJ = J -> mShape R = [I; J] -> (forall i j, 0 <= i < I -> 0 <= j < J -> mAt R [i; j] = Some (v i j)) ->
  exists out, alphaBeta add mul op dI dJ R = Some out /\ mShape out = [I; J] /\ forall i j, 0 <= i < I -> 0 <= j < J -> mAt out [i; j] = Some (finish i j (v i j)).
Proof.
  intros EI EJ SR HR. unfold alphaBeta. rewrite EI, EJ. destruct (alphaIsOne op && (betaIsZero op || negb (hasBias op))) eqn:SK.
  - apply andb_prop in SK as (SK1 & SK2). exists R. split; auto. split; auto. intros i j Hi Hj. rewrite HR by auto. f_equal. unfold finish. pose proof (fun C E => bsel_valid i j C E Hi Hj) as BV. destruct (bias op) as [C|] eqn:EB.
    + assert (HH : hasBias op = true) by (unfold hasBias; now rewrite EB). rewrite HH in SK2. cbn [negb] in SK2. rewrite orb_false_r in SK2. rewrite B0, A1 by (auto; exact (BV C eq_refl)). reflexivity.
    + now rewrite A1.
  - destruct (acc_fold [] I J (inR_ I J) (fun outer R => res <- load R outer ;; w <- (match bias op with None => Some (if alphaIsOne op then res else mul (alpha op) res) | Some C => c <- biasAt C outer ;; Some (add (if alphaIsOne op then res else mul (alpha op) res) (if betaIsOne op then c else mul (beta op) c)) end) ;; store R outer w)
      (fun outer b x y w => if here [] (nth 0 outer 0) (nth 1 outer 0) b x y then finish x y w else w) (indices [I; J])) with (C := R) (cv := fun (_ : list Z) x y => v x y) as (out & E & S1 & RR).
    + intros outer Ho. apply indices_In in Ho. apply two_inv in Ho as (i & j & -> & Hi & Hj). cbn [nth].
      eapply acc_ext; [apply (acc_cell [] I J (inR_ I J) (inR__ok I J) [] i j (fun res => match bias op with None => Some (if alphaIsOne op then res else mul (alpha op) res) | Some C => c <- biasAt C [i; j] ;; Some (add (if alphaIsOne op then res else mul (alpha op) res) (if betaIsOne op then c else mul (beta op) c)) end) (finish i j))|].
      * unfold inR_. auto.
      * intros w. unfold finish. destruct (bias op) as [C|] eqn:EB.
        -- destruct (HBias C eq_refl) as (SC & BC & HC). rewrite (biasAt_ok C cs cv I J) by auto. cbn [obind]. do 2 f_equal; [destruct (alphaIsOne op); auto; now rewrite A1|destruct (betaIsOne op); auto; now rewrite B1].
        -- f_equal. destruct (alphaIsOne op); auto. now rewrite A1.
      * intros b' x y w _. cbn beta. destruct (here [] i j b' x y) eqn:HH; auto. apply here_true in HH as (_ & -> & ->). reflexivity.
    + exact SR.
    + intros b' x y (-> & Hx & Hy). apply HR; auto.
    + exists out. split; [|split; [exact S1|]].
      * rewrite <- E. unfold iterate. apply foldM_ext. intros l m _. destruct (load m l); cbn [obind]; auto.
      * intros i j Hi Hj. change [i; j] with ([] ++ [i; j]). rewrite (RR [] i j) by (unfold inR_; auto). f_equal.
        rewrite (fold_left_ext_in _ (fun w outer => if ieqb outer [i; j] then finish i j w else w)).
        -- rewrite (fold_pick_list (fun _ w => finish i j w)) by apply NoDup_indices. destruct (in_dec _ [i; j] (indices [I; J])) as [|NI]; auto. exfalso. apply NI. apply indices_In, valid_two. auto.
        -- intros w outer Ho. apply indices_In in Ho. apply two_inv in Ho as (x & y & -> & Hx & Hy). cbn [nth]. replace (here [] x y [] i j) with (ieqb [x; y] [i; j]); auto.
           apply eq_true_iff_eq. rewrite here_true, ieqb_eq. split; [intros EQ; injection EQ as -> ->; auto|intros (_ & -> & ->); auto].
Qed.

Lemma lowerGemm_ok archVL enableTiling enableSIMD : exists out, lowerGemm add mul zero archVL enableTiling enableSIMD op A B = Some out /\ mShape out = [I; J] /\ forall i j, 0 <= i < I -> 0 <= j < J -> mAt out [i; j] = Some (gemmValue i j).
Proof.
  unfold lowerGemm. destruct gemmDims_ok as (dI & dJ & dK & ED & EI & EJ & EK). rewrite ED. cbn [obind]. destruct enableTiling; [|now apply generic_gemm].
  destruct (productR_acc opA opB archVL (gemmSimd enableSIMD dJ) dI dJ dK) with (op := op) (A := A) (B := B) (C := memset [dval dI; dval dJ] zero) (cv := fun (_ : list Z) (_ _ : Z) => zero) as (R & E & S1 & RR); try lia; try reflexivity.
  - intros HS HL. unfold gemmSimd, jRegTile in HS. rewrite HL in HS. cbn [andb] in HS. destruct (Z.ltb_spec (dval dJ) 16); [discriminate|lia].
  - rewrite EI, EK. destruct (transA op); injection TA as E1 E2; auto.
  - rewrite EJ, EK. destruct (transB op); injection TB as E1 E2; auto.
  - intros i k Hi Hk. apply loadA; lia.
  - intros k j Hk Hj. apply loadB; lia.
  - rewrite E. cbn [obind]. cbn [app] in S1. rewrite EI, EJ in *.
    destruct (alphaBeta_ok dI dJ R (fun i j => dotV i j) EI EJ S1) as (out & E2 & S2 & R2).
    + intros i j Hi Hj. change [i; j] with ([] ++ [i; j]). rewrite (RR [] i j) by (unfold inR; rewrite EI, EJ; auto). f_equal. rewrite dot_fold by auto. rewrite EK. reflexivity.
    + exists out. split; auto.
Qed.
End Whole.
End Gemm.
