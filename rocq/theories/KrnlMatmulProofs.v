(** Proofs about the krnl.matmul tile computation. *)
From Coq Require Import List ZArith Lia Bool Arith.
From Verif Require Import Util TensorSpec TensorLemmas BroadcastModel LoopModel LoopProofs GatherLoopModel GatherLoopProofs ConvProofs ReduceLoopModel ReduceLoopProofs SimdReduceModel SimdReduceProofs SimdShuffleProofs KrnlMatmulModel.
Import ListNotations.
Open Scope Z_scope.

(** ** Bodies that transform the cells of a matrix *)
Section Acc.
Context {T : Type} (cb : list Z) (MI MJ : Z) (P : list Z -> Z -> Z -> Prop).
Hypothesis HP : forall b x y, P b x y -> valid cb b /\ 0 <= x < MI /\ 0 <= y < MJ.

(** [f] turns the value [v] of each cell in [P] into [g b x y v]. *)
Definition acc (f : mem T -> option (mem T)) (g : list Z -> Z -> Z -> T -> T) : Prop :=
  forall C cv, mShape C = cb ++ [MI; MJ] -> (forall b x y, P b x y -> mAt C (b ++ [x; y]) = Some (cv b x y)) ->
  exists C', f C = Some C' /\ mShape C' = cb ++ [MI; MJ] /\ forall b x y, P b x y -> mAt C' (b ++ [x; y]) = Some (g b x y (cv b x y)).

Lemma acc_fold {X} (f : X -> mem T -> option (mem T)) g l : (forall a, In a l -> acc (f a) (g a)) -> acc (foldM f l) (fun b x y v => fold_left (fun v a => g a b x y v) l v).
Proof.
  induction l as [|a l IH]; intros H C cv SC HC; cbn [foldM fold_left].
  - exists C. auto.
  - destruct (H a (or_introl eq_refl) C cv SC HC) as (C1 & E1 & S1 & R1). rewrite E1. cbn [obind].
    apply (IH (fun a' I => H a' (or_intror I)) C1 (fun b x y => g a b x y (cv b x y)) S1 R1).
Qed.
Lemma acc_ext f g g' : acc f g -> (forall b x y v, P b x y -> g b x y v = g' b x y v) -> acc f g'.
Proof. intros H E C cv SC HC. destruct (H C cv SC HC) as (C' & E1 & S1 & R1). exists C'. split; auto. split; auto. intros b x y p. rewrite <- E by auto. auto. Qed.
Lemma acc_eq f f' g : acc f g -> (forall C, f' C = f C) -> acc f' g.
Proof. intros H E C cv SC HC. rewrite E. auto. Qed.

Lemma cell_valid b x y : P b x y -> valid (cb ++ [MI; MJ]) (b ++ [x; y]).
Proof.
  intros p. apply HP in p as (V & X & Y). apply valid_app; [now apply valid_length|]. split; auto. repeat (apply valid_cons; split; [lia|]). constructor.
Qed.
Lemma cell_inj b x y b' x' y' : P b x y -> P b' x' y' -> b ++ [x; y] = b' ++ [x'; y'] -> b = b' /\ x = x' /\ y = y'.
Proof.
  intros p p' E. apply HP in p as (V & _). apply HP in p' as (V' & _). apply valid_length in V. apply valid_length in V'.
  assert (L : length b = length b') by congruence. assert (E1 := f_equal (firstn (length b)) E). assert (E2 := f_equal (skipn (length b)) E).
  rewrite firstn_exact, firstn_exact in E1 by auto. rewrite skipn_exact, skipn_exact in E2 by auto. injection E2 as -> ->. auto.
Qed.

Definition here (pre : list Z) (x0 y0 : Z) (b : list Z) (x y : Z) : bool := ieqb pre b && (x =? x0) && (y =? y0).
Lemma here_true pre x0 y0 b x y : here pre x0 y0 b x y = true <-> pre = b /\ x = x0 /\ y = y0.
Proof. unfold here. rewrite !andb_true_iff, ieqb_eq, !Z.eqb_eq. tauto. Qed.

Lemma acc_cell pre x0 y0 (h : T -> option T) hv : P pre x0 y0 -> (forall v, h v = Some (hv v)) ->
  acc (fun C => v <- load C (pre ++ [x0; y0]) ;; w <- h v ;; store C (pre ++ [x0; y0]) w)
      (fun b x y v => if here pre x0 y0 b x y then hv v else v).
Proof.
  intros p Hh C cv SC HC. rewrite load_ok by (rewrite SC; now apply cell_valid). rewrite HC by auto. cbn [obind]. rewrite Hh. cbn [obind].
  rewrite store_ok by (rewrite SC; now apply cell_valid). eexists. split; [reflexivity|]. cbn [mShape mAt]. split; auto. intros b x y q.
  destruct (here pre x0 y0 b x y) eqn:E.
  - apply here_true in E as (-> & -> & ->). now rewrite ieqb_refl.
  - rewrite ieqb_neq; auto. intros EQ. apply cell_inj in EQ; auto. destruct EQ as (-> & -> & ->).
    assert (here b x y b x y = true) by (apply here_true; auto). congruence.
Qed.

(** VL consecutive cells. *)
Section Lanes.
Context (pre : list Z) (x0 y0 VL : Z) (cx cy : Z -> Z).
Hypothesis HV : 0 <= VL.
Hypothesis HL : forall l, 0 <= l < VL -> P pre (cx l) (cy l) /\ rm (cb ++ [MI; MJ]) (pre ++ [x0; y0]) + l = rm (cb ++ [MI; MJ]) (pre ++ [cx l; cy l]).

Lemma lane_unrm l : 0 <= l < VL -> unrm (cb ++ [MI; MJ]) (rm (cb ++ [MI; MJ]) (pre ++ [x0; y0]) + l) = pre ++ [cx l; cy l].
Proof. intros R. destruct (HL l R) as (p & E). rewrite E. apply cell_valid in p. apply unrm_rm; auto. now apply valid_okshape in p. Qed.
Lemma lane_bound l : 0 <= l < VL -> 0 <= rm (cb ++ [MI; MJ]) (pre ++ [x0; y0]) + l < size (cb ++ [MI; MJ]).
Proof. intros R. destruct (HL l R) as (p & E). rewrite E. apply rm_bound. now apply cell_valid. Qed.
Lemma vload_cells (C : mem T) cv : mShape C = cb ++ [MI; MJ] -> (forall b x y, P b x y -> mAt C (b ++ [x; y]) = Some (cv b x y)) ->
  vloadAt C (pre ++ [x0; y0]) VL = Some (map (fun l => cv pre (cx l) (cy l)) (zrange VL)).
Proof.
  intros SC HC. unfold vloadAt. apply omap_ok. intros l R. apply zrange_In in R. rewrite SC. pose proof (lane_bound l R).
  rewrite load_ok. 2:{ cbn [mShape reinterpret]. apply valid_cons. split; [lia|constructor]. }
  unfold reinterpret. cbn [mAt]. cbn [rm size prodZ]. rewrite SC, size_nil, Z.mul_1_r, Z.add_0_r. rewrite lane_unrm by auto. apply HC. apply HL; auto.
Qed.
Lemma vstore_cells (C : mem T) cv (h : Z -> T) : mShape C = cb ++ [MI; MJ] -> (forall b x y, P b x y -> mAt C (b ++ [x; y]) = Some (cv b x y)) ->
  exists C', vstoreAt C (pre ++ [x0; y0]) (map h (zrange VL)) = Some C' /\ mShape C' = cb ++ [MI; MJ] /\
    (forall l, 0 <= l < VL -> mAt C' (pre ++ [cx l; cy l]) = Some (h l)) /\
    (forall b x y, P b x y -> (forall l, 0 <= l < VL -> here pre (cx l) (cy l) b x y = false) -> mAt C' (b ++ [x; y]) = Some (cv b x y)).
Proof.
  intros SC HC. unfold vstoreAt. rewrite map_length, zrange_length, Z2Nat.id by auto. rewrite combine_id, foldM_map. cbn [fst snd].
  destruct (stores_gen (fun l => pre ++ [cx l; cy l]) h (zrange VL) C) as (C' & E & S1 & U & W).
  - intros l R. apply zrange_In in R. rewrite SC. apply cell_valid. apply HL; auto.
  - exists C'. split; [|split; [congruence|split]].
    + rewrite <- E. assert (G : forall l, (forall k, In k l -> 0 <= k < VL) -> forall m, mShape m = cb ++ [MI; MJ] ->
        foldM (fun k m => storeFlat m (rm (mShape m) (pre ++ [x0; y0]) + k) (h k)) l m = foldM (fun k m => store m (pre ++ [cx k; cy k]) (h k)) l m).
      { induction l as [|k l IH]; intros HK m SM; cbn [foldM]; auto. pose proof (HK k (or_introl eq_refl)) as R. unfold storeFlat at 1. rewrite SM. pose proof (lane_bound k R).
        replace (0 <=? _) with true by (symmetry; apply Z.leb_le; lia). replace (_ <? _) with true by (symmetry; apply Z.ltb_lt; lia). cbn [andb]. rewrite lane_unrm by auto.
        rewrite store_ok by (rewrite SM; apply cell_valid; apply HL; auto). cbn [obind]. apply IH; [intros; apply HK; now right|]. cbn [mShape]. auto. }
      apply G; auto. intros k. apply zrange_In.
    + intros l R. apply (W l); [now apply zrange_In|]. intros q Hq EQ. apply zrange_In in Hq. destruct (HL q Hq) as (pq & Eq), (HL l R) as (pl & El). rewrite EQ in Eq. f_equal. lia.
    + intros b x y p N. rewrite U; [apply HC; auto|]. intros l Hl EQ. apply zrange_In in Hl. destruct (HL l Hl) as (pl & _). apply cell_inj in EQ; auto. destruct EQ as (E1 & E2 & E3).
      specialize (N l Hl). assert (here pre (cx l) (cy l) b x y = true) by (apply here_true; auto). congruence.
Qed.
(** Load, compute and store a vector. [region]: the cells of the vector. *)
Lemma acc_lanes (region : list Z -> Z -> Z -> bool) (f : list T -> option (list T)) (hv : list Z -> Z -> Z -> T -> T) :
  (forall l, 0 <= l < VL -> region pre (cx l) (cy l) = true) ->
  (forall b x y, P b x y -> region b x y = true -> exists l, 0 <= l < VL /\ here pre (cx l) (cy l) b x y = true) ->
  (forall w : Z -> T, f (map w (zrange VL)) = Some (map (fun l => hv pre (cx l) (cy l) (w l)) (zrange VL))) ->
  acc (fun C => v <- vloadAt C (pre ++ [x0; y0]) VL ;; w <- f v ;; vstoreAt C (pre ++ [x0; y0]) w)
      (fun b x y v => if region b x y then hv b x y v else v).
Proof.
  intros R1 R2 Hf C cv SC HC. rewrite (vload_cells C cv SC HC). cbn [obind]. rewrite Hf. cbn [obind].
  destruct (vstore_cells C cv (fun l => hv pre (cx l) (cy l) (cv pre (cx l) (cy l))) SC HC) as (C' & E & S1 & W & U).
  exists C'. split; auto. split; auto. intros b x y p. destruct (region b x y) eqn:ER.
  - destruct (R2 b x y p ER) as (l & Hl & HH). apply here_true in HH as (<- & -> & ->). now apply W.
  - apply U; auto. intros l Hl. destruct (here pre (cx l) (cy l) b x y) eqn:EH; auto. apply here_true in EH as (<- & -> & ->). rewrite R1 in ER by auto. discriminate.
Qed.
End Lanes.
End Acc.

(** ** Picking one iteration of a loop *)
Lemma fold_left_ext_in {A B} (f g : A -> B -> A) l : (forall v x, In x l -> f v x = g v x) -> forall v, fold_left f l v = fold_left g l v.
Proof. induction l as [|x l IH]; intros H v; cbn [fold_left]; auto. rewrite H by (now left). apply IH. intros; apply H; now right. Qed.
Lemma fold_pick {T} (h : T -> T) x : forall n a v, fold_left (fun v i => if i =? x then h v else v) (zseq a n) v = if (a <=? x) && (x <? a + Z.of_nat n) then h v else v.
Proof.
  induction n as [|n IH]; intros a v; cbn [zseq fold_left].
  - destruct (Z.leb_spec a x), (Z.ltb_spec x (a + Z.of_nat 0)); cbn [andb]; auto; lia.
  - rewrite IH. destruct (Z.eqb_spec a x), (Z.leb_spec (a + 1) x), (Z.ltb_spec x (a + 1 + Z.of_nat n)), (Z.leb_spec a x), (Z.ltb_spec x (a + Z.of_nat (S n))); cbn [andb]; auto; lia.
Qed.
Lemma fold_pick_range {T} (h : T -> T) x n v : fold_left (fun v i => if x =? i then h v else v) (zrange n) v = if (0 <=? x) && (x <? n) then h v else v.
Proof.
  unfold zrange. rewrite (fold_left_ext_in _ (fun v i => if i =? x then h v else v)) by (intros; now rewrite Z.eqb_sym). rewrite fold_pick.
  destruct (Z.leb_spec 0 x), (Z.ltb_spec x (0 + Z.of_nat (Z.to_nat n))), (Z.ltb_spec x n); cbn [andb]; auto; lia.
Qed.

Lemma fold_same {A B} (l : list B) (v : A) : fold_left (fun v _ => v) l v = v.
Proof. induction l; cbn [fold_left]; auto. Qed.
Lemma fold_left_map {A B C} (f : A -> B -> A) (g : C -> B) l : forall v, fold_left f (map g l) v = fold_left (fun v x => f v (g x)) l v.
Proof. induction l as [|x l IH]; intros v; cbn [map fold_left]; auto. Qed.

Section Tile.
Context {T : Type} (add mul : T -> T -> T) (zero : T).
Context (av bv : Z -> Z -> T).

(** A memref that holds the elements [v i j] of a tile; its own element [0, 0] is the
    element [m0, m1] of the whole matrix. *)
Definition holdsTile (M : mem T) (sb : list Z) (r c : Z) (pre : list Z) (m0 m1 i0 In j0 Jn : Z) (v : Z -> Z -> T) : Prop :=
  mShape M = sb ++ [r; c] /\ valid sb pre /\
  forall i j, i0 <= i < i0 + In -> j0 <= j < j0 + Jn -> 0 <= i - m0 < r /\ 0 <= j - m1 < c /\ mAt M (pre ++ [i - m0; j - m1]) = Some (v i j).

Lemma tile_load M sb r c pre m0 m1 i0 In j0 Jn v i j : holdsTile M sb r c pre m0 m1 i0 In j0 Jn v -> 0 <= i < In -> 0 <= j < Jn ->
  load M (access (pre, (i0 - m0, j0 - m1)) i j) = Some (v (i0 + i) (j0 + j)).
Proof.
  intros (SM & V & H) Hi Hj. unfold access. cbn [fst snd]. destruct (H (i0 + i) (j0 + j) ltac:(lia) ltac:(lia)) as (A1 & A2 & A3).
  replace (i0 - m0 + i) with (i0 + i - m0) by lia. replace (j0 - m1 + j) with (j0 + j - m1) by lia. rewrite load_ok; auto. rewrite SM. apply valid_app; [now apply valid_length|]. split; auto.
  repeat (apply valid_cons; split; [lia|]). constructor.
Qed.
Lemma rm_two sb pre r c x y : length sb = length pre -> rm (sb ++ [r; c]) (pre ++ [x; y]) = rm sb pre * (r * c) + x * c + y.
Proof. intros L. rewrite rm_app by auto. rewrite !size_cons, size_nil. cbn [rm]. rewrite ?size_cons, ?size_nil. lia. Qed.
Definition inTile (pre : list Z) m0 m1 i0 In j0 Jn (b : list Z) (x y : Z) : Prop := b = pre /\ i0 <= x + m0 < i0 + In /\ j0 <= y + m1 < j0 + Jn.
Lemma tile_P M sb r c pre m0 m1 i0 In j0 Jn v : holdsTile M sb r c pre m0 m1 i0 In j0 Jn v ->
  forall b x y, inTile pre m0 m1 i0 In j0 Jn b x y -> valid sb b /\ 0 <= x < r /\ 0 <= y < c.
Proof. intros (SM & V & H) b x y (-> & X & Y). split; auto. destruct (H (x + m0) (y + m1) X Y) as (A1 & A2 & _). lia. Qed.
Lemma tile_cells M sb r c pre m0 m1 i0 In j0 Jn v : holdsTile M sb r c pre m0 m1 i0 In j0 Jn v ->
  forall b x y, inTile pre m0 m1 i0 In j0 Jn b x y -> mAt M (b ++ [x; y]) = Some (v (x + m0) (y + m1)).
Proof. intros (SM & V & H) b x y (-> & X & Y). destruct (H (x + m0) (y + m1) X Y) as (A1 & A2 & A3). rewrite <- A3. do 3 f_equal; [lia|f_equal; lia]. Qed.
Lemma tile_vload M sb r c pre m0 m1 i0 In j0 Jn v i j VL : holdsTile M sb r c pre m0 m1 i0 In j0 Jn v -> 0 <= i < In -> 0 <= j -> 0 <= VL -> j + VL <= Jn ->
  vloadAt M (access (pre, (i0 - m0, j0 - m1)) i j) VL = Some (map (fun l => v (i0 + i) (j0 + j + l)) (zrange VL)).
Proof.
  intros HT Hi Hj HV HJ. pose proof HT as (SM & V & H). unfold access. cbn [fst snd].
  rewrite (vload_cells sb r c (inTile pre m0 m1 i0 In j0 Jn) (tile_P _ _ _ _ _ _ _ _ _ _ _ _ HT) pre (i0 - m0 + i) (j0 - m1 + j) VL (fun _ => i0 - m0 + i) (fun l => j0 - m1 + j + l)) with (cv := fun _ x y => v (x + m0) (y + m1)); auto.
  - f_equal. apply map_ext. intros l. f_equal; lia.
  - intros l Hl. split; [unfold inTile; repeat split; lia|]. rewrite !rm_two by (now apply valid_length). lia.
  - exact (tile_cells _ _ _ _ _ _ _ _ _ _ _ _ HT).
Qed.
Lemma tile_vload_col M sb r pre m0 i0 In j0 v i VL : holdsTile M sb r 1 pre m0 j0 i0 In j0 1 v -> 0 <= i -> 0 <= VL -> i + VL <= In ->
  vloadAt M (access (pre, (i0 - m0, j0 - j0)) i 0) VL = Some (map (fun l => v (i0 + i + l) j0) (zrange VL)).
Proof.
  intros HT Hi HV HJ. pose proof HT as (SM & V & H). unfold access. cbn [fst snd].
  rewrite (vload_cells sb r 1 (inTile pre m0 j0 i0 In j0 1) (tile_P _ _ _ _ _ _ _ _ _ _ _ _ HT) pre (i0 - m0 + i) (j0 - j0 + 0) VL (fun l => i0 - m0 + i + l) (fun l => 0)) with (cv := fun _ x y => v (x + m0) (y + j0)); auto.
  - f_equal. apply map_ext. intros l. f_equal; lia.
  - intros l Hl. split; [unfold inTile; repeat split; lia|]. rewrite !rm_two by (now apply valid_length). lia.
  - exact (tile_cells _ _ _ _ _ _ _ _ _ _ _ _ HT).
Qed.

Definition dot (i j : Z) (ks : list Z) (v : T) : T := fold_left (fun t k => add (mul (av i k) (bv k j)) t) ks v.
(** What a tile does to the cell [x, y] of the memref that holds C from [c0, c1] on. *)
Definition tileT (pre : list Z) (c0 c1 i0 j0 k0 In Jn Kn : Z) (b : list Z) (x y : Z) (v : T) : T :=
  if ieqb pre b && ((i0 <=? x + c0) && (x + c0 <? i0 + In)) && ((j0 <=? y + c1) && (y + c1 <? j0 + Jn)) then dot (x + c0) (y + c1) (zseq k0 (Z.to_nat Kn)) v else v.

Section One.
Context (cb : list Z) (MI MJ : Z) (P : list Z -> Z -> Z -> Prop).
Hypothesis HP : forall b x y, P b x y -> valid cb b /\ 0 <= x < MI /\ 0 <= y < MJ.
Context (A B : mem T) (asb bsb : list Z) (ar ac br bc : Z) (aPre bPre cPre : list Z) (a0 a1 b0 b1 c0 c1 i0 j0 k0 In Jn Kn : Z).
Hypothesis HA : holdsTile A asb ar ac aPre a0 a1 i0 In k0 Kn av.
Hypothesis HB : holdsTile B bsb br bc bPre b0 b1 k0 Kn j0 Jn bv.
Hypothesis HC : forall i j, i0 <= i < i0 + In -> j0 <= j < j0 + Jn -> P cPre (i - c0) (j - c1).
Let aStart := (aPre, (i0 - a0, k0 - a1)).
Let bStart := (bPre, (k0 - b0, j0 - b1)).
Let cStart := (cPre, (i0 - c0, j0 - c1)).

Lemma kloop i j v : 0 <= i < In -> 0 <= j < Jn ->
  foldM (fun k tmpC => a <- load A (access aStart i k) ;; b <- load B (access bStart k j) ;; Some (add (mul a b) tmpC)) (zrange Kn) v = Some (dot (i0 + i) (j0 + j) (zseq k0 (Z.to_nat Kn)) v).
Proof.
  intros Hi Hj. rewrite (foldM_fold _ (fun t k => add (mul (av (i0 + i) (k0 + k)) (bv (k0 + k) (j0 + j))) t)).
  - f_equal. unfold dot. replace (zseq k0 (Z.to_nat Kn)) with (map (fun k => k0 + k) (zrange Kn)) by (unfold zrange; rewrite zseq_shift; f_equal; lia). now rewrite fold_left_map.
  - intros k t Hk. apply zrange_In in Hk. unfold aStart, bStart. rewrite (tile_load _ _ _ _ _ _ _ _ _ _ _ _ _ _ HA), (tile_load _ _ _ _ _ _ _ _ _ _ _ _ _ _ HB) by auto. reflexivity.
Qed.

Lemma genScalar_acc : acc cb MI MJ P (genScalar add mul A B aStart bStart cStart In Jn Kn) (tileT cPre c0 c1 i0 j0 k0 In Jn Kn).
Proof.
  unfold genScalar.
  eapply acc_ext; [apply (acc_fold cb MI MJ P) with (g := fun i b x y v => fold_left (fun v j => if here cPre (i0 - c0 + i) (j0 - c1 + j) b x y then dot (i0 + i) (j0 + j) (zseq k0 (Z.to_nat Kn)) v else v) (zrange Jn) v)|].
  - intros i Hi. apply zrange_In in Hi. apply (acc_fold cb MI MJ P) with (g := fun j b x y v => if here cPre (i0 - c0 + i) (j0 - c1 + j) b x y then dot (i0 + i) (j0 + j) (zseq k0 (Z.to_nat Kn)) v else v).
    intros j Hj. apply zrange_In in Hj. unfold access at 1 4. cbn [fst snd cStart]. apply (acc_cell cb MI MJ P HP).
    + replace (i0 - c0 + i) with (i0 + i - c0) by lia. replace (j0 - c1 + j) with (j0 + j - c1) by lia. apply HC; lia.
    + intros v. now apply kloop.
  - intros b x y v p. unfold tileT.
    transitivity (fold_left (fun v i => if x + c0 - i0 =? i then (if ieqb cPre b && ((0 <=? y + c1 - j0) && (y + c1 - j0 <? Jn)) then dot (x + c0) (y + c1) (zseq k0 (Z.to_nat Kn)) v else v) else v) (zrange In) v).
    + apply fold_left_ext_in. intros w i _. rewrite (fold_left_ext_in _ (fun v j => if y + c1 - j0 =? j then (if ieqb cPre b && (x + c0 - i0 =? i) then dot (x + c0) (y + c1) (zseq k0 (Z.to_nat Kn)) v else v) else v)).
      * rewrite fold_pick_range. destruct (ieqb cPre b), (x + c0 - i0 =? i), ((0 <=? y + c1 - j0) && (y + c1 - j0 <? Jn)); auto.
      * intros u j _. unfold here. destruct (ieqb cPre b); cbn [andb]; [|now destruct (y + c1 - j0 =? j)].
        destruct (Z.eqb_spec x (i0 - c0 + i)), (Z.eqb_spec y (j0 - c1 + j)), (Z.eqb_spec (y + c1 - j0) j), (Z.eqb_spec (x + c0 - i0) i); cbn [andb]; auto; try lia. f_equal; lia.
    + rewrite fold_pick_range. replace (0 <=? x + c0 - i0) with (i0 <=? x + c0) by (destruct (Z.leb_spec i0 (x + c0)), (Z.leb_spec 0 (x + c0 - i0)); auto; lia).
      replace (x + c0 - i0 <? In) with (x + c0 <? i0 + In) by (destruct (Z.ltb_spec (x + c0) (i0 + In)), (Z.ltb_spec (x + c0 - i0) In); auto; lia).
      replace (0 <=? y + c1 - j0) with (j0 <=? y + c1) by (destruct (Z.leb_spec j0 (y + c1)), (Z.leb_spec 0 (y + c1 - j0)); auto; lia).
      replace (y + c1 - j0 <? Jn) with (y + c1 <? j0 + Jn) by (destruct (Z.ltb_spec (y + c1) (j0 + Jn)), (Z.ltb_spec (y + c1 - j0) Jn); auto; lia).
      destruct (ieqb cPre b), ((i0 <=? x + c0) && (x + c0 <? i0 + In)); auto.
Qed.

Lemma genSimdMatMat_acc : 0 <= Jn -> acc cb MI MJ P (genSimdMatMat add mul A B aStart bStart cStart In Kn Jn) (tileT cPre c0 c1 i0 j0 k0 In Jn Kn).
Proof.
  intros HJ. unfold genSimdMatMat.
  pose (region := fun i (b : list Z) x y => ieqb cPre b && (x + c0 - i0 =? i) && ((j0 <=? y + c1) && (y + c1 <? j0 + Jn))).
  eapply acc_ext; [apply (acc_fold cb MI MJ P) with (g := fun i b x y v => if region i b x y then dot (x + c0) (y + c1) (zseq k0 (Z.to_nat Kn)) v else v)|].
  - intros i Hi. apply zrange_In in Hi. unfold access at 1 4. cbn [fst snd cStart].
    apply (acc_lanes cb MI MJ P HP) with (cx := fun _ => i0 + i - c0) (cy := fun l => j0 + l - c1) (hv := fun b x y v => dot (x + c0) (y + c1) (zseq k0 (Z.to_nat Kn)) v); auto.
    + intros l Hl. split; [apply HC; lia|]. assert (L : length cb = length cPre) by (apply valid_length; apply (HP cPre (i0 + i - c0) (j0 + l - c1)); apply HC; lia). rewrite !rm_two by auto. lia.
    + intros l Hl. unfold region. rewrite ieqb_refl. destruct (Z.eqb_spec (i0 + i - c0 + c0 - i0) i), (Z.leb_spec j0 (j0 + l - c1 + c1)), (Z.ltb_spec (j0 + l - c1 + c1) (j0 + Jn)); auto; lia.
    + intros b x y p. unfold region. rewrite !andb_true_iff, Z.eqb_eq, Z.leb_le, Z.ltb_lt. intros ((E1 & E2) & E3 & E4). exists (y + c1 - j0). split; [lia|]. apply here_true. apply ieqb_eq in E1. repeat split; auto; lia.
    + intros w.
      assert (G : forall l w, (forall k, List.In k l -> 0 <= k < Kn) -> foldM (fun k tmpVal => a <- load A (access aStart i k) ;; vb <- vloadAt B (access bStart k 0) Jn ;; Some (map2 (fun b t => add (mul a b) t) vb tmpVal)) l (map w (zrange Jn)) =
        Some (map (fun j => fold_left (fun t k => add (mul (av (i0 + i) (k0 + k)) (bv (k0 + k) (j0 + j))) t) l (w j)) (zrange Jn))).
      { induction l as [|k l IH]; intros w' HK; cbn [foldM fold_left]; auto. pose proof (HK k (or_introl eq_refl)) as Hk. unfold aStart at 1, bStart at 1.
        rewrite (tile_load _ _ _ _ _ _ _ _ _ _ _ _ _ _ HA), (tile_vload _ _ _ _ _ _ _ _ _ _ _ _ _ _ _ HB) by (auto; lia). cbn [obind]. rewrite map2_map. rewrite IH by (intros; apply HK; now right). f_equal. apply map_ext. intros j. do 4 f_equal. lia. }
      rewrite G by (intros k; apply zrange_In). f_equal. apply map_ext. intros j. unfold dot. replace (zseq k0 (Z.to_nat Kn)) with (map (fun k => k0 + k) (zrange Kn)) by (unfold zrange; rewrite zseq_shift; f_equal; lia). rewrite fold_left_map.
      apply fold_left_ext_in. intros t k _. do 3 f_equal; lia.
  - intros b x y v p. unfold tileT.
    transitivity (fold_left (fun v i => if x + c0 - i0 =? i then (if ieqb cPre b && ((j0 <=? y + c1) && (y + c1 <? j0 + Jn)) then dot (x + c0) (y + c1) (zseq k0 (Z.to_nat Kn)) v else v) else v) (zrange In) v).
    + apply fold_left_ext_in. intros w i _. unfold region. destruct (ieqb cPre b), (x + c0 - i0 =? i), ((j0 <=? y + c1) && (y + c1 <? j0 + Jn)); auto.
    + rewrite fold_pick_range. replace (0 <=? x + c0 - i0) with (i0 <=? x + c0) by (destruct (Z.leb_spec i0 (x + c0)), (Z.leb_spec 0 (x + c0 - i0)); auto; lia).
      replace (x + c0 - i0 <? In) with (x + c0 <? i0 + In) by (destruct (Z.ltb_spec (x + c0) (i0 + In)), (Z.ltb_spec (x + c0 - i0) In); auto; lia).
      destruct (ieqb cPre b), ((i0 <=? x + c0) && (x + c0 <? i0 + In)); auto.
Qed.

(** ** Matrix times vector *)
Section Vect.
Hypothesis opA : forall x y z, add x (add y z) = add (add x y) z.
Hypothesis opC : forall x y, add x y = add y x.
Hypothesis opI : forall x, add zero x = x.
Notation msum := (msum add zero).
Lemma dot_msum i j ks : forall v, dot i j ks v = add v (msum (map (fun k => mul (av i k) (bv k j)) ks)).
Proof.
  unfold dot. induction ks as [|k ks IH]; intros v; cbn [fold_left map]; [now rewrite msum_nil, opC, opI|].
  rewrite IH, (msum_cons add zero opA opC opI), (opC _ v), opA. reflexivity.
Qed.
Lemma msum_swap {X Y} (f : X -> Y -> T) ks ls : msum (map (fun l => msum (map (fun k => f k l) ks)) ls) = msum (map (fun k => msum (map (fun l => f k l) ls)) ks).
Proof.
  induction ks as [|k ks IH]; cbn [map].
  - rewrite (map_ext _ (fun _ => zero)) by (intros; apply msum_nil). rewrite (msum_identity add zero opA opC opI). now rewrite msum_nil.
  - rewrite (msum_cons add zero opA opC opI), <- IH, <- (msum_map2 add zero opA opC opI). f_equal. apply map_ext. intros l. now rewrite (msum_cons add zero opA opC opI).
Qed.
Lemma map_const {X Y} (c : Y) (l : list X) : map (fun _ => c) l = repeat c (length l).
Proof. induction l; cbn [map repeat length]; congruence. Qed.
Lemma omap_map {X Y W} (f : Y -> option W) (g : X -> Y) l : omap f (map g l) = omap (fun x => f (g x)) l.
Proof. induction l as [|x l IH]; cbn [map omap]; auto. now rewrite IH. Qed.
Lemma multiReduction_rows K VL (lane : Z -> Z -> T) : VL = 2 ^ Z.of_nat K ->
  multiReduction add zero (Z.to_nat VL) (Z.to_nat VL) 1 (Z.to_nat VL / 2) (map (fun v => map (lane v) (zrange VL)) (zrange VL)) = Some (map (fun v => msum (map (lane v) (zrange VL))) (zrange VL)).
Proof.
  intros HK. assert (EN : Z.to_nat VL = (2 ^ K)%nat) by (rewrite HK; rewrite <- (Nat2Z.id (2 ^ K)), Nat2Z.inj_pow; reflexivity).
  assert (ZR : zrange VL = map Z.of_nat (seq 0 (2 ^ K))).
  { unfold zrange. rewrite EN. clear. assert (G : forall n a, zseq (Z.of_nat a) n = map Z.of_nat (seq a n)).
    { induction n as [|n IH]; intros a; cbn [zseq seq map]; auto. rewrite <- IH. do 2 f_equal. lia. }
    apply (G (2 ^ K)%nat O). }
  destruct (multi_ok add zero opA opC opI (fun r => msum (map (lane (Z.of_nat r)) (zrange VL))) K 1 (map (fun v => map (lane v) (zrange VL)) (zrange VL)) (2 ^ K)) as (red & ER & LR & NR).
  - lia.
  - apply Nat.lt_le_incl, Nat.pow_gt_lin_r. lia.
  - rewrite map_length, zrange_length, EN. lia.
  - intros p Hp. rewrite (nth_map_gen _ _ _ _ 0) by (rewrite zrange_length, EN; lia). rewrite map_length, zrange_length, EN. lia.
  - intros r Hr. rewrite Nat.mul_1_r in Hr. rewrite ZR at 1. unfold partial.
    f_equal. rewrite ZR. rewrite (map_map Z.of_nat (lane (Z.of_nat r))). apply map_ext_in. intros q Hq. apply in_seq in Hq. rewrite Nat.mod_1_r, Nat.div_1_r, Nat.mul_1_r, Nat.add_0_r.
    rewrite (nth_map_gen _ _ _ _ 0) by (rewrite map_length, seq_length; lia). rewrite !(nth_map_gen _ _ _ _ O) by (rewrite seq_length; lia). rewrite seq_nth by lia. cbn [Nat.add].
    rewrite (nth_map_gen _ _ _ _ 0) by (rewrite map_length, seq_length; lia). rewrite (nth_map_gen _ _ _ _ O) by (rewrite seq_length; lia). rewrite seq_nth by lia. reflexivity.
  - rewrite Nat.mul_1_r in *. rewrite EN. rewrite ER. f_equal. apply nth_ext with (d := zero) (d' := zero); [rewrite map_length, zrange_length; congruence|]. intros r Hr.
    rewrite (nth_map_gen _ _ _ _ 0) by (rewrite zrange_length; lia). replace (nth r (zrange VL) 0) with (Z.of_nat r); [rewrite NR by lia; reflexivity|].
    rewrite ZR. rewrite (nth_map_gen _ _ _ _ O) by (rewrite seq_length; lia). rewrite seq_nth by lia. reflexivity.
Qed.
Lemma full_blocks U VL : 1 <= VL -> 0 <= U -> U mod VL = 0 -> flat_map (fun k => zseq (k0 + k) (Z.to_nat VL)) (forLoop 0 U VL) = zseq k0 (Z.to_nat U).
Proof.
  intros HV HU HM. transitivity (map (fun k => k0 + k) (zseq 0 (Z.to_nat U))); [|now rewrite zseq_shift, Z.add_0_r]. rewrite <- (blocks_cover U VL) by lia.
  rewrite !flat_map_concat_map, concat_map, map_map. f_equal. apply map_ext_in. intros k Hk. rewrite zseq_shift. f_equal. f_equal.
  unfold forLoop in Hk. apply in_map_iff in Hk as (q & <- & Hq). apply zrange_In in Hq. rewrite Z.min_l; auto.
  assert (U = VL * (U / VL)) by (rewrite (Z.div_mod U VL) at 1; lia). assert ((U - 0 + VL - 1) / VL = U / VL). { rewrite H at 1. replace (VL * (U / VL) - 0 + VL - 1) with (VL - 1 + (U / VL) * VL) by lia. rewrite Z.div_add by lia. rewrite Z.div_small; lia. }
  rewrite H0 in Hq. nia.
Qed.

Lemma genSimdMatVect_acc VL K : VL = 2 ^ Z.of_nat K -> 0 <= In -> 0 <= Kn -> In mod VL = 0 -> Kn mod VL = 0 -> Jn = 1 -> bc = 1 -> b1 = j0 -> MJ = 1 -> c1 = j0 ->
  acc cb MI MJ P (genSimdMatVect add mul zero A B aStart bStart cStart In Kn VL) (tileT cPre c0 c1 i0 j0 k0 In Jn Kn).
Proof.
  intros HK HI HKn DI DK EJ EBC EB1 EMJ EC1. subst Jn bc b1 MJ c1. assert (HV : 1 <= VL) by (rewrite HK; pose proof (Z.pow_pos_nonneg 2 (Z.of_nat K)); lia).
  pose (part := fun ks i l => fold_left (fun t k => add (mul (av (i0 + i) (k0 + k + l)) (bv (k0 + k + l) j0)) t) ks zero).
  assert (E1 : forall ks, (forall k, List.In k ks -> 0 <= k /\ k + VL <= Kn) -> forall done,
     foldM (fun k tmpProd => vb <- vloadAt B (access bStart k 0) VL ;;
       omap (fun it => va <- vloadAt A (access aStart (fst it) k) VL ;; Some (map2 add (map2 mul va vb) (snd it))) (combine (zrange In) tmpProd)) ks
       (map (fun i => map (part done i) (zrange VL)) (zrange In)) = Some (map (fun i => map (part (done ++ ks) i) (zrange VL)) (zrange In))).
  { induction ks as [|k ks IH]; intros HKs done; cbn [foldM]; [now rewrite app_nil_r|]. destruct (HKs k (or_introl eq_refl)) as (K0 & K1).
    unfold bStart at 1. rewrite (tile_vload_col _ _ _ _ _ _ _ _ _ _ _ HB) by lia. cbn [obind]. rewrite combine_id, omap_map. cbn [fst snd].
    rewrite (omap_ok _ (fun i => map (part (done ++ [k]) i) (zrange VL))).
    - cbn [obind]. rewrite IH by (intros; apply HKs; now right). now rewrite <- app_assoc.
    - intros i Hi. apply zrange_In in Hi. unfold aStart. rewrite (tile_vload _ _ _ _ _ _ _ _ _ _ _ _ _ _ _ HA) by (auto; lia). cbn [obind]. rewrite !map2_map. f_equal. apply map_ext. intros l. unfold part. rewrite fold_left_app. reflexivity. }
  assert (HKs : forall k, List.In k (forLoop 0 Kn VL) -> 0 <= k /\ k + VL <= Kn).
  { intros k Hk. unfold forLoop in Hk. apply in_map_iff in Hk as (q & <- & Hq). apply zrange_In in Hq. assert (HU : Kn = VL * (Kn / VL)) by (rewrite (Z.div_mod Kn VL) at 1; lia).
    assert (EQ : (Kn - 0 + VL - 1) / VL = Kn / VL). { rewrite HU at 1. replace (VL * (Kn / VL) - 0 + VL - 1) with (VL - 1 + (Kn / VL) * VL) by lia. rewrite Z.div_add by lia. rewrite Z.div_small; lia. }
    rewrite EQ in Hq. nia. }
  specialize (E1 (forLoop 0 Kn VL) HKs []). cbn [app] in E1.
  assert (EZ : repeat (repeat zero (Z.to_nat VL)) (Z.to_nat In) = map (fun i => map (part [] i) (zrange VL)) (zrange In)).
  { unfold part. cbn [fold_left]. rewrite !map_const, !zrange_length. reflexivity. }
  eapply acc_eq. 2:{ intros C. unfold genSimdMatVect. rewrite EZ, E1. cbn [obind]. reflexivity. }
  assert (HIn : In = VL * (In / VL)) by (rewrite (Z.div_mod In VL) at 1; lia).
  pose (region := fun g (b : list Z) x y => ieqb cPre b && ((i0 + g * VL <=? x + c0) && (x + c0 <? i0 + g * VL + VL)) && ((j0 <=? y + j0) && (y + j0 <? j0 + 1))).
  eapply acc_ext; [apply (acc_fold cb MI 1 P) with (g := fun g b x y v => if region g b x y then dot (x + c0) (y + j0) (zseq k0 (Z.to_nat Kn)) v else v)|].
  - intros g Hg. apply zrange_In in Hg. assert (GB : g * VL + VL <= In) by nia.
    assert (EG : firstn (Z.to_nat VL) (skipn (Z.to_nat (g * VL)) (map (fun i => map (part (forLoop 0 Kn VL) i) (zrange VL)) (zrange In))) = map (fun v => map (part (forLoop 0 Kn VL) (g * VL + v)) (zrange VL)) (zrange VL)).
    { rewrite skipn_map, firstn_map. replace (firstn (Z.to_nat VL) (skipn (Z.to_nat (g * VL)) (zrange In))) with (map (fun v => g * VL + v) (zrange VL)); [now rewrite map_map|].
      unfold zrange. rewrite zseq_shift, Z.add_0_r. replace (Z.to_nat In) with (Z.to_nat (g * VL) + (Z.to_nat VL + Z.to_nat (In - g * VL - VL)))%nat by nia. rewrite !zseq_app.
      rewrite skipn_exact by (now rewrite zseq_length). rewrite firstn_exact by (now rewrite zseq_length). f_equal. nia. }
    rewrite EG.
    eapply acc_eq. 2:{ intros C. rewrite (multiReduction_rows K VL (fun v => part (forLoop 0 Kn VL) (g * VL + v)) HK). cbn [obind]. reflexivity. }
    assert (SUM : forall v, msum (map (part (forLoop 0 Kn VL) v) (zrange VL)) = msum (map (fun k => mul (av (i0 + v) k) (bv k j0)) (zseq k0 (Z.to_nat Kn)))).
    { intros v. transitivity (msum (map (fun l => msum (map (fun k => mul (av (i0 + v) (k0 + k + l)) (bv (k0 + k + l) j0)) (forLoop 0 Kn VL))) (zrange VL))).
      - f_equal. apply map_ext. intros l. unfold part, SimdReduceProofs.msum. rewrite fold_left_map. apply fold_left_ext_in. intros t k _. apply opC.
      - rewrite msum_swap. rewrite <- (full_blocks Kn VL) by lia. rewrite flat_map_concat_map, concat_map, map_map, <- flat_map_concat_map. rewrite (msum_concat add zero opA opC opI). f_equal. apply map_ext. intros k.
        replace (zseq (k0 + k) (Z.to_nat VL)) with (map (fun l => k0 + k + l) (zrange VL)) by (unfold zrange; rewrite zseq_shift; f_equal; lia). now rewrite map_map. }
    unfold access. cbn [fst snd cStart].
    eapply acc_eq. 1: apply (acc_lanes cb MI 1 P HP cPre (i0 - c0 + g * VL) (j0 - j0 + 0) VL (fun l => i0 + g * VL + l - c0) (fun _ => j0 - j0)) with (region := region g) (hv := fun b x y v => dot (x + c0) (y + j0) (zseq k0 (Z.to_nat Kn)) v)
       (f := fun vc => Some (map2 add vc (map (fun v => msum (map (part (forLoop 0 Kn VL) (g * VL + v)) (zrange VL))) (zrange VL)))); auto.
    + lia.
    + intros l Hl. split; [apply HC; nia|]. assert (L : length cb = length cPre) by (apply valid_length; apply (HP cPre (i0 + g * VL + l - c0) (j0 - j0)); apply HC; nia). rewrite !rm_two by auto. nia.
    + intros l Hl. unfold region. rewrite ieqb_refl. destruct (Z.leb_spec (i0 + g * VL) (i0 + g * VL + l - c0 + c0)), (Z.ltb_spec (i0 + g * VL + l - c0 + c0) (i0 + g * VL + VL)), (Z.leb_spec j0 (j0 - j0 + j0)), (Z.ltb_spec (j0 - j0 + j0) (j0 + 1)); auto; lia.
    + intros b x y p. unfold region. rewrite !andb_true_iff, !Z.leb_le, !Z.ltb_lt. intros ((E2 & E3 & E4) & E5 & E6). exists (x + c0 - (i0 + g * VL)). split; [lia|]. apply here_true. apply ieqb_eq in E2. repeat split; auto; lia.
    + intros w. rewrite map2_map. f_equal. apply map_ext. intros l. rewrite dot_msum, SUM. replace (i0 + g * VL + l - c0 + c0) with (i0 + (g * VL + l)) by lia. replace (j0 - j0 + j0) with j0 by lia. reflexivity.
    + intros C. cbn [obind]. reflexivity.
  - intros b x y v p. unfold tileT. pose proof (HP b x y p) as (_ & _ & HY). assert (y = 0) by lia. subst y.
    set (q := (x + c0 - i0) / VL).
    transitivity (fold_left (fun v g => if q =? g then (if ieqb cPre b && ((j0 <=? 0 + j0) && (0 + j0 <? j0 + 1)) then dot (x + c0) (0 + j0) (zseq k0 (Z.to_nat Kn)) v else v) else v) (zrange (In / VL)) v).
    + apply fold_left_ext_in. intros w g _. unfold region. replace ((i0 + g * VL <=? x + c0) && (x + c0 <? i0 + g * VL + VL)) with (q =? g).
      * destruct (ieqb cPre b), (q =? g), ((j0 <=? 0 + j0) && (0 + j0 <? j0 + 1)); auto.
      * unfold q. destruct (Z.eqb_spec ((x + c0 - i0) / VL) g) as [EQ|NE], (Z.leb_spec (i0 + g * VL) (x + c0)), (Z.ltb_spec (x + c0) (i0 + g * VL + VL)); auto; cbn [andb]; exfalso.
        all: Z.to_euclidean_division_equations; nia.
    + rewrite fold_pick_range. replace ((0 <=? q) && (q <? In / VL)) with ((i0 <=? x + c0) && (x + c0 <? i0 + In)).
      * destruct (ieqb cPre b), ((i0 <=? x + c0) && (x + c0 <? i0 + In)); auto.
      * unfold q. destruct (Z.leb_spec i0 (x + c0)), (Z.leb_spec 0 ((x + c0 - i0) / VL)), (Z.ltb_spec (x + c0) (i0 + In)), (Z.ltb_spec ((x + c0 - i0) / VL) (In / VL)); auto; cbn [andb]; exfalso.
        all: Z.to_euclidean_division_equations; nia.
Qed.
End Vect.
End One.
End Tile.
