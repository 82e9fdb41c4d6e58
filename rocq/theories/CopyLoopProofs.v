From Coq Require Import List ZArith Lia Bool Arith.
From Verif Require Import Util TensorSpec TensorLemmas ShapeOpsCopies LoopModel LoopProofs CumSumProofs GatherLoopSpec GatherLoopProofs CopyLoopSpec CopyLoopModel.
Import ListNotations.
Open Scope Z_scope.

Lemma nth_map_seq (f : nat -> Z) n r : (r < n)%nat -> nth r (map f (seq 0 n)) 0 = f r.
Proof. intros H. rewrite (nth_indep _ 0 (f O)) by (rewrite map_length, seq_length; lia). rewrite map_nth, seq_nth by lia. reflexivity. Qed.
Lemma valid_map_seq (f : nat -> Z) s n : n = length s -> (forall r, (r < n)%nat -> 0 <= f r < nth r s 0) -> valid s (map f (seq 0 n)).
Proof. intros -> H. apply valid_nth_iff; [rewrite map_length, seq_length; lia|]. intros r Hr. rewrite nth_map_seq by auto. auto. Qed.
Lemma padShape_length pads s : length (padShape pads s) = length s.
Proof. unfold padShape. now rewrite map_length, seq_length. Qed.
Lemma padShape_nth pads s r : (r < length s)%nat -> nth r (padShape pads s) 0 = nth r pads 0 + nth r s 0 + nth (r + length s) pads 0.
Proof. intros H. unfold padShape. now rewrite nth_map_seq. Qed.

Section Copy.
Context {T : Type}.

Lemma pad_constant_ok pads (c : T) (data : mem T) dv : let s := mShape data in
  (forall i, valid s i -> mAt data i = Some (dv i)) -> (forall r, (r < length s + length s)%nat -> 0 <= nth r pads 0) ->
  exists out, padLoop PConstant pads c data = Some out /\ mShape out = padShape pads s /\
    (forall i o, valid s i -> moved pads i o -> mAt out o = Some (dv i)) /\
    (forall o, (forall i, valid s i -> ~ moved pads i o) -> mAt out o = Some c).
Proof.
  intros s HD HP. unfold padLoop. fold s.
  set (g := fun i => map (fun r => nth r i 0 + nth r pads 0) (seq 0 (length s))).
  assert (M : forall i o, valid s i -> (moved pads i o <-> o = g i)).
  { intros i o V. apply valid_length in V. split.
    - intros [L N]. apply nth_ext with (d := 0) (d' := 0); [unfold g; rewrite map_length, seq_length; lia|]. intros r Hr.
      unfold g. rewrite nth_map_seq by lia. apply N. lia.
    - intros ->. split; [unfold g; rewrite map_length, seq_length; lia|]. intros r Hr. unfold g. now rewrite nth_map_seq by lia. }
  destruct (iterate_stores s g (fun i => load data i) (Mem (padShape pads s) (fun _ => Some c))) as (out & E & S1 & A & B).
  - intros i V. split; [|exists (dv i); rewrite load_ok by auto; auto]. apply valid_map_seq; [cbn [mShape]; now rewrite padShape_length|]. intros r Hr. cbn [mShape].
    rewrite padShape_nth by auto. pose proof (nth_valid _ _ r V Hr). pose proof (HP r ltac:(lia)). pose proof (HP (r + length s)%nat ltac:(lia)). lia.
  - intros i j Vi Vj E. apply nth_ext with (d := 0) (d' := 0); [apply valid_length in Vi, Vj; lia|]. intros r Hr. pose proof (valid_length _ _ Vi).
    apply (f_equal (fun l => nth r l 0)) in E. unfold g in E. rewrite !nth_map_seq in E by lia. lia.
  - exists out. split; [exact E|]. split; [exact S1|]. split.
    + intros i o V H. apply M in H; auto. subst o. rewrite A, load_ok by auto. auto.
    + intros o H. rewrite B; [reflexivity|]. intros i V E'. apply (H i V). apply M; auto.
Qed.

Lemma pad_source_ok mode pads (c : T) (data : mem T) dv : let s := mShape data in mode <> PConstant ->
  (forall i, valid s i -> mAt data i = Some (dv i)) ->
  (forall r o, (r < length s)%nat -> 0 <= o < nth r (padShape pads s) 0 ->
     padIndex mode (nth r pads 0) (nth r s 0) o = padSource mode (nth r s 0) (o - nth r pads 0) /\ 0 <= padIndex mode (nth r pads 0) (nth r s 0) o < nth r s 0) ->
  exists out, padLoop mode pads c data = Some out /\ mShape out = padShape pads s /\
    (forall o, valid (padShape pads s) o -> mAt out o = Some (dv (padSources mode s pads o)) /\ valid s (padSources mode s pads o)).
Proof.
  intros s NC HD HP.
  assert (V : forall o, valid (padShape pads s) o ->
    map (fun r => padIndex mode (nth r pads 0) (nth r s 0) (nth r o 0)) (seq 0 (length s)) = padSources mode s pads o /\ valid s (padSources mode s pads o)).
  { intros o Vo. assert (E : map (fun r => padIndex mode (nth r pads 0) (nth r s 0) (nth r o 0)) (seq 0 (length s)) = padSources mode s pads o).
    { apply map_ext_in. intros r Hr. apply in_seq in Hr. apply HP; [lia|]. apply nth_valid; [exact Vo|rewrite padShape_length; lia]. }
    split; [exact E|]. rewrite <- E. apply valid_map_seq; auto. intros r Hr. apply HP; auto. apply nth_valid; [exact Vo|rewrite padShape_length; lia]. }
  destruct (iterate_fill (padShape pads s) (fun o => load data (map (fun r => padIndex mode (nth r pads 0) (nth r s 0) (nth r o 0)) (seq 0 (length s)))) (alloc (padShape pads s))) as (out & E & S1 & A); auto.
  - intros o Vo. destruct (V o Vo) as [E V1]. rewrite E, load_ok by auto. exists (dv (padSources mode s pads o)). auto.
  - exists out. split; [unfold padLoop; fold s; destruct mode; try contradiction; exact E|]. split; [exact S1|]. intros o Vo. destruct (V o Vo) as [E1 V1]. split; auto.
    rewrite A, E1, load_ok by auto. auto.
Qed.

Lemma edge_ok pad d o e : 0 < d -> 0 <= o < pad + d + e ->
  padIndex PEdge pad d o = padSource PEdge d (o - pad) /\ 0 <= padIndex PEdge pad d o < d.
Proof.
  intros D O. cbn [padIndex padSource]. unfold clamp. destruct (Z.leb_spec o pad).
  - destruct (Z.leb_spec d 0); lia.
  - destruct (Z.leb_spec d (o - pad)); lia.
Qed.
Lemma mirror_left d x : 0 <= x < d -> mirror d (- x) = x /\ mirror d x = x.
Proof.
  intros H. unfold mirror. destruct (Z.eqb_spec d 1); [lia|]. set (p := 2 * (d - 1)). cbn zeta. split.
  - destruct (Z.eq_dec x 0) as [->|N]; [cbn [Z.opp]; rewrite Z.mod_0_l by lia; lia|].
    rewrite Z_mod_nz_opp_full by (rewrite Z.mod_small by lia; lia). rewrite Z.mod_small by lia. lia.
  - rewrite Z.mod_small by lia. lia.
Qed.
Lemma mirror_right d x : d <= x <= 2 * (d - 1) -> mirror d x = 2 * (d - 1) - x.
Proof.
  intros H. unfold mirror. destruct (Z.eqb_spec d 1); [lia|]. set (p := 2 * (d - 1)) in *. cbn zeta.
  destruct (Z.eq_dec x p) as [->|N]; [rewrite Z.mod_same by lia; lia|]. rewrite Z.mod_small by lia. lia.
Qed.
Lemma reflect_ok pad d o e : pad < d -> e < d -> 0 <= o < pad + d + e ->
  padIndex PReflect pad d o = padSource PReflect d (o - pad) /\ 0 <= padIndex PReflect pad d o < d.
Proof.
  intros D E O. cbn [padIndex padSource]. destruct (Z.ltb_spec o pad).
  - destruct (Z.leb_spec d (pad - o)); [lia|]. replace (o - pad) with (- (pad - o)) by lia. rewrite (proj1 (mirror_left d (pad - o) ltac:(lia))). lia.
  - destruct (Z.leb_spec d (o - pad)).
    + rewrite mirror_right by lia. lia.
    + rewrite (proj2 (mirror_left d (o - pad) ltac:(lia))). lia.
Qed.

Lemma okshape_nth s r : okshape s -> 0 <= nth r s 0.
Proof. intros H. destruct (Nat.lt_ge_cases r (length s)) as [L|L]; [|rewrite nth_overflow by lia; lia]. unfold okshape in H. rewrite Forall_forall in H. apply H. now apply nth_In. Qed.
Lemma tile_ok repeats (input : mem T) dv : let s := mShape input in let f := fun o => map (fun r => nth r o 0 mod nth r s 0) (seq 0 (length s)) in
  okshape s -> (forall i, valid s i -> mAt input i = Some (dv i)) ->
  exists out, tileLoop repeats input = Some out /\ mShape out = tileShape repeats s /\
    (forall o, valid (tileShape repeats s) o -> mAt out o = Some (dv (f o)) /\ valid s (f o)).
Proof.
  intros s f Ok HD. assert (L : length (tileShape repeats s) = length s) by (unfold tileShape; now rewrite map_length, seq_length).
  assert (V : forall o, valid (tileShape repeats s) o -> valid s (f o)).
  { intros o Vo. apply valid_map_seq; auto. intros r Hr. pose proof (nth_valid _ _ r Vo ltac:(lia)) as B. unfold tileShape in B. rewrite nth_map_seq in B by auto.
    apply Z.mod_pos_bound. pose proof (okshape_nth s r Ok). destruct (Z.eq_dec (nth r s 0) 0) as [Z0|]; [rewrite Z0 in B; lia|lia]. }
  destruct (iterate_fill (tileShape repeats s) (fun o => load input (f o)) (alloc (tileShape repeats s))) as (out & E & S1 & A); auto.
  - intros o Vo. exists (dv (f o)). rewrite load_ok by now apply V. apply HD. now apply V.
  - exists out. split.
    + unfold tileLoop. fold s. rewrite L. exact E.
    + split; [exact S1|]. intros o Vo. split; [|now apply V]. rewrite A, load_ok by auto. auto.
Qed.

Lemma oneHotAxis_ok rank a axis : (a <= rank)%nat -> axis = Z.of_nat a \/ axis = Z.of_nat a - Z.of_nat rank - 1 -> oneHotAxis rank axis = a.
Proof. intros H [-> | ->]; unfold oneHotAxis; destruct (Z.ltb_spec (Z.of_nat a) 0); try lia. destruct (Z.ltb_spec (Z.of_nat a - Z.of_nat rank - 1) 0); lia. Qed.
Lemma splice_nth (l1 l2 : list Z) d r : nth r (l1 ++ d :: l2) 0 =
  if (r =? length l1)%nat then d else nth (if (length l1 <? r)%nat then r - 1 else r) (l1 ++ l2) 0.
Proof.
  destruct (Nat.eqb_spec r (length l1)) as [->|N]; [rewrite app_nth2, Nat.sub_diag by lia; reflexivity|].
  destruct (Nat.ltb_spec (length l1) r).
  - rewrite !app_nth2 by lia. replace (r - length l1)%nat with (S (r - 1 - length l1)) by lia. reflexivity.
  - rewrite !app_nth1 by lia. reflexivity.
Qed.
Lemma splice_ok (l1 l2 : list Z) d n : n = (length (l1 ++ l2) + 1)%nat ->
  map (fun i => if (i =? length l1)%nat then d else nth (if (length l1 <? i)%nat then i - 1 else i) (l1 ++ l2) 0) (seq 0 n) = l1 ++ d :: l2.
Proof.
  intros ->. apply nth_ext with (d := 0) (d' := 0); [rewrite map_length, seq_length, !app_length; cbn; lia|]. intros r Hr. rewrite map_length, seq_length in Hr.
  rewrite nth_map_seq by lia. now rewrite splice_nth.
Qed.
Lemma oneHotShape_ok sI sJ depth : oneHotShape (length sI) depth (sI ++ sJ) = sI ++ depth :: sJ.
Proof.
  rewrite <- (splice_ok sI sJ depth (length (sI ++ sJ) + 1)) by reflexivity. unfold oneHotShape. apply map_ext. intros i.
  destruct (Nat.eqb_spec i (length sI)); auto. destruct (Nat.ltb_spec i (length sI)), (Nat.ltb_spec (length sI) i); auto; lia.
Qed.

Lemma on_ok depth v d : 0 <= d < depth -> (d =? onValueIndex depth v) = (wrap depth v =? d).
Proof.
  intros D. unfold onValueIndex, wrap. set (w := if v <? 0 then v + depth else v). destruct (Z.ltb_spec w 0), (Z.leb_spec depth w); cbn [orb];
  destruct (Z.eqb_spec w d); try lia; destruct (Z.eqb_spec d (-1)); try lia; destruct (Z.eqb_spec d w); try lia; auto.
Qed.

Lemma oneHot_ok axis depth (ind : mem Z) (values : mem T) iv offVal onVal sI sJ :
  mShape ind = sI ++ sJ -> (axis = Z.of_nat (length sI) \/ axis = Z.of_nat (length sI) - Z.of_nat (length (mShape ind)) - 1) ->
  (forall j, valid (mShape ind) j -> mAt ind j = Some (iv j)) -> mShape values = [2] -> mAt values [0] = Some offVal -> mAt values [1] = Some onVal ->
  exists out, oneHotLoop axis depth ind values = Some out /\ mShape out = sI ++ depth :: sJ /\
    forall ii d jj, valid sI ii -> 0 <= d < depth -> valid sJ jj -> mAt out (ii ++ d :: jj) = Some (if wrap depth (iv (ii ++ jj)) =? d then onVal else offVal).
Proof.
  intros HS HA HI HV H0 H1. unfold oneHotLoop.
  rewrite (oneHotAxis_ok _ (length sI) axis) by (auto; rewrite HS, app_length; lia).
  assert (V2 : forall k, 0 <= k < 2 -> load values [k] = mAt values [k]).
  { intros k K. apply load_ok. rewrite HV. apply valid_cons. split; auto. constructor. }
  rewrite (V2 0), H0, (V2 1), H1 by lia. cbn [obind].
  set (a := length sI). set (rank := length (mShape ind)).
  set (g := fun p : list Z => let l := firstn rank p in map (fun i => if (i =? a)%nat then nth rank p 0 else nth (if (a <? i)%nat then i - 1 else i) l 0) (seq 0 (rank + 1))).
  set (f := fun p : list Z => v <- load ind (firstn rank p) ;; Some (if nth rank p 0 =? onValueIndex depth v then onVal else offVal)).
  assert (G : forall ii jj d, valid sI ii -> valid sJ jj -> g ((ii ++ jj) ++ [d]) = ii ++ d :: jj).
  { intros ii jj d Vi Vj. pose proof (valid_length _ _ Vi) as L1. pose proof (valid_length _ _ Vj) as L2. assert (LR : rank = length (ii ++ jj)) by (unfold rank; rewrite HS, !app_length; lia).
    unfold g. cbn zeta. rewrite firstn_exact by auto. rewrite app_nth2, LR, Nat.sub_diag by lia. cbn [nth]. unfold a. rewrite L1. apply splice_ok. lia. }
  assert (P : forall p, valid (mShape ind ++ [depth]) p -> exists ii jj d, p = (ii ++ jj) ++ [d] /\ valid sI ii /\ valid sJ jj /\ 0 <= d < depth).
  { intros p Vp. destruct (valid_split_app _ _ _ Vp) as (l & q & -> & Vl & Vq). rewrite HS in Vl. destruct (valid_split_app _ _ _ Vl) as (ii & jj & -> & Vi & Vj).
    destruct q as [|d [|]]; try solve [inversion Vq]; [|inversion Vq; subst; match goal with H : Forall2 _ [] _ |- _ => inversion H end]. apply valid_cons in Vq as [D _]. exists ii, jj, d. auto. }
  assert (Fv : forall ii jj d, valid sI ii -> valid sJ jj -> 0 <= d < depth -> f ((ii ++ jj) ++ [d]) = Some (if wrap depth (iv (ii ++ jj)) =? d then onVal else offVal)).
  { intros ii jj d Vi Vj D. pose proof (valid_length _ _ Vi) as L1. pose proof (valid_length _ _ Vj) as L2. assert (LR : rank = length (ii ++ jj)) by (unfold rank; rewrite HS, !app_length; lia).
    assert (V : valid (mShape ind) (ii ++ jj)) by (rewrite HS; apply valid_app; auto).
    unfold f. rewrite firstn_exact by auto. rewrite load_ok, HI by auto. cbn [obind]. rewrite app_nth2, LR, Nat.sub_diag by lia. cbn [nth]. now rewrite on_ok. }
  destruct (iterate_stores (mShape ind ++ [depth]) g f (alloc (sI ++ depth :: sJ))) as (out & E & S1 & A & _).
  - intros p Vp. destruct (P p Vp) as (ii & jj & d & -> & Vi & Vj & D). rewrite G, Fv by auto. split; [|eexists; reflexivity].
    cbn [alloc mShape]. apply valid_app; [now apply valid_length|]. split; auto. now apply valid_cons.
  - intros p q Vp Vq EQ. destruct (P p Vp) as (ii & jj & d & -> & Vi & Vj & D). destruct (P q Vq) as (ii' & jj' & d' & -> & Vi' & Vj' & D'). rewrite !G in EQ by auto.
    pose proof (valid_length _ _ Vi). pose proof (valid_length _ _ Vi'). assert (LL : length ii = length ii') by lia.
    apply (f_equal (fun l => (firstn (length ii) l, skipn (length ii) l))) in EQ. rewrite firstn_exact, skipn_exact in EQ by auto. rewrite LL in EQ. rewrite firstn_exact, skipn_exact in EQ by auto.
    injection EQ as -> -> ->. reflexivity.
  - exists out. split; [|split; [exact S1|]].
    + replace (oneHotShape a depth (mShape ind)) with (sI ++ depth :: sJ) by (rewrite HS; symmetry; apply oneHotShape_ok). rewrite <- E.
      unfold iterate at 1 3. rewrite indices_app, <- foldM_flat. apply foldM_ext. intros l m Hl. apply indices_In in Hl.
      rewrite load_ok, HI by auto. cbn [obind]. rewrite foldM_map. unfold iterate. apply foldM_ext. intros d m' Hd.
      pose proof (valid_length _ _ Hl) as LL. fold rank in LL. unfold f, g. rewrite firstn_exact by auto. rewrite load_ok, HI by auto. cbn [obind]. rewrite app_nth2, <- LL, Nat.sub_diag by lia. reflexivity.
    + intros ii d jj Vi D Vj. rewrite <- (G ii jj d), A, Fv; auto. apply valid_app; [rewrite HS, !app_length; apply valid_length in Vi, Vj; lia|]. split.
      * rewrite HS. apply valid_app; [now apply valid_length|]. auto.
      * apply valid_cons. split; auto. constructor.
Qed.

Lemma reverseSequence_ok b t (input : mem T) (lens : mem Z) dv lv : let s := mShape input in
  (b < length s)%nat -> (t < length s)%nat -> mShape lens = [nth b s 0] ->
  (forall i, valid s i -> mAt input i = Some (dv i)) ->
  (forall k, 0 <= k < nth b s 0 -> mAt lens [k] = Some (lv k) /\ lv k <= nth t s 0) ->
  exists out, reverseSequenceLoop b t input lens = Some out /\ mShape out = s /\
    forall o, valid s o -> mAt out o = Some (dv (if nth t o 0 <? lv (nth b o 0) then upd t (lv (nth b o 0) - 1 - nth t o 0) o else o)).
Proof.
  intros s Hb Ht HL HD HV.
  set (f := fun o => len <- load lens [nth b o 0] ;; let x := nth t o 0 in load input (upd t (if x <? len then len - x - 1 else x) o)).
  assert (F : forall o, valid s o -> f o = Some (dv (if nth t o 0 <? lv (nth b o 0) then upd t (lv (nth b o 0) - 1 - nth t o 0) o else o))).
  { intros o V. pose proof (nth_valid _ _ b V Hb) as B. pose proof (nth_valid _ _ t V Ht) as X. destruct (HV _ B) as [A1 A2]. unfold f.
    rewrite load_ok by (rewrite HL; apply valid_cons; split; auto; constructor). rewrite A1. cbn [obind]. cbn zeta.
    destruct (Z.ltb_spec (nth t o 0) (lv (nth b o 0))).
    - replace (lv (nth b o 0) - nth t o 0 - 1) with (lv (nth b o 0) - 1 - nth t o 0) by lia.
      assert (V' : valid s (upd t (lv (nth b o 0) - 1 - nth t o 0) o)) by (apply valid_upd; auto; lia). rewrite load_ok by auto. auto.
    - replace (upd t (nth t o 0) o) with o; [rewrite load_ok by auto; auto|]. clear -Ht V. apply valid_length in V. apply nth_ext with (d := 0) (d' := 0); [now rewrite upd_length|].
      intros r Hr. destruct (Nat.eq_dec r t) as [->|N]; [symmetry; apply nth_upd_same; lia|symmetry; apply nth_upd_other; auto]. }
  destruct (iterate_fill s f (alloc s)) as (out & E & S1 & A); auto.
  - intros o V. rewrite F by auto. eexists; reflexivity.
  - exists out. split; [exact E|]. split; [exact S1|]. intros o V. now rewrite A, F.
Qed.
End Copy.
