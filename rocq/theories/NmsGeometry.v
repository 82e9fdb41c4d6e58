(** The overlap of boxes. *)
From Coq Require Import List ZArith Bool QArith Qminmax Qfield Lia Lqa.
From Verif Require Import Util NmsSpec NmsModel.
Import ListNotations.
Open Scope Q_scope.

Definition eps : Q := 1 # 100000000.
Definition proper (e : (Q * Q) * (Q * Q)) : Prop := fst (fst e) <= snd (fst e) /\ fst (snd e) <= snd (snd e).

Lemma Qltb_lt x y : Qltb x y = true <-> x < y.
Proof.
  unfold Qltb. rewrite negb_true_iff. split.
  - intros H. apply Qnot_le_lt. intros L. apply Qle_bool_iff in L. congruence.
  - intros H. apply not_true_is_false. intros E. apply Qle_bool_iff in E. lra.
Qed.
Lemma unflip_min x y : (if Qltb y x then y else x) == Qmin x y.
Proof.
  destruct (Qltb y x) eqn:E.
  - apply Qltb_lt in E. symmetry. apply Q.min_r. lra.
  - symmetry. apply Q.min_l. apply Qnot_lt_le. intros L. apply Qltb_lt in L. congruence.
Qed.
Lemma unflip_max x y : (if Qltb y x then x else y) == Qmax x y.
Proof.
  destruct (Qltb y x) eqn:E.
  - apply Qltb_lt in E. symmetry. apply Q.max_l. lra.
  - symmetry. apply Q.max_r. apply Qnot_lt_le. intros L. apply Qltb_lt in L. congruence.
Qed.

Lemma common_nonneg i j : 0 <= common i j.
Proof. apply Q.le_max_l. Qed.
Lemma common_le i j : fst i <= snd i -> common i j <= snd i - fst i.
Proof.
  intros H. unfold common. apply Q.max_lub; [lra|]. pose proof (Q.le_min_l (snd i) (snd j)). pose proof (Q.le_max_l (fst i) (fst j)). lra.
Qed.
Lemma inter_nonneg e f : 0 <= inter e f.
Proof. apply Qmult_le_0_compat; apply common_nonneg. Qed.
Lemma inter_le e f : proper e -> inter e f <= area e.
Proof.
  intros [P1 P2]. unfold inter, area. pose proof (common_le (fst e) (fst f) P1). pose proof (common_le (snd e) (snd f) P2).
  pose proof (common_nonneg (fst e) (fst f)). pose proof (common_nonneg (snd e) (snd f)). nra.
Qed.
Lemma area_nonneg e : proper e -> 0 <= area e.
Proof. intros [P1 P2]. unfold area. apply Qmult_le_0_compat; lra. Qed.
Lemma union_nonneg e f : proper e -> proper f -> 0 <= union e f.
Proof. intros Pe Pf. unfold union. pose proof (inter_le e f Pe). pose proof (area_nonneg f Pf). lra. Qed.

Lemma emitIOU_eq c b1 b2 : emitIOU c (if c then b1 else tryToUnflip b1) (if c then b2 else tryToUnflip b2) == inter (extent c b1) (extent c b2) / (union (extent c b1) (extent c b2) + eps).
Proof.
  destruct c; unfold emitIOU.
  - set (e := extent true b1). set (f := extent true b2).
    assert (area e == b1 3%Z * b1 2%Z) as A1 by (unfold e, extent, area; cbn [fst snd]; field).
    assert (area f == b2 3%Z * b2 2%Z) as A2 by (unfold f, extent, area; cbn [fst snd]; field).
    unfold union. rewrite A1, A2. unfold inter, common, e, f, extent. cbn [fst snd].
    rewrite !(Q.max_comm 0). fold eps.
    set (X := Qmax (Qmin (b1 0%Z + _) _ - _) 0). set (Y := Qmax (Qmin (b1 1%Z + _) _ - _) 0).
    rewrite (Qmult_comm Y X). reflexivity.
  - unfold tryToUnflip. cbn [Z.eqb Pos.eqb]. unfold union, inter, common, area, extent. cbn [fst snd]. fold eps.
    rewrite !unflip_min, !unflip_max. rewrite !(Q.max_comm 0).
    set (X := Qmax (Qmin (Qmax (b1 1%Z) _) _ - _) 0). set (Y := Qmax (Qmin (Qmax (b1 0%Z) _) _ - _) 0).
    rewrite (Qmult_comm Y X). reflexivity.
Qed.

Lemma decision th e f : proper e -> proper f -> (iou e f < th \/ (th < iou e f /\ th * (union e f + eps) <= inter e f)) ->
  forall x, x == inter e f / (union e f + eps) -> Qle_bool th x = Qltb th (iou e f).
Proof.
  intros Pe Pf H x Ex. pose proof (inter_nonneg e f) as I0. pose proof (union_nonneg e f Pe Pf) as U0.
  assert (0 < union e f + eps) as UE by (unfold eps; lra).
  destruct H as [H|[H1 H2]].
  - assert (Qltb th (iou e f) = false) as -> by (apply not_true_is_false; intros E; apply Qltb_lt in E; lra).
    apply not_true_is_false. intros E. apply Qle_bool_iff in E. rewrite Ex in E.
    assert (inter e f / (union e f + eps) <= iou e f); [|lra]. unfold iou.
    destruct (Qeq_dec (union e f) 0) as [Z0|NZ].
    + assert (inter e f == 0) as I.
      { pose proof (inter_le e f Pe). pose proof (area_nonneg f Pf). unfold union in Z0. pose proof (inter_le e f Pe).
        assert (area f == 0 \/ area f > 0) as [Af|Af] by lra.
        - assert (inter e f <= area f); [|lra].
          unfold inter, area. destruct Pf as [P1 P2].
          assert (forall i j, common i j == common j i) as CC by (intros i j; unfold common; now rewrite (Q.min_comm (snd i)), (Q.max_comm (fst i))).
          rewrite (CC (fst e)), (CC (snd e)). pose proof (common_le (fst f) (fst e) P1). pose proof (common_le (snd f) (snd e) P2).
          pose proof (common_nonneg (fst f) (fst e)). pose proof (common_nonneg (snd f) (snd e)). nra.
        - lra. }
      rewrite I, Z0. unfold Qdiv. rewrite !Qmult_0_l. lra.
    + apply Qle_shift_div_r; [assumption|]. assert (0 < union e f) as UP by lra.
      rewrite Qmult_plus_distr_r.
      assert (inter e f / union e f * union e f == inter e f) as -> by (field; lra).
      assert (0 <= inter e f / union e f) by (apply Qle_shift_div_l; [assumption|lra]).
      assert (0 <= inter e f / union e f * eps) by (apply Qmult_le_0_compat; [assumption|unfold eps; lra]). lra.
  - assert (Qltb th (iou e f) = true) as -> by now apply Qltb_lt.
    apply Qle_bool_iff. rewrite Ex. now apply Qle_shift_div_l.
Qed.

Lemma extent_proper c b : (c = true -> 0 <= b 2%Z /\ 0 <= b 3%Z) -> proper (extent c b).
Proof.
  intros H. destruct c; unfold extent, proper; cbn [fst snd].
  - destruct (H eq_refl). assert (0 <= b 3%Z / 2) by (apply Qle_shift_div_l; lra). assert (0 <= b 2%Z / 2) by (apply Qle_shift_div_l; lra).
    generalize dependent (b 3%Z / 2). generalize dependent (b 2%Z / 2). intros. split; lra.
  - split; [apply (Qle_trans _ (b 0%Z))|apply (Qle_trans _ (b 1%Z))]; first [apply Q.le_min_l|apply Q.le_max_l].
Qed.

(** ** Counting unit squares *)
Open Scope Z_scope.
Lemma filter_prod {A B} (f : A -> bool) (g : B -> bool) l m : length (filter (fun c => f (fst c) && g (snd c)) (list_prod l m)) = (length (filter f l) * length (filter g m))%nat.
Proof.
  induction l as [|a l IH]; [reflexivity|]. cbn [list_prod filter]. rewrite filter_app, app_length, IH.
  assert (length (filter (fun c => f (fst c) && g (snd c)) (map (fun y => (a, y)) m)) = if f a then length (filter g m) else O) as ->.
  { clear. induction m as [|b m IH]; cbn [map filter]; [now destruct (f a)|]. cbn [fst snd]. destruct (f a); cbn [andb].
    - destruct (g b); cbn [length]; now rewrite IH.
    - exact IH. }
  destruct (f a); cbn [length]; lia.
Qed.
Lemma count_between lo n a b : lo <= a -> b <= lo + Z.of_nat n -> Z.of_nat (length (filter (fun x => (a <=? x) && (x <? b)) (zseq lo n))) = Z.max 0 (b - a).
Proof.
  revert lo a. induction n as [|n IH]; intros lo a Ha Hb; cbn [zseq filter]; [cbn; lia|].
  destruct (Z.leb_spec a lo); cbn [andb].
  - assert (a = lo) as -> by lia. destruct (Z.ltb_spec lo b).
    + cbn [length]. assert (length (filter (fun x => (lo <=? x) && (x <? b)) (zseq (lo + 1) n)) = length (filter (fun x => (lo + 1 <=? x) && (x <? b)) (zseq (lo + 1) n))) as ->.
      { f_equal. apply filter_ext_in. intros x Hx. apply zseq_In in Hx. lia. }
      rewrite Nat2Z.inj_succ, IH by lia. lia.
    + assert (filter (fun x => (lo <=? x) && (x <? b)) (zseq (lo + 1) n) = []) as ->; [|cbn; lia].
      clear IH. assert (forall l, (forall x, In x l -> b <= x) -> filter (fun x => (lo <=? x) && (x <? b)) l = []) as G.
      { induction l as [|x l IHl]; intros Hl; [reflexivity|]. cbn [filter]. replace (x <? b) with false by (specialize (Hl x ltac:(now left)); lia). rewrite andb_false_r. apply IHl. intros; apply Hl; now right. }
      apply G. intros x Hx. apply zseq_In in Hx. lia.
  - rewrite IH by lia. lia.
Qed.
Definition inWindow (lo : Z) (n : nat) (b : Z -> Z) : Prop := forall i, 0 <= i < 4 -> lo <= b i <= lo + Z.of_nat n.
Lemma count_both lo n b1 b2 : inWindow lo n b1 -> inWindow lo n b2 ->
  countCells lo n (fun c => covers b1 c && covers b2 c) =
  Z.max 0 (Z.min (Z.max (b1 0) (b1 2)) (Z.max (b2 0) (b2 2)) - Z.max (Z.min (b1 0) (b1 2)) (Z.min (b2 0) (b2 2))) *
  Z.max 0 (Z.min (Z.max (b1 1) (b1 3)) (Z.max (b2 1) (b2 3)) - Z.max (Z.min (b1 1) (b1 3)) (Z.min (b2 1) (b2 3))).
Proof.
  intros W1 W2. unfold countCells, cells, covers.
  set (gy := fun x => (Z.max (Z.min (b1 0) (b1 2)) (Z.min (b2 0) (b2 2)) <=? x) && (x <? Z.min (Z.max (b1 0) (b1 2)) (Z.max (b2 0) (b2 2)))).
  set (gx := fun x => (Z.max (Z.min (b1 1) (b1 3)) (Z.min (b2 1) (b2 3)) <=? x) && (x <? Z.min (Z.max (b1 1) (b1 3)) (Z.max (b2 1) (b2 3)))).
  rewrite (filter_ext _ (fun c => gy (fst c) && gx (snd c))) by (intros [y x]; unfold gy, gx; cbn [fst snd]; lia).
  rewrite filter_prod, Nat2Z.inj_mul. unfold gy, gx.
  pose proof (W1 0 ltac:(lia)). pose proof (W1 1 ltac:(lia)). pose proof (W1 2 ltac:(lia)). pose proof (W1 3 ltac:(lia)).
  pose proof (W2 0 ltac:(lia)). pose proof (W2 1 ltac:(lia)). pose proof (W2 2 ltac:(lia)). pose proof (W2 3 ltac:(lia)).
  rewrite !count_between by lia. reflexivity.
Qed.
Lemma count_one lo n b : inWindow lo n b -> countCells lo n (covers b) = (Z.max (b 0) (b 2) - Z.min (b 0) (b 2)) * (Z.max (b 1) (b 3) - Z.min (b 1) (b 3)).
Proof.
  intros W. transitivity (countCells lo n (fun c => covers b c && covers b c)).
  - unfold countCells. f_equal. f_equal. apply filter_ext. intros c. now rewrite andb_diag.
  - rewrite count_both by assumption. f_equal; lia.
Qed.
Lemma count_or {A} (f g : A -> bool) l : (length (filter (fun c => f c || g c) l) + length (filter (fun c => f c && g c) l) = length (filter f l) + length (filter g l))%nat.
Proof. induction l as [|a l IH]; [reflexivity|]. cbn [filter]. destruct (f a), (g a); cbn [orb andb length]; lia. Qed.
Lemma inject_min x y : (Qmin (inject_Z x) (inject_Z y) == inject_Z (Z.min x y))%Q.
Proof.
  destruct (Z.le_ge_cases x y) as [H|H].
  - rewrite Z.min_l by assumption. apply Q.min_l. now rewrite <- Zle_Qle.
  - rewrite Z.min_r by assumption. apply Q.min_r. now rewrite <- Zle_Qle.
Qed.
Lemma inject_max x y : (Qmax (inject_Z x) (inject_Z y) == inject_Z (Z.max x y))%Q.
Proof.
  destruct (Z.le_ge_cases x y) as [H|H].
  - rewrite Z.max_r by assumption. apply Q.max_r. now rewrite <- Zle_Qle.
  - rewrite Z.max_l by assumption. apply Q.max_l. now rewrite <- Zle_Qle.
Qed.
Lemma inject_sub x y : (inject_Z x - inject_Z y == inject_Z (x - y))%Q.
Proof. unfold Qminus. rewrite <- inject_Z_opp, <- inject_Z_plus. reflexivity. Qed.
Lemma inter_cells lo n b1 b2 : inWindow lo n b1 -> inWindow lo n b2 ->
  (inter (extent false (fun i => inject_Z (b1 i))) (extent false (fun i => inject_Z (b2 i))) == inject_Z (countCells lo n (fun c => covers b1 c && covers b2 c)))%Q.
Proof.
  intros W1 W2. rewrite count_both by assumption. unfold inter, common, extent. cbn [fst snd].
  change 0%Q with (inject_Z 0). repeat first [rewrite inject_min|rewrite inject_max|rewrite inject_sub]. rewrite inject_Z_mult. reflexivity.
Qed.
Lemma union_cells lo n b1 b2 : inWindow lo n b1 -> inWindow lo n b2 ->
  (union (extent false (fun i => inject_Z (b1 i))) (extent false (fun i => inject_Z (b2 i))) == inject_Z (countCells lo n (fun c => covers b1 c || covers b2 c)))%Q.
Proof.
  intros W1 W2. unfold union. rewrite inter_cells by eassumption.
  assert (forall b, inWindow lo n b -> (area (extent false (fun i => inject_Z (b i))) == inject_Z (countCells lo n (covers b)))%Q) as A.
  { intros b W. rewrite count_one by assumption. unfold area, extent. cbn [fst snd]. repeat first [rewrite inject_min|rewrite inject_max|rewrite inject_sub]. rewrite inject_Z_mult. reflexivity. }
  rewrite !A by assumption. rewrite <- inject_Z_plus, inject_sub. pose proof (count_or (covers b1) (covers b2) (cells lo n)) as C.
  unfold countCells. replace (Z.of_nat (length (filter (covers b1) (cells lo n))) + Z.of_nat (length (filter (covers b2) (cells lo n))) - Z.of_nat (length (filter (fun c => covers b1 c && covers b2 c) (cells lo n))))
    with (Z.of_nat (length (filter (fun c => covers b1 c || covers b2 c) (cells lo n)))) by lia. reflexivity.
Qed.
