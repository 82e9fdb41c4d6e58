(** Proofs about NonMaxSuppression. *)
From Coq Require Import List ZArith Bool QArith Qminmax Lia Lqa Permutation.
From Verif Require Import Util NmsSpec NmsModel.
Import ListNotations.
Open Scope Z_scope.

(** ** The greedy selection *)
Section Greedy.
Variables (el : Z -> bool) (ov : Z -> Z -> bool).
Definition eligibleIn (l : list Z) : Z := Z.of_nat (length (filter el l)).
(** Two limits that the eligible boxes cannot exceed give the same selection. *)
Lemma greedy_limit m m' l : forall kept, Z.of_nat (length kept) + eligibleIn l <= m -> Z.of_nat (length kept) + eligibleIn l <= m' ->
  greedy el ov m kept l = greedy el ov m' kept l.
Proof.
  induction l as [|s l IH]; intros kept H H'; [reflexivity|]. cbn [greedy]. unfold eligibleIn in *. cbn [filter] in *.
  destruct (el s); cbn [andb length] in *.
  - replace (Z.of_nat (length kept) <? m) with true by lia. replace (Z.of_nat (length kept) <? m') with true by lia. cbn [andb].
    destruct (negb (existsb (fun k => ov k s) kept)); apply IH; rewrite ?app_length; cbn [length]; lia.
  - now apply IH.
Qed.
Lemma greedy_ext ov' m l : (forall k s, In s l -> ov k s = ov' k s) -> forall kept, greedy el ov m kept l = greedy el ov' m kept l.
Proof.
  induction l as [|s l IH]; intros E kept; [reflexivity|]. cbn [greedy].
  assert (existsb (fun k => ov k s) kept = existsb (fun k => ov' k s) kept) as ->.
  { clear IH. induction kept as [|k kept IHk]; [reflexivity|]. cbn [existsb]. rewrite IHk, (E k s) by now left. reflexivity. }
  destruct (el s && (Z.of_nat (length kept) <? m) && negb (existsb (fun k => ov' k s) kept)); apply IH; intros; apply E; now right.
Qed.
End Greedy.
Lemma existsb_ext' {A} (f g : A -> bool) l : (forall x, In x l -> f x = g x) -> existsb f l = existsb g l.
Proof. induction l as [|x l IH]; intros E; [reflexivity|]. cbn. rewrite IH, E; [reflexivity|now left|intros; apply E; now right]. Qed.
Lemma greedy_ext2 el el' ov ov' m l : forall kept, (forall s, In s l -> el s = el' s) -> (forall k s, In k (kept ++ l) -> In s l -> ov k s = ov' k s) ->
  greedy el ov m kept l = greedy el' ov' m kept l.
Proof.
  induction l as [|s l IH]; intros kept E1 E2; [reflexivity|]. cbn [greedy]. rewrite (E1 s) by now left.
  rewrite (existsb_ext' (fun k => ov k s) (fun k => ov' k s) kept) by (intros; apply E2; [apply in_or_app; now left|now left]).
  destruct (_ && _); apply IH; try (intros; apply E1; now right).
  - intros k s' Hk Hs. apply E2; [|now right]. rewrite <- app_assoc in Hk. exact Hk.
  - intros k s' Hk Hs. apply E2; [|now right]. apply in_app_or in Hk. apply in_or_app. destruct Hk; [now left|]. right. now right.
Qed.
Lemma greedy_length el ov m l : forall kept, Z.of_nat (length kept) <= Z.max m (Z.of_nat (length kept)) ->
  Z.of_nat (length (greedy el ov m kept l)) <= Z.max m (Z.of_nat (length kept)).
Proof.
  induction l as [|s l IH]; intros kept H; [cbn; lia|]. cbn [greedy]. destruct (el s); cbn [andb]; [|apply IH; lia].
  destruct (Z.ltb_spec (Z.of_nat (length kept)) m); cbn [andb]; [|apply IH; lia].
  destruct (negb _); [|apply IH; lia]. specialize (IH (kept ++ [s])). rewrite app_length in IH. cbn [length] in IH. lia.
Qed.

(** ** Counting the scores *)
Lemma count_eq {A} (f : A -> bool) l : forall n, fold_left (fun t s => if f s then t + 1 else t) l n = n + Z.of_nat (length (filter f l)).
Proof. induction l as [|s l IH]; intros n; cbn [fold_left filter]; [cbn; lia|]. rewrite IH. destruct (f s); cbn [length]; lia. Qed.
Lemma fold_max_ge {A} (f : A -> Z) l : forall m, m <= fold_left (fun m c => Z.max (f c) m) l m /\ (forall c, In c l -> f c <= fold_left (fun m c => Z.max (f c) m) l m).
Proof.
  induction l as [|a l IH]; intros m; cbn [fold_left]; [split; [lia|intros c []]|]. destruct (IH (Z.max (f a) m)) as [I1 I2]. split; [lia|].
  intros c [-> |Hc]; [lia|]. now apply I2.
Qed.
Lemma fold_max_mono {A} (f : A -> Z) l m m' : m <= m' -> fold_left (fun m c => Z.max (f c) m) l m <= fold_left (fun m c => Z.max (f c) m) l m'.
Proof. revert m m'. induction l as [|a l IH]; intros m m' H; [assumption|]. cbn [fold_left]. apply IH. lia. Qed.
Lemma effectiveMax_ge p th b c : 0 <= b < nb p -> 0 <= c < nc p -> countAbove p th b c <= effectiveMax p th.
Proof.
  intros Hb Hc. unfold effectiveMax.
  assert (forall l m, m <= fold_left (fun m b => fold_left (fun m c => Z.max (countAbove p th b c) m) (zrange (nc p)) m) l m) as G0.
  { induction l as [|b' l IH]; intros m; cbn [fold_left]; [lia|]. etransitivity; [|apply IH]. apply fold_max_ge. }
  assert (forall l m, In b l -> countAbove p th b c <= fold_left (fun m b => fold_left (fun m c => Z.max (countAbove p th b c) m) (zrange (nc p)) m) l m) as G.
  { induction l as [|b' l IH]; intros m; cbn [fold_left]; [intros []|]. intros [-> |Hi].
    - etransitivity; [|apply G0]. apply (proj2 (fold_max_ge (countAbove p th b) (zrange (nc p)) m)). now apply zrange_In.
    - now apply IH. }
  apply G. now apply zrange_In.
Qed.
Lemma effectiveMax_nonneg p th : 0 <= effectiveMax p th.
Proof.
  unfold effectiveMax. generalize (zrange (nb p)). assert (forall l m, 0 <= m -> 0 <= fold_left (fun m b => fold_left (fun m c => Z.max (countAbove p th b c) m) (zrange (nc p)) m) l m) as G0.
  { induction l as [|b' l IH]; intros m Hm; cbn [fold_left]; [lia|]. apply IH. etransitivity; [exact Hm|]. apply fold_max_ge. }
  intros l. apply G0. lia.
Qed.
Lemma filter_perm_length {A} (f : A -> bool) l l' : Permutation l l' -> length (filter f l) = length (filter f l').
Proof. induction 1; cbn [filter]; try reflexivity; try congruence; repeat (destruct (f _)); cbn [length]; lia. Qed.
Lemma filter_le {A} (f : A -> bool) l : (length (filter f l) <= length l)%nat.
Proof. induction l as [|a l IH]; cbn; [lia|]. destruct (f a); cbn; lia. Qed.

(** ** The removal flags *)
Lemma remove_eq p bx th sel r : forall o, removeOverlapping p bx th sel r o = (r o || ((0 <=? o) && (o <? ns p) && Qle_bool th (emitIOU (center p) (bx sel) (bx o)))).
Proof.
  unfold removeOverlapping. set (ov := fun o => Qle_bool th (emitIOU (center p) (bx sel) (bx o))).
  assert (forall l r o, NoDup l -> fold_left (fun (r : Z -> bool) o => if r o then r else if ov o then (fun i => if i =? o then true else r i) else r) l r o = (r o || (existsb (Z.eqb o) l && ov o))) as G.
  { induction l as [|a l IH]; intros r0 o ND; cbn [fold_left existsb]; [now rewrite orb_false_r|]. inversion ND as [|? ? NI ND']; subst.
    rewrite IH by assumption. destruct (Z.eqb_spec o a) as [-> |Ho]; cbn [orb].
    - assert (existsb (Z.eqb a) l = false) as -> by (apply not_true_is_false; intros E; apply existsb_exists in E; destruct E as (x & Hx & Ex); apply Z.eqb_eq in Ex; subst; contradiction).
      cbn [orb andb]. destruct (r0 a) eqn:Ra; [now rewrite Ra|]. destruct (ov a); [now rewrite Z.eqb_refl|]. now rewrite Ra.
    - destruct (r0 a); [reflexivity|]. destruct (ov a); [|reflexivity]. destruct (Z.eqb_spec o a); [contradiction|]. reflexivity. }
  intros o. rewrite G by apply NoDup_zseq. f_equal. unfold ov. rewrite <- andb_assoc.
  assert (existsb (Z.eqb o) (zrange (ns p)) = (0 <=? o) && (o <? ns p)) as ->; [|now rewrite andb_assoc].
  destruct ((0 <=? o) && (o <? ns p)) eqn:E.
  - apply existsb_exists. exists o. rewrite zrange_In, Z.eqb_refl. split; [lia|reflexivity].
  - apply not_true_is_false. intros X. apply existsb_exists in X. destruct X as (x & Hx & Ex). apply Z.eqb_eq in Ex. subst. apply zrange_In in Hx. lia.
Qed.

(** ** One class, then all *)
Definition rowsOf (st : nmsState) : list (Z * Z * Z) := map (rows st) (zrange (used st)).
Lemma rowsOf_push st row : 0 <= used st -> forall k r, rowsOf {| rows := fun i => if i =? used st then row else rows st i; used := used st + 1; kept := k; removed := r |} = rowsOf st ++ [row].
Proof.
  intros H k r. unfold rowsOf. cbn [rows used]. unfold zrange. replace (Z.to_nat (used st + 1)) with (Z.to_nat (used st) + 1)%nat by lia.
  rewrite zseq_app, map_app. cbn [zseq map]. rewrite Z.add_0_l, Z2Nat.id, Z.eqb_refl by assumption. f_equal.
  apply map_ext_in. intros a Ha. apply zseq_In in Ha. destruct (Z.eqb_spec a (used st)); [lia|reflexivity].
Qed.
Section Class.
Variables (p : nmsIn) (bx : Z -> Z -> Z -> Q) (sTH iTH : Q) (MOPC size b c : Z).
Let el s := Qltb sTH (scores p b c s).
Let ov k s := Qle_bool iTH (emitIOU (center p) (bx b k) (bx b s)).
Lemma class_ok base l : forall ks st, (forall s, In s l -> 0 <= s < ns p) ->
  0 <= used st -> rowsOf st = base ++ map (fun s => (b, c, s)) ks -> kept st = Z.of_nat (length ks) ->
  (forall o, 0 <= o < ns p -> removed st o = existsb (fun k => ov k o) ks) ->
  Z.of_nat (length base) + MOPC <= size ->
  exists st', foldM (fun s st => visit p bx sTH iTH MOPC size b c s st) l st = Some st' /\ 0 <= used st' /\ rowsOf st' = base ++ map (fun s => (b, c, s)) (greedy el ov MOPC ks l).
Proof.
  induction l as [|s l IH]; intros ks st Hl Hu Hr Hk Hrm Hs; cbn [foldM greedy].
  - exists st. auto.
  - assert (0 <= s < ns p) as Hs' by (apply Hl; now left).
    unfold visit at 1. replace ((0 <=? s) && (s <? ns p)) with true by lia. cbn [negb].
    fold (el s). rewrite Hk, (Hrm s Hs'). destruct (el s && (Z.of_nat (length ks) <? MOPC) && negb (existsb (fun k => ov k s) ks)) eqn:C.
    + apply andb_true_iff in C. destruct C as [C _]. apply andb_true_iff in C. destruct C as [_ C]. apply Z.ltb_lt in C.
      assert (used st = Z.of_nat (length base + length ks)) as EU.
      { apply (f_equal (@length _)) in Hr. unfold rowsOf in Hr. rewrite map_length, zrange_length, app_length, map_length in Hr. lia. }
      replace ((0 <=? used st) && (used st <? size)) with true by lia. cbn [obind].
      apply IH; cbn [used kept removed].
      * intros; apply Hl; now right.
      * lia.
      * rewrite rowsOf_push by assumption. rewrite Hr, map_app, app_assoc. reflexivity.
      * rewrite app_length. cbn. lia.
      * intros o Ho. rewrite remove_eq, Hrm by assumption. rewrite existsb_app. cbn [existsb]. rewrite orb_false_r. unfold ov. replace ((0 <=? o) && (o <? ns p)) with true by lia. reflexivity.
      * assumption.
    + cbn [obind]. apply IH; try assumption. intros; apply Hl; now right.
Qed.
End Class.

Lemma nms_rows p order : 0 <= nb p -> 0 <= nc p -> 0 <= ns p -> 0 <= orZero 0 (maxOut p) ->
  (forall b c, 0 <= b < nb p -> 0 <= c < nc p -> Permutation (order b c) (zrange (ns p))) ->
  let bx := if center p then boxes p else fun b s => tryToUnflip (boxes p b s) in
  nmsLowering p order = Some (flat_map (fun b => flat_map (fun c => map (fun s => (b, c, s))
    (greedy (fun s => Qltb (orZero 0%Q (scoreTH p)) (scores p b c s)) (fun k s => Qle_bool (orZero 0%Q (iouTH p)) (emitIOU (center p) (bx b k) (bx b s))) (orZero 0 (maxOut p)) [] (order b c)))
    (zrange (nc p))) (zrange (nb p))).
Proof.
  intros HB HC HS HM HP bx. unfold nmsLowering. fold bx. set (sTH := orZero 0%Q (scoreTH p)). set (iTH := orZero 0%Q (iouTH p)). set (mx := orZero 0 (maxOut p)) in *.
  set (M := Z.min (Z.min mx (ns p)) (effectiveMax p sTH)). set (size := nb p * nc p * M).
  pose proof (effectiveMax_nonneg p sTH) as HE. assert (0 <= M) as M0 by lia.
  assert (0 <= size) as S0 by (unfold size; nia). replace (size <? 0) with false by lia.
  set (el := fun b c s => Qltb sTH (scores p b c s)). set (ov := fun b k s => Qle_bool iTH (emitIOU (center p) (bx b k) (bx b s))).
  set (sel := fun b c => map (fun s => (b, c, s)) (greedy (el b c) (ov b) mx [] (order b c))).
  assert (forall b c, 0 <= b < nb p -> 0 <= c < nc p -> greedy (el b c) (ov b) M [] (order b c) = greedy (el b c) (ov b) mx [] (order b c)) as EM.
  { intros b c Hb Hc. destruct (Z.eq_dec M mx) as [-> |Hn]; [reflexivity|].
    assert (eligibleIn (el b c) (order b c) <= Z.min (ns p) (effectiveMax p sTH)) as L.
    { unfold eligibleIn. rewrite (filter_perm_length _ _ _ (HP b c Hb Hc)). pose proof (filter_le (el b c) (zrange (ns p))) as F. rewrite zrange_length in F.
      pose proof (effectiveMax_ge p sTH b c Hb Hc) as G. unfold countAbove in G. rewrite count_eq in G. unfold el in *. lia. }
    apply greedy_limit; cbn [length]; lia. }
  assert (forall b c, 0 <= b < nb p -> 0 <= c < nc p -> Z.of_nat (length (sel b c)) <= M) as LS.
  { intros b c Hb Hc. unfold sel. rewrite map_length, <- EM by assumption. pose proof (greedy_length (el b c) (ov b) M (order b c) []) as G. cbn [length] in G. lia. }
  assert (forall b l st base k, 0 <= b < nb p -> (forall c, In c l -> 0 <= c < nc p) -> 0 <= used st -> rowsOf st = base ->
    Z.of_nat (length base) <= k -> k + Z.of_nat (length l) * M <= size ->
    exists st', foldM (fun c st => foldM (fun s st => visit p bx sTH iTH M size b c s st) (order b c) {| rows := rows st; used := used st; kept := 0; removed := fun _ => false |}) l st = Some st' /\
      0 <= used st' /\ rowsOf st' = base ++ flat_map (sel b) l) as Inner.
  { intros b l. induction l as [|c l IH]; intros st base k Hb Hl Hu Hr Hk Hsz; cbn [foldM flat_map].
    - exists st. rewrite app_nil_r. auto.
    - assert (0 <= c < nc p) as Hc by (apply Hl; now left). cbn [length] in Hsz.
      destruct (class_ok p bx sTH iTH M size b c base (order b c) [] {| rows := rows st; used := used st; kept := 0; removed := fun _ => false |}) as (st1 & E1 & U1 & R1).
      + intros s Hs. apply (Permutation_in _ (HP b c Hb Hc)) in Hs. now apply zrange_In.
      + exact Hu.
      + cbn [map]. rewrite app_nil_r. exact Hr.
      + reflexivity.
      + reflexivity.
      + nia.
      + rewrite E1. cbn [obind]. destruct (IH st1 (base ++ sel b c) (k + M)) as (st2 & E2 & U2 & R2); try assumption.
        * intros; apply Hl; now right.
        * rewrite R1. unfold sel. rewrite <- EM by assumption. reflexivity.
        * rewrite app_length. pose proof (LS b c Hb Hc). lia.
        * nia.
        * exists st2. rewrite E2. split; [reflexivity|]. split; [assumption|]. rewrite R2, <- app_assoc. reflexivity. }
  assert (forall b l, 0 <= b < nb p -> (forall c, In c l -> 0 <= c < nc p) -> Z.of_nat (length (flat_map (sel b) l)) <= Z.of_nat (length l) * M) as LF.
  { intros b l Hb. induction l as [|c l IH]; intros Hl; cbn [flat_map length]; [lia|]. rewrite app_length. pose proof (LS b c Hb ltac:(apply Hl; now left)).
    specialize (IH ltac:(intros; apply Hl; now right)). nia. }
  assert (forall l st base k, (forall b, In b l -> 0 <= b < nb p) -> 0 <= used st -> rowsOf st = base -> Z.of_nat (length base) <= k -> k + Z.of_nat (length l) * (nc p * M) <= size ->
    exists st', foldM (fun b st => foldM (fun c st => foldM (fun s st => visit p bx sTH iTH M size b c s st) (order b c) {| rows := rows st; used := used st; kept := 0; removed := fun _ => false |}) (zrange (nc p)) st) l st = Some st' /\
      rowsOf st' = base ++ flat_map (fun b => flat_map (sel b) (zrange (nc p))) l) as Outer.
  { induction l as [|b l IH]; intros st base k Hl Hu Hr Hk Hsz; cbn [foldM flat_map].
    - exists st. rewrite app_nil_r. auto.
    - assert (0 <= b < nb p) as Hb by (apply Hl; now left). cbn [length] in Hsz.
      assert (Z.of_nat (length (zrange (nc p))) = nc p) as LC by (rewrite zrange_length; lia).
      destruct (Inner b (zrange (nc p)) st base k) as (st1 & E1 & U1 & R1); try assumption.
      + intros c Hc. now apply zrange_In.
      + rewrite LC. nia.
      + rewrite E1. cbn [obind]. destruct (IH st1 (base ++ flat_map (sel b) (zrange (nc p))) (k + nc p * M)) as (st2 & E2 & R2); try assumption.
        * intros; apply Hl; now right.
        * rewrite app_length. pose proof (LF b (zrange (nc p)) Hb ltac:(intros c Hc; now apply zrange_In)) as F. rewrite LC in F. lia.
        * nia.
        * exists st2. rewrite E2. split; [reflexivity|]. rewrite R2, <- app_assoc. reflexivity. }
  destruct (Outer (zrange (nb p)) {| rows := fun _ => (-1, -1, -1); used := 0; kept := 0; removed := fun _ => false |} [] 0) as (st & E & R).
  - intros b Hb. now apply zrange_In.
  - reflexivity.
  - reflexivity.
  - cbn. lia.
  - rewrite zrange_length. unfold size. rewrite Z2Nat.id by assumption. nia.
  - rewrite E. cbn [obind]. f_equal. exact R.
Qed.

(** ** Rows of one class *)
Section Bound.
Variables (g : Z -> Z -> list Z) (M : Z) (b c : Z).
Let mine (x : Z * Z * Z) := (fst (fst x) =? b) && (snd (fst x) =? c).
Hypothesis (M0 : 0 <= M) (LG : forall b c, Z.of_nat (length (g b c)) <= M).
Lemma class_count b' c' : length (filter mine (map (fun s => (b', c', s)) (g b' c'))) = if (b' =? b) && (c' =? c) then length (g b' c') else O.
Proof. generalize (g b' c'). induction l as [|s l IH]; cbn [map filter length]; [now destruct (_ && _)|]. unfold mine at 1. cbn [fst snd]. destruct ((b' =? b) && (c' =? c)); cbn [length]; lia. Qed.
Lemma classes_count b' l : NoDup l -> Z.of_nat (length (filter mine (flat_map (fun c' => map (fun s => (b', c', s)) (g b' c')) l))) <= if (b' =? b) && existsb (Z.eqb c) l then M else 0.
Proof.
  induction l as [|c' l IH]; intros ND; [cbn; rewrite andb_false_r; lia|]. inversion ND as [|? ? NI ND']; subst. cbn [flat_map existsb]. rewrite filter_app, app_length, class_count.
  specialize (IH ND'). rewrite (Z.eqb_sym c c'). destruct (Z.eqb_spec c' c) as [-> |Hn].
  - assert (existsb (Z.eqb c) l = false) as EX by (apply not_true_is_false; intros X; apply existsb_exists in X; destruct X as (x & Hx & Ex); apply Z.eqb_eq in Ex; subst; contradiction).
    rewrite EX in IH. rewrite andb_false_r in IH. rewrite andb_true_r. cbn [orb]. rewrite andb_true_r. specialize (LG b' c). destruct (b' =? b); lia.
  - rewrite andb_false_r. cbn [orb]. lia.
Qed.
Lemma rows_bound lb lc : NoDup lb -> NoDup lc -> Z.of_nat (length (filter (fun x : Z * Z * Z => (fst (fst x) =? b) && (snd (fst x) =? c)) (flat_map (fun b' => flat_map (fun c' => map (fun s => (b', c', s)) (g b' c')) lc) lb))) <= M.
Proof.
  intros NB NC. fold mine. enough (Z.of_nat (length (filter mine (flat_map (fun b' => flat_map (fun c' => map (fun s => (b', c', s)) (g b' c')) lc) lb))) <= if existsb (Z.eqb b) lb then M else 0) by (destruct (existsb (Z.eqb b) lb); lia).
  induction lb as [|b' l IH]; [cbn; lia|]. inversion NB as [|? ? NI NB']; subst. cbn [flat_map existsb]. rewrite filter_app, app_length, Nat2Z.inj_add.
  specialize (IH NB'). pose proof (classes_count b' lc NC) as I1. rewrite (Z.eqb_sym b b'). destruct (Z.eqb_spec b' b) as [-> |Hn].
  - assert (existsb (Z.eqb b) l = false) as EX by (apply not_true_is_false; intros X; apply existsb_exists in X; destruct X as (x & Hx & Ex); apply Z.eqb_eq in Ex; subst; contradiction).
    rewrite EX in IH. cbn [orb andb] in *. destruct (existsb (Z.eqb c) lc); lia.
  - cbn [orb andb] in *. lia.
Qed.
End Bound.
