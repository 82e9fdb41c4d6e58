From Coq Require Import List ZArith Lia Bool Arith.
From Verif Require Import Util TensorSpec TensorLemmas ShapeOpsCopies LoopModel LoopProofs CumSumProofs GatherLoopSpec GatherLoopModel GatherLoopProofs CopyLoopProofs ArgLoopModel.
Import ListNotations.
Open Scope Z_scope.

(** The index without the reduced dimensions, or with 0 there. *)
Fixpoint reduceIdx (red : list bool) (keep : bool) (idx : list Z) : list Z :=
  match red, idx with
  | r :: red', i :: idx' => (if r then (if keep then [0] else []) else [i]) ++ reduceIdx red' keep idx'
  | _, _ => []
  end.

Lemma mapping_ge red keep : forall i o p, In p (reductionMapping red keep i o) -> (o <= fst p)%nat.
Proof.
  induction red as [|[|] red IH]; intros i o p H; cbn [reductionMapping] in H; [destruct H| |].
  - apply IH in H. destruct keep; lia.
  - destruct H as [<-|H]; [cbn; lia|]. apply IH in H. lia.
Qed.
Lemma mapping_none red keep i o j : (j < o)%nat -> find (fun p => (fst p =? j)%nat) (reductionMapping red keep i o) = None.
Proof.
  intros H. destruct (find _ _) as [p|] eqn:E; auto. apply find_some in E as [E1 E2]. apply mapping_ge in E1. apply Nat.eqb_eq in E2. lia.
Qed.
Lemma outLoopIVs_ok red keep : forall o pre idx, length red = length idx ->
  map (fun j => match find (fun p => (fst p =? j)%nat) (reductionMapping red keep (length pre) o) with Some p => nth (snd p) (pre ++ idx) 0 | None => 0 end)
      (seq o (length (reduceIdx red keep idx))) = reduceIdx red keep idx.
Proof.
  induction red as [|r red IH]; intros o pre [|i idx] L; cbn in L; try discriminate; [reflexivity|].
  assert (N : forall o', map (fun j => match find (fun p => (fst p =? j)%nat) (reductionMapping red keep (S (length pre)) o') with Some p => nth (snd p) (pre ++ i :: idx) 0 | None => 0 end)
      (seq o' (length (reduceIdx red keep idx))) = reduceIdx red keep idx).
  { intros o'. specialize (IH o' (pre ++ [i]) idx ltac:(lia)). rewrite app_length in IH. cbn [length] in IH. rewrite Nat.add_1_r in IH. rewrite <- app_assoc in IH. exact IH. }
  cbn [reduceIdx reductionMapping]. destruct r.
  - destruct keep; [|exact (N o)]. cbn [app length seq map]. f_equal; [now rewrite mapping_none by lia|exact (N (S o))].
  - cbn [app length seq map]. f_equal.
    + cbn [find fst]. rewrite Nat.eqb_refl. cbn [snd]. now rewrite nth_middle.
    + etransitivity; [|exact (N (S o))]. apply map_ext_in. intros j Hj. apply in_seq in Hj. cbn [find fst]. destruct (Nat.eqb_spec o j); [lia|]. reflexivity.
Qed.

Lemma reduce_keep a : forall n k (idx : list Z), length idx = n -> reduceIdx (map (fun i => existsb (Nat.eqb i) [(k + a)%nat]) (seq k n)) true idx = upd a 0 idx.
Proof.
  assert (Off : forall n k b (idx : list Z), length idx = n -> (b < k)%nat -> forall keep, reduceIdx (map (fun i => existsb (Nat.eqb i) [b]) (seq k n)) keep idx = idx).
  { clear a. induction n as [|n IH]; intros k b [|i idx] L H keep; cbn in L; try discriminate; [reflexivity|]. cbn [seq map reduceIdx existsb]. destruct (Nat.eqb_spec k b); [lia|]. cbn [orb app]. f_equal. apply IH; lia. }
  induction a as [|a IH]; intros [|n] k [|i idx] L; cbn in L; try discriminate; try reflexivity; cbn [seq map reduceIdx existsb upd].
  - rewrite Nat.add_0_r, Nat.eqb_refl. cbn [orb app]. f_equal. apply Off; lia.
  - destruct (Nat.eqb_spec k (k + S a)); [lia|]. cbn [orb app]. f_equal. replace (k + S a)%nat with (S k + a)%nat by lia. apply IH. lia.
Qed.
Lemma reduce_drop a : forall n k (idx : list Z), length idx = n -> reduceIdx (map (fun i => existsb (Nat.eqb i) [(k + a)%nat]) (seq k n)) false idx = firstn a idx ++ skipn (S a) idx.
Proof.
  assert (Off : forall n k b (idx : list Z), length idx = n -> (b < k)%nat -> forall keep, reduceIdx (map (fun i => existsb (Nat.eqb i) [b]) (seq k n)) keep idx = idx).
  { clear a. induction n as [|n IH]; intros k b [|i idx] L H keep; cbn in L; try discriminate; [reflexivity|]. cbn [seq map reduceIdx existsb]. destruct (Nat.eqb_spec k b); [lia|]. cbn [orb app]. f_equal. apply IH; lia. }
  induction a as [|a IH]; intros [|n] k [|i idx] L; cbn in L; try discriminate; try reflexivity; cbn [seq map reduceIdx existsb firstn skipn].
  - rewrite Nat.add_0_r, Nat.eqb_refl. cbn [orb app]. apply Off; lia.
  - destruct (Nat.eqb_spec k (k + S a)); [lia|]. cbn [orb app]. f_equal. replace (k + S a)%nat with (S k + a)%nat by lia. apply IH. lia.
Qed.

(** Where the result for the slice through [i] is. *)
Definition slot (a : nat) (keep : bool) (i : list Z) : list Z := if keep then upd a 0 i else firstn a i ++ skipn (S a) i.

Lemma slot_ok s a keep i : (a < length s)%nat -> valid s i -> outLoopIVs (getReductionMapping (length s) [a] keep) (length (argShape s a keep)) i = slot a keep i.
Proof.
  intros Ha V. apply valid_length in V. set (red := map (fun i => existsb (Nat.eqb i) [a]) (seq 0 (length s))).
  assert (E : reduceIdx red keep i = slot a keep i).
  { unfold slot, red. destruct keep; [apply (reduce_keep a (length s) 0 i)|apply (reduce_drop a (length s) 0 i)]; lia. }
  assert (L : length (argShape s a keep) = length (reduceIdx red keep i)).
  { rewrite E. unfold argShape, slot. rewrite map_length, seq_length. destruct keep; [now rewrite upd_length|]. rewrite app_length, firstn_length, skipn_length. lia. }
  unfold outLoopIVs, getReductionMapping. fold red. rewrite L, <- E. exact (outLoopIVs_ok red keep 0 [] i ltac:(unfold red; rewrite map_length, seq_length; lia)).
Qed.
Lemma nth_firstn_lt {A} (l : list A) n r d : (r < n)%nat -> nth r (firstn n l) d = nth r l d.
Proof. revert l r; induction n as [|n IH]; intros l r H; [lia|]. destruct l as [|x l]; [now destruct r|]. destruct r; cbn; auto. apply IH. lia. Qed.
Lemma nth_skipn_add {A} (l : list A) n r d : nth r (skipn n l) d = nth (n + r) l d.
Proof. revert l; induction n as [|n IH]; intros l; cbn [skipn Nat.add]; auto. destruct l as [|x l]; [now destruct r|]. cbn. apply IH. Qed.
Lemma drop_nth (l : list Z) a r : (a <= length l)%nat -> nth r (firstn a l ++ skipn (S a) l) 0 = if (r <? a)%nat then nth r l 0 else nth (r + 1) l 0.
Proof.
  intros H. destruct (Nat.ltb_spec r a).
  - rewrite app_nth1 by (rewrite firstn_length; lia). now apply nth_firstn_lt.
  - rewrite app_nth2 by (rewrite firstn_length; lia). rewrite firstn_length, nth_skipn_add. f_equal. lia.
Qed.
Lemma slot_valid s a keep i : (a < length s)%nat -> valid s i -> valid (argShape s a keep) (slot a keep i).
Proof.
  intros Ha V. pose proof (valid_length _ _ V) as L. unfold argShape, slot. destruct keep.
  - apply valid_nth_iff; [rewrite map_length, seq_length, upd_length; lia|]. intros r Hr. rewrite map_length, seq_length in Hr. rewrite nth_map_seq by lia.
    destruct (Nat.eqb_spec r a) as [->|N]; [rewrite nth_upd_same by lia; lia|]. rewrite nth_upd_other by auto. now apply nth_valid.
  - apply valid_nth_iff; [rewrite map_length, seq_length, app_length, firstn_length, skipn_length; lia|]. intros r Hr. rewrite map_length, seq_length in Hr. rewrite nth_map_seq, drop_nth by lia.
    destruct (Nat.ltb_spec r a); apply nth_valid; auto; lia.
Qed.
Lemma app_inj_len {A} (l1 l2 r1 r2 : list A) : length l1 = length l2 -> l1 ++ r1 = l2 ++ r2 -> l1 = l2 /\ r1 = r2.
Proof.
  revert l2; induction l1 as [|x l1 IH]; intros [|y l2] L E; cbn in L, E; try discriminate; auto. injection E as -> E. injection L as L. destruct (IH l2 L E); subst; auto.
Qed.
(** Two indices share a slot when they differ at most in the axis. *)
Lemma slot_eq s a keep i j : (a < length s)%nat -> valid s i -> valid s j -> (slot a keep i = slot a keep j <-> upd a 0 i = upd a 0 j).
Proof.
  intros Ha Vi Vj. apply valid_length in Vi, Vj. unfold slot. destruct keep; [tauto|].
  assert (U : forall l : list Z, length l = length s -> upd a 0 l = firstn a l ++ 0 :: skipn (S a) l).
  { clear -Ha. intros l L. apply nth_ext with (d := 0) (d' := 0); [rewrite upd_length, app_length, firstn_length; cbn [length]; rewrite skipn_length; lia|]. intros r Hr. rewrite upd_length in Hr.
    destruct (Nat.lt_trichotomy r a) as [H|[->|H]].
    - rewrite nth_upd_other by lia. rewrite app_nth1 by (rewrite firstn_length; lia). now rewrite nth_firstn_lt.
    - rewrite nth_upd_same by lia. rewrite app_nth2; rewrite firstn_length; [|lia]. replace (a - Nat.min a (length l))%nat with O by lia. reflexivity.
    - rewrite nth_upd_other by lia. rewrite app_nth2; rewrite firstn_length; [|lia]. replace (r - Nat.min a (length l))%nat with (S (r - S a)) by lia. cbn [nth]. rewrite nth_skipn_add. f_equal. lia. }
  rewrite !U by lia. split; intros E.
  - apply app_inj_len in E as [E1 E2]; [|rewrite !firstn_length; lia]. congruence.
  - apply app_inj_len in E as [E1 E2]; [|rewrite !firstn_length; lia]. congruence.
Qed.

(** The indices of a slice, in order. *)
Lemma filter_map_cons (p : list Z -> bool) x (l : list (list Z)) : filter p (map (cons x) l) = map (cons x) (filter (fun r => p (x :: r)) l).
Proof. induction l as [|r l IH]; cbn [map filter]; auto. destruct (p (x :: r)); cbn [map]; now rewrite IH. Qed.
Lemma filter_flat {A B} (p : B -> bool) (f : A -> list B) l : filter p (flat_map f l) = flat_map (fun x => filter p (f x)) l.
Proof. induction l as [|x l IH]; cbn [flat_map]; auto. now rewrite filter_app, IH. Qed.
Lemma filter_false {A} (p : A -> bool) l : (forall x, In x l -> p x = false) -> filter p l = [].
Proof. induction l as [|x l IH]; intros H; cbn [filter]; auto. rewrite (H x) by now left. apply IH. intros; apply H; now right. Qed.
Lemma flat_single {B} (f : Z -> list B) n : forall p k, p <= k < p + Z.of_nat n -> (forall x, x <> k -> f x = []) -> flat_map f (zseq p n) = f k.
Proof.
  induction n as [|n IH]; intros p k K H; [lia|]. cbn [zseq flat_map]. destruct (Z.eq_dec p k) as [->|N].
  - rewrite <- (app_nil_r (f k)) at 2. f_equal. clear IH K. assert (G : forall m q, k < q -> flat_map f (zseq q m) = []).
    { induction m as [|m IHm]; intros q Q; cbn [zseq flat_map]; auto. rewrite H by lia. apply IHm. lia. }
    apply G. lia.
  - rewrite H by auto. apply IH; auto. lia.
Qed.
Lemma filter_same s : forall i, valid s i -> filter (ieqb i) (indices s) = [i].
Proof.
  induction s as [|d s IH]; intros i V; [inversion V; reflexivity|]. destruct i as [|k i]; [inversion V|]. apply valid_cons in V as [K V]. cbn [indices].
  rewrite filter_flat. unfold zrange. rewrite (flat_single _ _ 0 k) by (try lia; intros x X; rewrite filter_map_cons; cbn [ieqb]; replace (k =? x) with false by (symmetry; apply Z.eqb_neq; auto); cbn [andb]; now rewrite filter_false).
  rewrite filter_map_cons. cbn [ieqb]. rewrite Z.eqb_refl. cbn [andb]. rewrite (filter_ext _ (ieqb i)) by reflexivity. now rewrite IH.
Qed.
Lemma slice_order s : forall a i, (a < length s)%nat -> valid s i ->
  filter (fun j => ieqb (upd a 0 j) (upd a 0 i)) (indices s) = map (fun x => upd a x i) (zrange (nth a s 0)).
Proof.
  induction s as [|d s IH]; intros a i Ha V; [cbn in Ha; lia|]. destruct i as [|k i]; [inversion V|]. apply valid_cons in V as [K V]. cbn [indices]. rewrite filter_flat. destruct a as [|a]; cbn [upd nth].
  - generalize (zrange d). induction l as [|x l IHl]; cbn [flat_map map]; auto. rewrite IHl, filter_map_cons. cbn [upd ieqb]. cbn [Z.eqb andb].
    assert (C : forall r, ieqb r i = ieqb i r).
    { intros r. destruct (ieqb r i) eqn:E, (ieqb i r) eqn:E'; auto; [apply ieqb_eq in E; subst; rewrite ieqb_refl in E'; discriminate|apply ieqb_eq in E'; subst; rewrite ieqb_refl in E; discriminate]. }
    rewrite (filter_ext _ (ieqb i) C), filter_same by auto. reflexivity.
  - cbn [length] in Ha. unfold zrange at 1. rewrite (flat_single _ _ 0 k) by (try lia; intros x X; rewrite filter_map_cons; cbn [upd ieqb]; replace (x =? k) with false by (symmetry; apply Z.eqb_neq; auto); cbn [andb]; now rewrite filter_false).
    rewrite filter_map_cons. cbn [upd ieqb]. rewrite Z.eqb_refl. cbn [andb]. rewrite IH by (auto; lia). now rewrite map_map.
Qed.

Section Arg.
Context {T : Type} (key : T -> Z) (kind : argKind) (a : nat) (keep : bool) (data : mem T) (dv : list Z -> T).
Notation s := (mShape data).
Notation d := (nth a (mShape data) 0).
Hypothesis Ha : (a < length s)%nat.
Hypothesis HD : forall i, valid s i -> mAt data i = Some (dv i).
Notation less := (fun x y => key x <? key y).
Notation cond := (getCondition less kind).

Definition argStep (i : list Z) (cur q : Z) : Z := let c := if cur <? 0 then 0 else cur in if cond (dv (upd a q i)) (dv (upd a c i)) then q else c.
Definition argBody (i : list Z) (res : mem Z) : option (mem Z) :=
    let o := outLoopIVs (getReductionMapping (length s) [a] keep) (length (argShape s a keep)) i in
    next <- load data i ;;
    idx <- load res o ;;
    let idx := if idx <? 0 then 0 else idx in
    dstVal <- load data (map (fun k => if (k =? a)%nat then idx else nth k i 0) (seq 0 (length s))) ;;
    store res o (if cond next dstVal then nth a i 0 else idx).

Lemma upd_self (i : list Z) : (a < length i)%nat -> upd a (nth a i 0) i = i.
Proof.
  intros L. apply nth_ext with (d := 0) (d' := 0); [now rewrite upd_length|]. intros r Hr. destruct (Nat.eq_dec r a) as [->|N]; [apply nth_upd_same; lia|apply nth_upd_other; auto].
Qed.
Lemma argLoop_inv l : (forall i, In i l -> valid s i) -> forall m, mShape m = argShape s a keep ->
  (forall i, valid s i -> exists v, mAt m (slot a keep i) = Some v /\ -1 <= v < d) ->
  exists m', foldM argBody l m = Some m' /\ mShape m' = argShape s a keep /\
    forall i v, valid s i -> mAt m (slot a keep i) = Some v -> mAt m' (slot a keep i) = Some (fold_left (argStep i) (map (fun j => nth a j 0) (filter (fun j => ieqb (upd a 0 j) (upd a 0 i)) l)) v).
Proof.
  induction l as [|i l IH]; intros Hl m Sm Hm; cbn [foldM].
  - exists m. split; auto.
  - assert (V : valid s i) by (apply Hl; now left). pose proof (valid_length _ _ V) as LV. pose proof (nth_valid _ _ a V Ha) as Bi.
    destruct (Hm i V) as (v & Ev & Bv). unfold argBody at 1. rewrite (slot_ok s a keep i Ha V). cbn zeta. rewrite (load_ok data), HD by auto. cbn [obind].
    assert (Vs : valid (mShape m) (slot a keep i)) by (rewrite Sm; now apply slot_valid). rewrite (load_ok m), Ev by auto. cbn [obind].
    set (c := if v <? 0 then 0 else v). assert (Bc : 0 <= c < d) by (unfold c; destruct (Z.ltb_spec v 0); lia).
    rewrite map_upd_seq by lia. assert (Vu : valid s (upd a c i)) by now apply valid_upd. rewrite load_ok, HD by auto. cbn [obind]. rewrite store_ok by auto. cbn [obind].
    set (w := if cond (dv i) (dv (upd a c i)) then nth a i 0 else c). assert (Bw : -1 <= w < d) by (unfold w; destruct (cond _ _); lia).
    assert (Ew : argStep i v (nth a i 0) = w) by (unfold argStep; rewrite upd_self by lia; reflexivity).
    destruct (IH (fun j Hj => Hl j (or_intror Hj)) (Mem (mShape m) (fun j => if ieqb (slot a keep i) j then Some w else mAt m j))) as (m' & E & S' & R).
    { exact Sm. }
    { intros j Vj. cbn [mAt]. destruct (ieqb _ _); [exists w; auto|]. now apply Hm. }
    exists m'. split; [exact E|]. split; [exact S'|]. intros j vj Vj Ej. cbn [filter].
    destruct (ieqb (upd a 0 i) (upd a 0 j)) eqn:EQ.
    + apply ieqb_eq in EQ. assert (ES : slot a keep i = slot a keep j) by (apply (slot_eq s); auto). cbn [map fold_left]. apply R; auto. cbn [mAt]. rewrite ES, ieqb_refl. f_equal.
      rewrite <- Ew. assert (vj = v) by congruence. subst vj. unfold argStep.
      assert (UQ : forall q, upd a q i = upd a q j).
      { intros q. pose proof (valid_length _ _ Vj). apply nth_ext with (d := 0) (d' := 0); [rewrite !upd_length; lia|]. intros r Hr. rewrite upd_length in Hr. destruct (Nat.eq_dec r a) as [->|N]; [rewrite !nth_upd_same by lia; auto|].
        apply (f_equal (fun l => nth r l 0)) in EQ. rewrite !nth_upd_other in EQ by auto. rewrite !nth_upd_other by auto. exact EQ. }
      cbn zeta. now rewrite !UQ.
    + apply R; auto. cbn [mAt]. rewrite ieqb_neq; auto. intros ES. apply (slot_eq s) in ES; auto. rewrite ES, ieqb_refl in EQ. discriminate.
Qed.

(** Folding the step over all positions finds the first best one. *)
Lemma argStep_fold i n : (0 < n)%nat -> let p := fold_left (argStep i) (zseq 0 n) (-1) in let k q := match kind with ArgMin => key (dv (upd a q i)) | ArgMax => - key (dv (upd a q i)) end in
  0 <= p < Z.of_nat n /\ (forall q, 0 <= q < Z.of_nat n -> k p <= k q) /\ (forall q, 0 <= q < p -> k p < k q).
Proof.
  intros Hn p k.
  assert (C : forall q c, cond (dv (upd a q i)) (dv (upd a c i)) = (k q <? k c)).
  { intros q c. unfold k, getCondition. destruct kind; auto. destruct (Z.ltb_spec (key (dv (upd a c i))) (key (dv (upd a q i)))), (Z.ltb_spec (- key (dv (upd a q i))) (- key (dv (upd a c i)))); auto; lia. }
  subst p. induction n as [|n IH]; [lia|]. replace (zseq 0 (S n)) with (zseq 0 n ++ [Z.of_nat n]) by (replace (S n) with (n + 1)%nat by lia; rewrite zseq_app; cbn; f_equal).
  rewrite fold_left_app. cbn [fold_left]. destruct n as [|n].
  - cbn [zseq fold_left]. unfold argStep. change (Z.of_nat 0) with 0. change (-1 <? 0) with true. cbn iota zeta. rewrite C, Z.ltb_irrefl. change (Z.of_nat 1) with 1. split; [lia|]. split; intros q Hq.
    + replace q with 0 by lia. lia.
    + lia.
  - specialize (IH ltac:(lia)). set (p := fold_left (argStep i) (zseq 0 (S n)) (-1)) in *. destruct IH as (B & L & F). unfold argStep. destruct (Z.ltb_spec p 0); [lia|]. cbn zeta. rewrite C.
    destruct (Z.ltb_spec (k (Z.of_nat (S n))) (k p)) as [H1|H1].
    + split; [lia|]. split; intros q Hq.
      * destruct (Z.eq_dec q (Z.of_nat (S n))) as [->|]; [lia|]. specialize (L q ltac:(lia)). lia.
      * specialize (L q ltac:(lia)). lia.
    + split; [lia|]. split; intros q Hq.
      * destruct (Z.eq_dec q (Z.of_nat (S n))) as [->|]; [lia|]. apply L. lia.
      * apply F. lia.
Qed.

Lemma argLoop_ok axis last : names_axis (length s) a axis -> 
  exists out, argLoop less kind last axis keep data = Some out /\ mShape out = argShape s a keep /\
    forall i, valid s i -> exists p, mAt out (slot a keep i) = Some p /\
      let k q := match kind with ArgMin => key (dv (upd a q i)) | ArgMax => - key (dv (upd a q i)) end in
      0 <= p < d /\ (forall q, 0 <= q < d -> k p <= k q) /\ (forall q, 0 <= q < p -> k p < k q).
Proof.
  intros HA. unfold argLoop. rewrite (normalAxis_ok _ _ _ HA).
  destruct (iterate_fill (argShape s a keep) (fun _ => Some (-1)) (alloc (argShape s a keep))) as (m & E & Sm & A); auto; [intros; eexists; reflexivity|].
  cbn [obind] in E. rewrite E. cbn [obind]. destruct (argLoop_inv (indices s) (fun i H => proj1 (indices_In s i) H) m Sm) as (out & E1 & S1 & R).
  { intros i V. exists (-1). split; [apply A; now apply slot_valid|]. pose proof (nth_valid _ _ a V Ha). lia. }
  exists out. split; [exact E1|]. split; [exact S1|]. intros i V. pose proof (nth_valid _ _ a V Ha) as B.
  exists (fold_left (argStep i) (zseq 0 (Z.to_nat d)) (-1)). split.
  - rewrite (R i (-1) V) by (apply A; now apply slot_valid). rewrite slice_order, map_map by auto. do 2 f_equal.
    transitivity (map (fun x : Z => x) (zrange d)); [|now rewrite map_id]. apply map_ext. intros x. apply nth_upd. apply valid_length in V. lia.
  - pose proof (argStep_fold i (Z.to_nat d) ltac:(lia)) as G. cbn zeta in G. rewrite Z2Nat.id in G by lia. exact G.
Qed.
End Arg.
