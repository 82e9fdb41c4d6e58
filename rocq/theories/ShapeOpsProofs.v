(** Proofs about Reshape and Split sizes. *)
From Coq Require Import List ZArith Bool Arith Lia Permutation Sorted.
From Verif Require Import Util TensorSpec TensorLemmas ShapeOpsModel ShapeOpsSpec.
From Verif Require ConvProofs.
Import ListNotations.
Open Scope Z_scope.

Lemma memb_In i l : memb i l = true <-> In i l.
Proof. unfold memb. rewrite existsb_exists. split; [intros (x & H & E); apply Nat.eqb_eq in E; now subst|intros H; exists i; split; [auto|apply Nat.eqb_refl]]. Qed.
Lemma memb_false i l : memb i l = false <-> ~ In i l.
Proof. rewrite <- memb_In. destruct (memb i l); split; intros; congruence. Qed.
Lemma prodZ_perm l m : Permutation l m -> prodZ l = prodZ m.
Proof. induction 1; rewrite ?prodZ_cons in *; try lia; congruence. Qed.
Lemma combine_seq_map {A} (l : list A) d : forall a, combine (seq a (length l)) l = map (fun i => (i, nth (i - a) l d)) (seq a (length l)).
Proof.
  induction l as [|x l IH]; intros a; cbn [length seq combine map]; [auto|]. rewrite Nat.sub_diag. f_equal. rewrite IH. apply map_ext_in. intros i Hi. apply in_seq in Hi.
  replace (i - a)%nat with (S (i - S a)) by lia. reflexivity.
Qed.
Lemma enum_map {A} (l : list A) d : enum l = map (fun i => (i, nth i l d)) (seq 0 (length l)).
Proof. unfold enum. rewrite (combine_seq_map l d). apply map_ext. intros i. now rewrite Nat.sub_0_r. Qed.
Lemma fold_skip {A} (P : A -> bool) (g : A -> Z) l a : fold_left (fun acc e => if P e then acc else acc * g e) l a = a * prodZ (map g (filter (fun e => negb (P e)) l)).
Proof.
  revert a. induction l as [|x l IH]; intros a; cbn [fold_left filter map]; [unfold prodZ; cbn; lia|]. rewrite IH. destruct (P x); cbn [negb map]; rewrite ?prodZ_cons; lia.
Qed.
Definition rest (n : nat) (ign : list nat) : list nat := filter (fun i => negb (memb i ign)) (seq 0 n).
Lemma rest_In n ign i : In i (rest n ign) <-> (i < n)%nat /\ ~ In i ign.
Proof. unfold rest. rewrite filter_In, in_seq, negb_true_iff, memb_false. intuition lia. Qed.
Lemma rest_NoDup n ign : NoDup (rest n ign).
Proof. apply NoDup_filter, seq_NoDup. Qed.
Lemma seq_split n ign : NoDup ign -> (forall i, In i ign -> (i < n)%nat) -> Permutation (seq 0 n) (ign ++ rest n ign).
Proof.
  intros ND H. apply NoDup_Permutation; [apply seq_NoDup| |].
  - apply ConvProofs.NoDup_app'; [auto|apply rest_NoDup|]. intros i Hi Hr. apply rest_In in Hr. tauto.
  - intros i. rewrite in_app_iff, rest_In, in_seq. destruct (in_dec Nat.eq_dec i ign) as [Hi|Hi]; [pose proof (H i Hi)|]; intuition lia.
Qed.
Lemma list_as_map (l : list Z) : l = map (fun i => nth i l 0) (seq 0 (length l)).
Proof.
  apply nth_error_ext. intros k. destruct (Nat.lt_ge_cases k (length l)).
  - rewrite nth_error_map, (nth_error_nth' _ 0%nat) by now rewrite seq_length. rewrite seq_nth by auto. cbn. now apply nth_error_nth'.
  - rewrite (proj2 (nth_error_None l k)) by lia. symmetry. apply nth_error_None. now rewrite map_length, seq_length.
Qed.
Lemma prod_split (l : list Z) ign : NoDup ign -> (forall i, In i ign -> (i < length l)%nat) ->
  prodZ l = prodZ (map (fun i => nth i l 0) ign) * prodZ (map (fun i => nth i l 0) (rest (length l) ign)).
Proof. intros ND H. rewrite (list_as_map l) at 1. rewrite (prodZ_perm _ _ (Permutation_map _ (seq_split _ _ ND H))). now rewrite map_app, prodZ_app. Qed.

(** The bijection found. *)
Lemma findBijection_spec full dimOf : forall pre dI oI dI' oI', full = pre ++ dimOf -> findBijection dimOf (length pre) dI oI = Some (dI', oI') ->
  NoDup dI -> NoDup oI -> (forall o, In o oI -> (o < length pre)%nat) -> Forall2 (fun k o => nth_error full o = Some (Some k)) dI oI ->
  NoDup dI' /\ NoDup oI' /\ Forall2 (fun k o => nth_error full o = Some (Some k)) dI' oI'.
Proof.
  induction dimOf as [|[k|] r IH]; intros pre dI oI dI' oI' E H N1 N2 HO HF; cbn [findBijection] in H.
  - injection H as <- <-. auto.
  - destruct (memb k dI) eqn:M; [discriminate|]. apply memb_false in M.
    apply (IH (pre ++ [Some k]) (k :: dI) (length pre :: oI)).
    + now rewrite <- app_assoc.
    + now rewrite app_length, Nat.add_1_r.
    + now constructor.
    + constructor; [|auto]. intros Q. apply HO in Q. lia.
    + intros o [<-|Ho]; rewrite app_length; cbn; [lia|apply HO in Ho; lia].
    + constructor; [|auto]. rewrite E, nth_error_app2, Nat.sub_diag by lia. reflexivity.
  - apply (IH (pre ++ [None]) dI oI); auto.
    + now rewrite <- app_assoc.
    + now rewrite app_length, Nat.add_1_r.
    + intros o Ho. rewrite app_length. apply HO in Ho. lia.
Qed.
Lemma ignoredDims_spec dimOf : let (dI, oI) := ignoredDims dimOf in NoDup dI /\ NoDup oI /\ Forall2 (fun k o => nth_error dimOf o = Some (Some k)) dI oI.
Proof.
  unfold ignoredDims. destruct (findBijection dimOf 0 [] []) as [[dI oI]|] eqn:E.
  - apply (findBijection_spec dimOf dimOf [] [] [] dI oI eq_refl E); try constructor. intros o [].
  - repeat constructor.
Qed.

Lemma Forall2_In_l {A B} (P : A -> B -> Prop) l m x : Forall2 P l m -> In x l -> exists y, In y m /\ P x y.
Proof. induction 1; intros []; subst; [eexists; split; [left; auto|auto]|destruct IHForall2 as (z & ? & ?); auto; exists z; split; [right; auto|auto]]. Qed.
Lemma Forall2_In_r {A B} (P : A -> B -> Prop) l m y : Forall2 P l m -> In y m -> exists x, In x l /\ P x y.
Proof. induction 1; intros []; subst; [eexists; split; [left; auto|auto]|destruct IHForall2 as (z & ? & ?); auto; exists z; split; [right; auto|auto]]. Qed.

Lemma reshape_run_ok dimOf data sh out : Forall (fun d => 1 <= d) data -> legal_target data sh -> dims_equal dimOf data sh -> reshapes_to data sh out ->
  reshapeRun dimOf data sh = Some out.
Proof.
  intros HP [L1 L2] HE (R1 & R2 & R3). unfold reshapeRun, reshapeDims. destruct sh as [|s0 sh0] eqn:Esh; [destruct out; [auto|discriminate]|]. rewrite <- Esh in *. clear s0 sh0 Esh.
  pose proof (ignoredDims_spec dimOf) as HI. destruct (ignoredDims dimOf) as [dI oI]. destruct HI as (N1 & N2 & HF).
  set (V := fun i => nth i sh 0). set (O := fun i => nth i out 0). set (dt := fun i => nth i data 0). set (n := length sh) in *.
  assert (HV : forall i, (i < n)%nat -> nth_error sh i = Some (V i)) by (intros; now apply nth_error_nth').
  assert (HO : forall i, (i < n)%nat -> nth_error out i = Some (O i)) by (intros; apply nth_error_nth'; lia).
  assert (HD : forall k, (k < length data)%nat -> nth_error data k = Some (dt k) /\ 1 <= dt k).
  { intros k Hk. split; [now apply nth_error_nth'|]. rewrite Forall_forall in HP. apply HP, nth_In, Hk. }
  assert (RD : forall i, (i < n)%nat -> dimFromShape (fun x z a b : Z => if x =? z then a else b) data (i, V i) = if V i =? -1 then -1 else O i).
  { intros i Hi. destruct (L1 i _ (HV i Hi)) as [LB LZ]. destruct (R2 i _ (HV i Hi)) as [RZ RP]. unfold dimFromShape. cbn [fst snd]. destruct (nth_error data i) as [d|] eqn:Ed.
    - destruct (Z.eqb_spec (V i) 0) as [E0|E0].
      + rewrite E0. cbn. rewrite HO in RZ by auto. specialize (RZ E0). congruence.
      + destruct (Z.eqb_spec (V i) (-1)); [auto|]. specialize (RP ltac:(lia)). rewrite HO in RP by auto. congruence.
    - assert (V i <> 0) by (intros E0; apply LZ in E0; apply nth_error_None in Ed; lia). destruct (Z.eqb_spec (V i) (-1)); [auto|]. specialize (RP ltac:(lia)). rewrite HO in RP by auto. congruence. }
  assert (OP : forall i, (i < n)%nat -> V i <> -1 -> 1 <= O i).
  { intros i Hi Hn. destruct (L1 i _ (HV i Hi)) as [LB LZ]. destruct (R2 i _ (HV i Hi)) as [RZ RP]. destruct (Z.eq_dec (V i) 0) as [E0|E0].
    - specialize (RZ E0). rewrite HO in RZ by auto. destruct (HD i (LZ E0)) as [Q1 Q2]. rewrite Q1 in RZ. injection RZ as ->. auto.
    - specialize (RP ltac:(lia)). rewrite HO in RP by auto. injection RP as ->. lia. }
  assert (PAIR : Forall2 (fun k o => (k < length data)%nat /\ (o < n)%nat /\ V o = dt k /\ O o = dt k) dI oI).
  { clear N1 N2. induction HF as [|k o dI oI Hko HF IH]; constructor; auto. destruct (HE o k Hko) as (Ho & Hk & E). rewrite HV in E by auto. destruct (HD k Hk) as [Q1 Q2]. rewrite Q1 in E. injection E as E.
    split; [auto|]. split; [auto|]. split; [auto|]. destruct (R2 o _ (HV o Ho)) as [_ RP]. specialize (RP ltac:(lia)). rewrite HO in RP by auto. congruence. }
  assert (IGN : prodZ (map dt dI) = prodZ (map O oI)).
  { clear - PAIR. induction PAIR as [|k o dI oI (? & ? & ? & E) HF IH]; [auto|]. cbn [map]. now rewrite !prodZ_cons, IH, E. }
  assert (IP : 0 < prodZ (map dt dI)).
  { apply prodZ_pos, Forall_forall. intros x Hx. apply in_map_iff in Hx as (k & <- & Hk). destruct (Forall2_In_l _ _ _ _ PAIR Hk) as (o & _ & Hk' & _). destruct (HD k Hk'). lia. }
  assert (HdI : forall k, In k dI -> (k < length data)%nat) by (intros k Hk; destruct (Forall2_In_l _ _ _ _ PAIR Hk) as (o & _ & ? & _); auto).
  assert (HoI : forall o, In o oI -> (o < n)%nat /\ V o <> -1).
  { intros o Hk; destruct (Forall2_In_r _ _ _ _ PAIR Hk) as (k & _ & Hk' & ? & E & _). destruct (HD k Hk'). split; [auto|]. rewrite E. lia. }
  assert (A1 : numOfElements (fun z => z) Z.mul data dI = prodZ (map dt (rest (length data) dI))).
  { unfold numOfElements. rewrite (fold_skip (fun e : nat * Z => memb (fst e) dI) snd), (enum_map data 0), ConvProofs.filter_map, map_map. cbn [fst snd]. rewrite Z.mul_1_l. reflexivity. }
  set (Gf := fun i => if V i =? -1 then 1 else O i).
  assert (A2 : numOfElementsFromShape (fun z => z) Z.mul (fun x z a b : Z => if x =? z then a else b) data sh oI = prodZ (map Gf (rest n oI))).
  { unfold numOfElementsFromShape. rewrite (fold_skip (fun e : nat * Z => memb (fst e) oI) (fun e => let dim := dimFromShape (fun x z a b : Z => if x =? z then a else b) data e in if dim =? -1 then 1 else dim)).
    rewrite (enum_map sh 0), ConvProofs.filter_map, map_map. cbn [fst snd]. rewrite Z.mul_1_l. fold n. f_equal. apply map_ext_in. intros i Hi. fold (V i). apply rest_In in Hi as [Hi _]. cbn zeta. rewrite RD by auto. unfold Gf.
    destruct (Z.eqb_spec (V i) (-1)) as [E|E]; [reflexivity|]. pose proof (OP i Hi E). destruct (Z.eqb_spec (O i) (-1)); [lia|auto]. }
  assert (A3 : prodZ (map dt (rest (length data) dI)) = prodZ (map O (rest n oI))).
  { pose proof (prod_split data dI N1 HdI) as S1. pose proof (prod_split out oI N2 ltac:(intros o Ho; rewrite R1; fold n; now apply HoI)) as S2. rewrite R1 in S2. fold n in S2. fold O in S2. fold dt in S1.
    rewrite S1, S2, <- IGN in R3. nia. }
  assert (GP : 0 < prodZ (map Gf (rest n oI))).
  { apply prodZ_pos, Forall_forall. intros x Hx. apply in_map_iff in Hx as (i & <- & Hi). apply rest_In in Hi as [Hi _]. unfold Gf. destruct (Z.eqb_spec (V i) (-1)); [lia|]. pose proof (OP i Hi n0). lia. }
  rewrite A1, A2, A3. destruct (Z.eqb_spec (prodZ (map Gf (rest n oI))) 0) as [Q|Q]; [lia|]. cbn [obind]. f_equal.
  rewrite (enum_map sh 0), map_map. fold n. rewrite (list_as_map out), R1. fold n. apply map_ext_in. intros i Hi. apply in_seq in Hi. cbn [fst snd]. fold (V i) (O i). rewrite RD by lia.
  destruct (Z.eqb_spec (V i) (-1)) as [E|E]; [|auto].
  assert (Hir : In i (rest n oI)) by (apply rest_In; split; [lia|]; intros Q'; apply HoI in Q'; tauto).
  pose proof (rest_NoDup n oI) as NDr. apply in_split in Hir as (l1 & l2 & ES). rewrite ES in NDr.
  assert (GO : forall l, (forall j, In j l -> In j (l1 ++ l2)) -> map Gf l = map O l).
  { intros l Hl. apply map_ext_in. intros j Hj. unfold Gf. destruct (Z.eqb_spec (V j) (-1)) as [Ej|Ej]; [|auto]. exfalso.
    assert (Hjn : (j < n)%nat).
    { assert (In j (rest n oI)) by (rewrite ES; apply Hl in Hj; rewrite in_app_iff in *; cbn; tauto). apply rest_In in H. tauto. }
    assert (j = i) by (apply L2; [rewrite HV, Ej by auto|rewrite HV, E by lia]; auto). subst j. apply NoDup_remove_2 in NDr. apply NDr, Hl, Hj. }
  assert (K1 : prodZ (map Gf (rest n oI)) = prodZ (map O (l1 ++ l2))).
  { rewrite ES, !map_app, !prodZ_app. cbn [map]. rewrite prodZ_cons, (GO l1), (GO l2) by (intros; rewrite in_app_iff; tauto). unfold Gf. destruct (Z.eqb_spec (V i) (-1)); [lia|congruence]. }
  assert (K2 : prodZ (map O (rest n oI)) = O i * prodZ (map O (l1 ++ l2))) by (rewrite ES, !map_app, !prodZ_app; cbn [map]; rewrite prodZ_cons; lia).
  rewrite K1, K2 in *. apply Z.div_mul. lia.
Qed.

(** Shape inference agrees with the sizes at run time. *)
Definition rel (o : option Z) (z : Z) : Prop := forall v, o = Some v -> v = z.
Lemma rel_fold {A B} (f : option Z -> A -> option Z) (g : Z -> B -> Z) l m a b : rel a b ->
  Forall2 (fun x y => forall a b, rel a b -> rel (f a x) (g b y)) l m -> rel (fold_left f l a) (fold_left g m b).
Proof. intros HR HF. revert a b HR. induction HF; intros a b HR; cbn; auto. Qed.
Lemma Forall2_enum {A B} (P : A -> B -> Prop) l m : Forall2 P l m -> Forall2 (fun x y => fst x = fst y /\ P (snd x) (snd y)) (enum l) (enum m).
Proof. unfold enum. generalize 0%nat. intros a H. revert a. induction H; intros a; cbn; constructor; auto. Qed.
Lemma Forall2_nth_error {A B} (P : A -> B -> Prop) l m i : Forall2 P l m -> match nth_error l i, nth_error m i with Some x, Some y => P x y | None, None => True | _, _ => False end.
Proof. intros H. revert i. induction H; intros [|i]; cbn; auto. apply IHForall2. Qed.
Lemma Forall2_impl {A B} (P Q : A -> B -> Prop) l m : (forall x y, P x y -> Q x y) -> Forall2 P l m -> Forall2 Q l m.
Proof. induction 2; constructor; auto. Qed.
Lemma reshape_infer_ok dimOf data0 sh0 data sh out : agrees data0 data -> agrees sh0 sh -> reshapeRun dimOf data sh = Some out ->
  exists out0, reshapeInfer dimOf data0 sh0 = Some out0 /\ agrees out0 out.
Proof.
  intros HD HS. unfold reshapeRun, reshapeInfer, reshapeDims. destruct HS as [|o z sh0 sh Hz HS]; [intros E; injection E as <-; exists []; split; [auto|constructor]|].
  assert (HS' : agrees (o :: sh0) (z :: sh)) by (constructor; auto). clear HS Hz. set (s0 := o :: sh0) in *. set (s := z :: sh) in *. clearbody s0 s. destruct (ignoredDims dimOf) as [dI oI].
  set (ifo := fun (x : option Z) (z : Z) (a b : option Z) => match x with Some v => if v =? z then a else b | None => None end).
  set (ifz := fun x z a b : Z => if x =? z then a else b).
  assert (IFR : forall x x' z a a' b b', rel x x' -> rel a a' -> rel b b' -> rel (ifo x z a b) (ifz x' z a' b')).
  { intros x x' w a a' b b' Hx Ha Hb. unfold ifo, ifz. destruct x as [v|]; [|intros u; discriminate]. rewrite (Hx v eq_refl). destruct (x' =? w); auto. }
  assert (MUL : forall a b a' b', rel a a' -> rel b b' -> rel (both Z.mul a b) (a' * b')).
  { intros [a|] [b|] a' b' Ha Hb v E; try discriminate. injection E as <-. now rewrite (Ha a eq_refl), (Hb b eq_refl). }
  assert (ONE : rel (Some 1) 1) by (intros v E; congruence).
  assert (R1 : rel (numOfElements (@Some Z) (both Z.mul) data0 dI) (numOfElements (fun z => z) Z.mul data dI)).
  { apply rel_fold; [auto|]. eapply Forall2_impl; [|apply (Forall2_enum _ _ _ HD)]. intros [i x] [j y] [Ei Hxy] a b Hab. cbn [fst snd] in *. subst j. destruct (memb i dI); auto. }
  assert (DF : forall x y, fst x = fst y /\ rel (snd x) (snd y) -> rel (dimFromShape ifo data0 x) (dimFromShape ifz data y)).
  { intros [i x] [j y] [Ei Hxy]. cbn [fst snd] in *. subst j. unfold dimFromShape. cbn [fst snd]. pose proof (Forall2_nth_error _ _ _ i HD) as Q. destruct (nth_error data0 i), (nth_error data i); try tauto. apply IFR; auto. }
  assert (R2 : rel (numOfElementsFromShape (@Some Z) (both Z.mul) ifo data0 s0 oI) (numOfElementsFromShape (fun z => z) Z.mul ifz data s oI)).
  { apply rel_fold; [auto|]. eapply Forall2_impl; [|apply (Forall2_enum _ _ _ HS')]. intros x y Hxy a b Hab. destruct Hxy as [Ei Hxy]. rewrite Ei. destruct (memb (fst y) oI); [auto|]. apply MUL; [auto|]. apply IFR; auto. }
  revert R1 R2. generalize (numOfElements (@Some Z) (both Z.mul) data0 dI) (numOfElements (fun z => z) Z.mul data dI).
  generalize (numOfElementsFromShape (@Some Z) (both Z.mul) ifo data0 s0 oI) (numOfElementsFromShape (fun z => z) Z.mul ifz data s oI). intros b0 b a0 a RA RB.
  destruct (Z.eqb_spec b 0) as [E|E]; [discriminate|]. cbn [obind]. intros EQ. injection EQ as <-.
  assert (Q : exists q0, (match a0 with Some x => match b0 with Some y => if y =? 0 then None else Some (Some (x / y)) | None => Some None end | None => Some None end) = Some q0 /\ rel q0 (a / b)).
  { destruct a0 as [a0|]; [|exists None; split; [auto|intros ? ?; discriminate]]. destruct b0 as [b0|]; [|exists None; split; [auto|intros ? ?; discriminate]].
    pose proof (RA a0 eq_refl). pose proof (RB b0 eq_refl). subst. destruct (Z.eqb_spec b 0); [tauto|]. eexists. split; [reflexivity|]. intros v Ev. congruence. }
  destruct Q as (q0 & -> & HQ). cbn [obind]. eexists. split; [reflexivity|]. unfold agrees.
  pose proof (Forall2_enum _ _ _ HS') as FE. induction FE as [|x y l m Hxy FE IH]; cbn [map]; constructor; auto. apply IFR; auto. exact (proj2 Hxy).
Qed.

(** ** Split *)
Lemma sum_two (n b : nat) (c f : Z) : (b <= n)%nat -> sumZ (map (fun i => if (i <? b)%nat then c else f) (seq 0 n)) = Z.of_nat b * c + Z.of_nat (n - b) * f.
Proof.
  intros H. induction n as [|n IH].
  - replace b with O by lia. reflexivity.
  - rewrite seq_S, map_app, sumZ_app. cbn [map Nat.add]. rewrite sumZ_cons. change (sumZ []) with 0. destruct (Nat.eq_dec b (S n)) as [->|E].
    + rewrite (map_ext_in _ (fun _ => c)) by (intros i Hi; apply in_seq in Hi; destruct (Nat.ltb_spec i (S n)); auto; lia).
      assert (K : forall k, sumZ (map (fun _ : nat => c) (seq 0 k)) = Z.of_nat k * c) by (clear; induction k; [auto|]; rewrite seq_S, map_app, sumZ_app, IHk; cbn [map]; rewrite sumZ_cons; change (sumZ []) with 0; lia).
      rewrite K, Nat.sub_diag. destruct (Nat.ltb_spec n (S n)); lia.
    + rewrite IH by lia. destruct (Nat.ltb_spec n b); [lia|]. replace (S n - b)%nat with (S (n - b)) by lia. lia.
Qed.
Lemma fold_add l a : fold_left Z.add l a = a + sumZ l.
Proof. revert a. induction l as [|x l IH]; intros a; cbn [fold_left]; [unfold sumZ; cbn; lia|]. rewrite IH, sumZ_cons. lia. Qed.
Lemma inBounds_valid s idx : inBounds s idx = true <-> valid s idx.
Proof.
  revert idx. induction s as [|d s IH]; intros [|i idx]; cbn [inBounds]; split; intros H; try discriminate; try inversion H; subst; try constructor; rewrite ?andb_true_iff, ?IH in *; try tauto; try lia.
  split; [lia|]. auto.
Qed.
Lemma collect_map {A B} (f : A -> option B) (g : A -> B) l : (forall x, In x l -> f x = Some (g x)) -> collect f l = Some (map g l).
Proof. induction l as [|x l IH]; intros H; cbn; [auto|]. rewrite H by (left; auto). cbn. rewrite IH by (intros; apply H; right; auto). reflexivity. Qed.
Lemma NoDup_indices s : NoDup (indices s).
Proof.
  replace (indices s) with (ConvModel.nest (map (fun d => (0, d)) s)); [apply ConvProofs.NoDup_nest|]. induction s as [|d s IH]; cbn; [auto|]. rewrite IH. unfold zrange. now rewrite Z.sub_0_r.
Qed.
Lemma indices_In s idx : In idx (indices s) <-> valid s idx.
Proof. apply ConvProofs.valid_indices. Qed.
Lemma valid_upd' s idx a v : valid s idx -> 0 <= v < nth a s 0 -> valid s (upd a v idx).
Proof. intros H. revert a. unfold valid. induction H; intros [|a] Hv; cbn in *; constructor; auto. Qed.
Lemma valid_upd_shape s idx a d v : valid (upd a d s) idx -> (a < length s)%nat -> 0 <= v < nth a s 0 -> valid s (upd a v idx).
Proof.
  revert a idx. induction s as [|x s IH]; intros [|a] idx H Ha Hv; cbn in *; try lia; inversion H; subst; cbn; constructor; auto. apply IH; auto. lia.
Qed.
Lemma valid_nth' s idx a : valid s idx -> (a < length s)%nat -> 0 <= nth a idx 0 < nth a s 0.
Proof. intros H. revert a. induction H; intros [|a] Ha; cbn in *; try lia; auto. apply IHForall2. lia. Qed.
Lemma nth_upd_eq {A} a (v d : A) l : (a < length l)%nat -> nth a (upd a v l) d = v.
Proof. apply nth_upd_same. Qed.
Lemma sum_firstn_le sizes i : Forall (fun d => 0 <= d) sizes -> (i < length sizes)%nat -> 0 <= sumZ (firstn i sizes) /\ sumZ (firstn i sizes) + nth i sizes 0 <= sumZ sizes.
Proof.
  intros H. revert i. induction H as [|d l Hd Hl IH]; intros [|i] Hi; cbn [length] in *; try lia; cbn [firstn nth]; rewrite !sumZ_cons.
  - change (sumZ []) with 0. assert (0 <= sumZ l) by (clear - Hl; induction Hl; [unfold sumZ; cbn; lia|rewrite sumZ_cons; lia]). lia.
  - destruct (IH i ltac:(lia)). lia.
Qed.
Lemma splitLoop_ok {T} (x : tensor T) axis sizes i : okshape (tShape x) -> (axis < length (tShape x))%nat -> Forall (fun d => 0 <= d) sizes -> sumZ sizes = nth axis (tShape x) 0 -> (i < length sizes)%nat ->
  exists stores, splitLoop x axis sizes i = Some stores /\ fills stores (upd axis (nth i sizes 0) (tShape x)) (fun idx => tAt x (shift axis (chunk_start sizes i) idx)).
Proof.
  intros HO HA HS HT Hi. destruct (sum_firstn_le sizes i HS Hi) as [B1 B2]. unfold splitLoop, splitOutShape.
  rewrite (collect_map _ (fun idx => (idx, tAt x (shift axis (chunk_start sizes i) idx)))).
  - eexists. split; [reflexivity|]. unfold fills. rewrite map_map, map_id. split; [apply NoDup_indices|]. split; [intros; apply indices_In|].
    intros idx v H. apply in_map_iff in H as (j & E & _). now injection E as <- <-.
  - intros idx H. apply indices_In in H. rewrite fold_add. unfold load. replace (inBounds _ _) with true; [reflexivity|]. symmetry. apply inBounds_valid.
    apply (valid_upd_shape _ _ _ (nth i sizes 0)); [auto|auto|]. pose proof (valid_nth' _ _ axis H ltac:(rewrite upd_length; auto)) as Q. rewrite nth_upd_same in Q by auto. lia.
Qed.
