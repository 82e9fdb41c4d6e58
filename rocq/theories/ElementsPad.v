(** slice and pad. *)
From Coq Require Import List ZArith Lia Bool Arith.
From Verif Require Import Util TensorSpec TensorLemmas StridesModel StridesProofs StridesReshape
  ElementsModel ElementsSpec ElementsBase ElementsViews ElementsConcat.
Import ListNotations.
Open Scope Z_scope.

Lemma map2_app {A B C} (f : A -> B -> C) l1 l2 m1 m2 : length l1 = length m1 ->
  map2 f (l1 ++ l2) (m1 ++ m2) = map2 f l1 m1 ++ map2 f l2 m2.
Proof. revert m1; induction l1; destruct m1; simpl; intros; try discriminate; auto. f_equal; auto. Qed.

Section SlicePad.
Context {W : Type}.
Variable junk : W.
Implicit Types e : elements W.

Lemma slice_pos idx starts steps st : length idx = length st -> length starts = length st -> length steps = length st ->
  pos (map2 Z.add starts (map2 Z.mul idx steps)) st =
  sumZ (map2 Z.mul starts st) + pos idx (map2 Z.mul st steps).
Proof.
  revert idx starts steps; induction st; intros [|i idx] [|a0 starts] [|b steps]; simpl; intros; try discriminate; auto.
  rewrite sumZ_cons, IHst by lia. lia.
Qed.

Lemma slice_spec e t starts steps : wf e -> okshape t ->
  length t = length (e_shape e) -> length starts = length t -> length steps = length t ->
  (forall idx, valid t idx -> valid (e_shape e) (map2 Z.add starts (map2 Z.mul idx steps))) ->
  exists e', slice junk e t starts steps = Some e' /\ e_shape e' = t /\ wf e' /\
    forall idx, valid t idx -> den e' idx = den e (map2 Z.add starts (map2 Z.mul idx steps)).
Proof.
  intros H Ok L1 L2 L3 HV. unfold slice. assert (HL := wf_len _ H).
  destruct (fromWideNums_range junk t [map2 Z.mul (e_strides e) steps]
    (fun it => zget (bufferAsWideNums e) (sumZ (map2 Z.mul starts (e_strides e)) + off it 0))
    (fun k => den e (map2 Z.add starts (map2 Z.mul (unrm t k) steps)))) as (e' & E & S & We & D); auto.
  - repeat constructor. rewrite map2_length; lia.
  - intros k Hk. destruct (unrm_spec t k Ok Hk) as [V _]. split; [|now apply den_some, HV].
    unfold off, mk_item. cbn [offsets map nth]. rewrite den_wide. f_equal.
    apply valid_length in V. rewrite slice_pos; lia.
  - exists e'. split; [exact E|]. split; auto. split; auto.
    intros idx V. rewrite D by auto. now rewrite unrm_rm.
Qed.

(** ** pad *)
Notation maxs s := (map (fun d => d - 1) s).

Lemma pad_setup_spec s l r : length l = length s -> length r = length s ->
  let o := map2 Z.add s (map2 Z.add l r) in
  exists btw b (e : Z), pad_setup o l r = (btw, (b, e), size o) /\
    length btw = length s /\ b = rm o l /\
    rm o (map2 Z.add (maxs s) l) = size o - 1 - e /\
    (s <> [] -> nth 0 btw 0 = b + e).
Proof.
  revert l r; induction s as [|d s IH]; intros [|l0 l] [|r0 r]; simpl; intros; try discriminate.
  - exists [], 0, 0. repeat split; auto; congruence.
  - destruct (IH l r) as (btw & b & e & E & L & B & EE & _); [lia|lia|].
    cbn zeta in *. rewrite E. rewrite size_cons.
    set (o := map2 Z.add s (map2 Z.add l r)) in *.
    eexists _, _, _. split; [rewrite (Z.mul_comm (size o)); reflexivity|]. cbn [map map2 rm length nth].
    split; [lia|]. split; [subst b; cbn [rm]; lia|]. split; [|auto].
    rewrite EE. lia.
Qed.

Lemma pad_setup_nth s1 s2 l1 l2 r1 r2 :
  length l1 = length s1 -> length r1 = length s1 -> length l2 = length s2 -> length r2 = length s2 -> s2 <> [] ->
  let o2 := map2 Z.add s2 (map2 Z.add l2 r2) in
  let o := map2 Z.add (s1 ++ s2) (map2 Z.add (l1 ++ l2) (r1 ++ r2)) in
  nth (length s1) (fst (fst (pad_setup o (l1 ++ l2) (r1 ++ r2)))) 0 =
  nth 0 (fst (fst (pad_setup o2 l2 r2))) 0.
Proof.
  revert l1 r1; induction s1 as [|d s1 IH]; intros [|l0 l1] [|r0 r1]; simpl; intros; try discriminate; auto.
  cbn zeta in *. specialize (IH l1 r1). 
  destruct (pad_setup (map2 Z.add (s1 ++ s2) (map2 Z.add (l1 ++ l2) (r1 ++ r2))) (l1 ++ l2) (r1 ++ r2))
    as [[btw [b e]] m] eqn:EQ. simpl in *. apply IH; auto.
Qed.

Lemma trailing_zeros (idx : list Z) : idx <> repeat 0 (length idx) ->
  exists pre x m, idx = pre ++ x :: repeat 0 m /\ x <> 0.
Proof.
  induction idx as [|a idx IH]; simpl; intros N; [congruence|].
  destruct (list_eq_dec Z.eq_dec idx (repeat 0 (length idx))) as [E|NE].
  - exists [], a, (length idx). simpl. split; [f_equal; auto|]. intros ->. apply N. f_equal; auto.
  - destruct (IH NE) as (pre & x & m & -> & Hx). exists (a :: pre), x, m. auto.
Qed.

Lemma last_zero_spec pre x m j : x <> 0 -> (j <= m)%nat ->
  last_zero (pre ++ x :: repeat 0 m) (length pre + 1 + j) = (length pre + 1)%nat.
Proof.
  intros Hx. induction j; intros Hj.
  - rewrite Nat.add_0_r, Nat.add_1_r. cbn [last_zero]. rewrite nth_middle.
    destruct (Z.eqb_spec x 0); congruence.
  - replace (length pre + 1 + S j)%nat with (S (length pre + 1 + j)) by lia. cbn [last_zero].
    rewrite app_nth2 by lia. replace (length pre + 1 + j - length pre)%nat with (S j) by lia.
    cbn [nth]. rewrite nth_repeat. cbn [Z.eqb]. apply IHj. lia.
Qed.

Lemma size_maxs s : Forall (fun d => 0 < d) s -> rm s (maxs s) = size s - 1 /\ valid s (maxs s).
Proof.
  induction 1; simpl; [split; [reflexivity|constructor]|]. destruct IHForall as [E V].
  rewrite E, size_cons. split; [lia|]. constructor; auto. lia.
Qed.

Lemma map2_repeat0_l l n : length l = n -> map2 Z.add (repeat 0 n) l = l.
Proof. intros <-. induction l; simpl; auto. f_equal; auto. Qed.

Lemma rm_zeros s n : rm s (repeat 0 n) = 0.
Proof. revert n; induction s; destruct n; simpl; auto. Qed.

(** Position, in the padded tensor, of an input index. *)
Notation P o l i := (rm o (map2 Z.add i l)).

Lemma pad_valid s l r i : length l = length s -> length r = length s ->
  Forall (fun x => 0 <= x) l -> Forall (fun x => 0 <= x) r -> valid s i ->
  valid (map2 Z.add s (map2 Z.add l r)) (map2 Z.add i l).
Proof.
  revert l r i; induction s; intros [|l0 l] [|r0 r] [|i0 i]; simpl; intros L1 L2 Hl Hr V;
    try discriminate; try (inversion V; fail); [constructor|].
  inversion V; inversion Hl; inversion Hr; subst. constructor; [lia|]. apply IHs; auto.
Qed.

Lemma P_mono s l r i j : length l = length s -> length r = length s ->
  Forall (fun x => 0 <= x) l -> Forall (fun x => 0 <= x) r -> valid s i -> valid s j ->
  rm s i < rm s j ->
  let o := map2 Z.add s (map2 Z.add l r) in P o l i < P o l j.
Proof.
  revert l r i j; induction s as [|d s IH]; intros [|l0 l] [|r0 r] [|i0 i] [|j0 j]; simpl;
    intros L1 L2 Hl Hr Vi Vj HR; try discriminate; try (inversion Vi; fail); try (inversion Vj; fail).
  apply valid_cons in Vi as [Hi0 Vi]. apply valid_cons in Vj as [Hj0 Vj].
  apply Forall_cons_iff in Hl as [Hl0 Hl]. apply Forall_cons_iff in Hr as [Hr0 Hr].
  set (o := map2 Z.add s (map2 Z.add l r)) in *.
  assert (Bi := rm_bound _ _ (pad_valid s l r i ltac:(lia) ltac:(lia) Hl Hr Vi)).
  assert (Bj := rm_bound _ _ (pad_valid s l r j ltac:(lia) ltac:(lia) Hl Hr Vj)).
  fold o in Bi, Bj.
  pose proof (rm_bound _ _ Vi). pose proof (rm_bound _ _ Vj).
  assert (i0 <= j0) by nia.
  destruct (Z.eq_dec i0 j0).
  - subst. assert (P o l i < P o l j) by (apply IH; auto; lia). lia.
  - nia.
Qed.

(** Gap between two consecutive elements at the start of a row. *)
Lemma pad_gap s l r k : length l = length s -> length r = length s ->
  Forall (fun d => 0 < d) s -> 0 < k < size s ->
  let o := map2 Z.add s (map2 Z.add l r) in
  let idx := unrm s k in
  (last idx 0 <> 0 -> P o l idx = P o l (unrm s (k - 1)) + 1) /\
  (last idx 0 = 0 ->
    P o l idx = P o l (unrm s (k - 1)) + 1
                + nth (last_zero idx (length s - 1)) (fst (fst (pad_setup o l r))) 0).
Proof.
  intros L1 L2 HP Hk. cbn zeta.
  assert (Ok : okshape s) by (eapply Forall_impl; [|exact HP]; simpl; intros; lia).
  destruct (unrm_spec s k Ok) as [V E]; [lia|]. set (idx := unrm s k) in *. clearbody idx.
  pose proof (valid_length _ _ V) as VL.
  destruct (trailing_zeros idx) as (pre & x & m & EI & Hx).
  { intros Q. rewrite Q, rm_zeros in E. lia. }
  (* split every list at the carry axis *)
  assert (LS : length s = (length pre + S m)%nat).
  { rewrite VL, EI, app_length. simpl. rewrite repeat_length. auto. }
  assert (SPL : forall q : list Z, length q = length s -> exists q1 y q2, q = q1 ++ y :: q2 /\
      length q1 = length pre /\ length q2 = m).
  { intros q Lq. exists (firstn (length pre) q).
    destruct (skipn (length pre) q) as [|y q2] eqn:Q.
    - exfalso. assert (length (skipn (length pre) q) = 0%nat) by now rewrite Q.
      rewrite skipn_length in H. lia.
    - exists y, q2. rewrite <- Q, firstn_skipn, firstn_length. split; auto. split; [lia|].
      assert (length (skipn (length pre) q) = S (length q2)) by now rewrite Q.
      rewrite skipn_length in H. lia. }
  destruct (SPL s eq_refl) as (s1 & d & s2 & ES & Ls1 & Ls2).
  destruct (SPL l L1) as (l1 & l0 & l2 & EL & Ll1 & Ll2).
  destruct (SPL r L2) as (r1 & r0 & r2 & ER & Lr1 & Lr2).
  subst s l r idx. clear SPL.
  apply valid_app in V as [V1 V2]; [|lia]. apply valid_cons in V2 as [Hxd V3].
  apply Forall_app in HP as [HP1 HP2]. apply Forall_cons_iff in HP2 as [Hd HP3].
  destruct (size_maxs s2 HP3) as [EM VM].
  assert (PREV : unrm (s1 ++ d :: s2) (k - 1) = pre ++ (x - 1) :: maxs s2).
  { assert (Vp : valid (s1 ++ d :: s2) (pre ++ (x - 1) :: maxs s2)).
    { apply valid_app; [lia|]. split; auto. constructor; auto. lia. }
    rewrite <- (unrm_rm (s1 ++ d :: s2) (pre ++ (x - 1) :: maxs s2)) by auto. f_equal.
    rewrite <- E. rewrite !split3 by lia. rewrite EM, rm_zeros. lia. }
  rewrite PREV. clear PREV.
  assert (OEQ : map2 Z.add (s1 ++ d :: s2) (map2 Z.add (l1 ++ l0 :: l2) (r1 ++ r0 :: r2)) =
    map2 Z.add s1 (map2 Z.add l1 r1) ++ (d + (l0 + r0)) :: map2 Z.add s2 (map2 Z.add l2 r2)).
  { rewrite map2_app by lia. rewrite map2_app by (rewrite map2_length; lia). reflexivity. }
  assert (LO : length (map2 Z.add s1 (map2 Z.add l1 r1)) = length pre).
  { rewrite map2_length; [lia|]. rewrite map2_length; lia. }
  assert (DIFF : P (map2 Z.add (s1 ++ d :: s2) (map2 Z.add (l1 ++ l0 :: l2) (r1 ++ r0 :: r2))) (l1 ++ l0 :: l2) (pre ++ x :: repeat 0 m)
    - P (map2 Z.add (s1 ++ d :: s2) (map2 Z.add (l1 ++ l0 :: l2) (r1 ++ r0 :: r2))) (l1 ++ l0 :: l2) (pre ++ (x - 1) :: maxs s2)
    = size (map2 Z.add s2 (map2 Z.add l2 r2)) + rm (map2 Z.add s2 (map2 Z.add l2 r2)) l2
      - rm (map2 Z.add s2 (map2 Z.add l2 r2)) (map2 Z.add (maxs s2) l2)).
  { rewrite !(map2_app Z.add pre) by lia. rewrite OEQ. cbn [map2].
    rewrite !split3 by (rewrite LO, map2_length; lia).
    rewrite map2_repeat0_l by lia. lia. }
  destruct (pad_setup_spec s2 l2 r2) as (btw & b & en & EP & LB & BB & EE & NB); [lia|lia|].
  destruct m as [|m].
  - destruct s2; [|discriminate]. destruct l2; [|discriminate]. destruct r2; [|discriminate].
    cbn [repeat map] in *. change (map2 Z.add [] (map2 Z.add [] [])) with (@nil Z) in DIFF.
    cbn [rm] in DIFF. rewrite size_nil in DIFF.
    rewrite last_last. split; intros Q; [lia|congruence].
  - split.
    + intros Q. exfalso. apply Q. clear.
      replace (repeat 0 (S m)) with (repeat 0 m ++ [0]).
      * replace (pre ++ x :: repeat 0 m ++ [0]) with ((pre ++ x :: repeat 0 m) ++ [0]).
        -- now rewrite last_last.
        -- rewrite <- app_assoc. reflexivity.
      * rewrite <- repeat_cons. reflexivity.
    + intros _.
      assert (LZ : last_zero (pre ++ x :: repeat 0 (S m)) (length (s1 ++ d :: s2) - 1) = length (s1 ++ [d])).
      { rewrite !app_length. simpl length.
        replace (length s1 + S (length s2) - 1)%nat with (length pre + 1 + m)%nat by lia.
        rewrite last_zero_spec by (auto; lia). lia. }
      rewrite LZ.
      pose proof (pad_setup_nth (s1 ++ [d]) s2 (l1 ++ [l0]) l2 (r1 ++ [r0]) r2) as PN.
      rewrite !app_length in PN. simpl length in PN.
      rewrite <- !app_assoc in PN. cbn [app] in PN. rewrite app_length. simpl length.
      rewrite PN; try lia.
      2:{ destruct s2; [discriminate|congruence]. }
      rewrite EP. cbn [fst]. rewrite NB by (destruct s2; [discriminate|congruence]).
      rewrite EE in DIFF. rewrite <- BB in DIFF. lia.
Qed.

Lemma firstn_zseq a n m : firstn m (zseq a n) = zseq a (Nat.min m n).
Proof. revert a m; induction n; intros a [|m]; simpl; auto. f_equal. auto. Qed.
Lemma skipn_zseq a n m : skipn m (zseq a n) = zseq (a + Z.of_nat m) (n - m).
Proof.
  revert a m; induction n; intros a [|m]; cbn [zseq skipn Nat.sub]; auto.
  - rewrite Z.add_0_r. reflexivity.
  - rewrite IHn. f_equal. lia.
Qed.

Lemma last_snoc_unrm s' d k : okshape (s' ++ [d]) -> 0 <= k < size (s' ++ [d]) ->
  last (unrm (s' ++ [d]) k) 0 = k mod d.
Proof.
  intros O Hk. destruct (unrm_spec _ _ O Hk) as [V E].
  apply valid_split_app in V as (i & j & EQ & Vi & Vj). rewrite EQ in *.
  inversion Vj as [|? y ? ? Hy V0]; subst. inversion V0; subst.
  rewrite rm_app by (now apply valid_length). rewrite last_last. simpl.
  rewrite size_cons, !size_nil.
  match goal with |- _ = ?a mod d => replace a with (y + rm s' i * d) by lia end.
  rewrite Z.mod_add by lia. symmetry. apply Z.mod_small. lia.
Qed.

Section PadMain.
Variables (e : elements W) (data : list W) (l r : list Z) (v : W).
Let s := e_shape e.
Let o := map2 Z.add s (map2 Z.add l r).
Hypothesis We : wf e.
Hypothesis Re : repr e data.
Hypothesis Ll : length l = length s.
Hypothesis Lr : length r = length s.
Hypothesis Hl : Forall (fun x => 0 <= x) l.
Hypothesis Hr : Forall (fun x => 0 <= x) r.
Hypothesis Hs : 0 < size s.

Let Ok : okshape s := wf_ok _ We.
Let Hpos : Forall (fun d => 0 < d) s := size_pos_of _ Ok Hs.

Definition pinv (out : list W) : Prop :=
  (forall i, valid s i -> P o l i < Z.of_nat (length out) -> zget out (P o l i) = den e i) /\
  (forall p, 0 <= p < Z.of_nat (length out) -> (forall i, valid s i -> P o l i <> p) -> zget out p = Some v).

Lemma P_bound i : valid s i -> 0 <= P o l i < size o.
Proof. intros V. apply rm_bound, pad_valid; auto. Qed.

Lemma P_inj i j : valid s i -> valid s j -> P o l i = P o l j -> i = j.
Proof.
  intros Vi Vj E. eapply rm_inj; eauto. destruct (Z.lt_trichotomy (rm s i) (rm s j)) as [Q|[Q|Q]]; auto; exfalso.
  - assert (P o l i < P o l j) by (apply P_mono; auto). lia.
  - assert (P o l j < P o l i) by (apply P_mono; auto). lia.
Qed.

Lemma P_mono_inv i j : valid s i -> valid s j -> P o l i < P o l j -> rm s i < rm s j.
Proof.
  intros Vi Vj E. destruct (Z.lt_trichotomy (rm s i) (rm s j)) as [Q|[Q|Q]]; auto; exfalso.
  - assert (i = j) by (eapply rm_inj; eauto). subst. lia.
  - assert (P o l j < P o l i) by (apply P_mono; auto). lia.
Qed.

Lemma pinv_copy k out x : 0 <= k < size s -> pinv out -> Z.of_nat (length out) = P o l (unrm s k) ->
  zget data k = Some x -> pinv (out ++ [x]).
Proof.
  intros Hk [I1 I2] HL Ex. destruct (unrm_spec s k Ok Hk) as [V E].
  assert (DK : den e (unrm s k) = Some x) by (rewrite <- Ex; apply repr_zget; auto).
  split.
  - intros i Vi Hi. rewrite app_length in Hi. cbn [length] in Hi.
    destruct (Z.lt_ge_cases (P o l i) (Z.of_nat (length out))).
    + rewrite zget_app1 by auto. auto.
    + assert (EQ : P o l i = P o l (unrm s k)) by lia. apply P_inj in EQ; auto. subst i.
      rewrite zget_app2 by lia. replace (_ - _) with 0 by lia. now rewrite DK.
  - intros p Hp Hn. rewrite app_length in Hp. cbn [length] in Hp.
    destruct (Z.lt_ge_cases p (Z.of_nat (length out))).
    + rewrite zget_app1 by auto. apply I2; auto. lia.
    + exfalso. apply (Hn (unrm s k)); auto. lia.
Qed.

Lemma pinv_fill out n : 0 <= n -> pinv out ->
  (forall i, valid s i -> ~ (Z.of_nat (length out) <= P o l i < Z.of_nat (length out) + n)) ->
  pinv (out ++ fill_n n v).
Proof.
  intros Hn [I1 I2] HG. unfold fill_n. split.
  - intros i Vi Hi. rewrite app_length, repeat_length in Hi.
    assert (P o l i < Z.of_nat (length out)).
    { specialize (HG i Vi). lia. }
    rewrite zget_app1 by auto. auto.
  - intros p Hp Hq. rewrite app_length, repeat_length in Hp.
    destruct (Z.lt_ge_cases p (Z.of_nat (length out))).
    + rewrite zget_app1 by auto. apply I2; auto. lia.
    + rewrite zget_app2 by auto. apply zget_repeat. lia.
Qed.

(** No input element lands strictly between two consecutive ones. *)
Lemma no_between k i : 0 < k < size s -> valid s i ->
  ~ (P o l (unrm s (k - 1)) < P o l i < P o l (unrm s k)).
Proof.
  intros Hk Vi [A B].
  destruct (unrm_spec s k Ok) as [Vk Ek]; [lia|]. destruct (unrm_spec s (k - 1) Ok) as [Vp Ep]; [lia|].
  apply P_mono_inv in A; auto. apply P_mono_inv in B; auto. lia.
Qed.

Lemma copy_row src n k out : src = bufferAsWideNums e ->
  0 <= k -> k + Z.of_nat n <= size s -> pinv out ->
  (0 < Z.of_nat n -> Z.of_nat (length out) = P o l (unrm s k)) ->
  (forall q, 0 < q < Z.of_nat n -> P o l (unrm s (k + q)) = P o l (unrm s (k + q - 1)) + 1) ->
  exists out', foldM (fun it out => x <- zget src (off it 0) ;; Some (out ++ [x]))
      (map (mk_item [e_strides e] s) (zseq k n)) out = Some out' /\ pinv out' /\
    (0 < Z.of_nat n -> Z.of_nat (length out') = P o l (unrm s (k + Z.of_nat n - 1)) + 1).
Proof.
  intros ->. revert k out; induction n; intros k out Hk Hn HI HL HQ.
  - exists out. cbn. repeat split; auto; try apply HI; lia.
  - cbn [zseq map foldM]. pose proof (item_value e data k) as IV. fold s in IV. rewrite IV by (auto; lia).
    destruct (zget_some data k) as (x & Ex). { destruct Re as [D _]. rewrite D. fold s. lia. }
    rewrite Ex. cbn [obind].
    assert (HI2 : pinv (out ++ [x])) by (apply (pinv_copy k); auto; lia).
    destruct (IHn (k + 1) (out ++ [x])) as (out' & E & I' & L'); auto; try lia.
    + intros Q. rewrite app_length. cbn [length]. specialize (HQ 1 ltac:(lia)).
      replace (k + 1 - 1) with k in HQ by lia. lia.
    + intros q Hq. specialize (HQ (1 + q) ltac:(lia)).
      replace (k + (1 + q)) with (k + 1 + q) in HQ by lia. auto.
    + exists out'. split; auto. split; auto. intros _.
      destruct n as [|n].
      * cbn in E. injection E as <-. rewrite app_length. cbn [length].
        replace (k + Z.of_nat 1 - 1) with k by lia. lia.
      * rewrite L' by lia. replace (k + 1 + Z.of_nat (S n) - 1) with (k + Z.of_nat (S (S n)) - 1) by lia. auto.
Qed.

Lemma pad_rows_spec btw b en mult fuel rows k out :
  pad_setup o l r = (btw, (b, en), mult) -> s <> [] ->
  0 <= k -> k + Z.of_nat (S rows) * last s 0 = size s -> k mod (last s 0) = 0 ->
  (rows < fuel)%nat -> pinv out -> Z.of_nat (length out) = P o l (unrm s k) ->
  exists out', pad_rows fuel (bufferAsWideNums e) (last s 0) (length s) btw v
      (map (mk_item [e_strides e] s) (zseq k (Z.to_nat (size s - k)))) out = Some out' /\
    pinv out' /\ Z.of_nat (length out') = P o l (unrm s (size s - 1)) + 1.
Proof.
  intros EP NE. destruct (exists_last NE) as (s' & d & ES).
  assert (LAST : last s 0 = d) by (rewrite ES; apply last_last). rewrite LAST.
  assert (Hd : 0 < d). { rewrite ES in Hpos. apply Forall_app in Hpos as [_ Q]. now inversion Q. }
  assert (LU : forall q, 0 <= q < size s -> last (unrm s q) 0 = q mod d).
  { intros q Hq. assert (OkS : okshape (s' ++ [d])) by (rewrite <- ES; exact Ok).
    rewrite ES in Hq |- *. now apply last_snoc_unrm. }
  revert fuel k out; induction rows; intros fuel k out Hk Hrow Hmod Hf HI HL;
    (destruct fuel as [|fuel]; [lia|]); cbn [pad_rows];
    rewrite map_length, zseq_length;
    (destruct (Z.ltb_spec (Z.of_nat (Z.to_nat (size s - k))) d); [exfalso; nia|]);
    rewrite skipn_map, firstn_map, firstn_zseq, skipn_zseq;
    replace (Nat.min (Z.to_nat d) (Z.to_nat (size s - k))) with (Z.to_nat d) by lia.
  - destruct (copy_row (bufferAsWideNums e) (Z.to_nat d) k out eq_refl) as (out1 & E1 & I1 & L1); auto; try nia.
    { intros q Hq. destruct (pad_gap s l r (k + q) Ll Lr Hpos) as [G _]; [lia|]. apply G.
      rewrite LU by lia. rewrite Z.add_mod, Hmod, Z.add_0_l, Z.mod_mod, Z.mod_small; lia. }
    rewrite E1. cbn [obind].
    replace (Z.to_nat (size s - k) - Z.to_nat d)%nat with O by lia. cbn [zseq map].
    exists out1. split; auto. split; auto. rewrite L1 by lia.
    replace (k + Z.of_nat (Z.to_nat d) - 1) with (size s - 1) by lia. auto.
  - destruct (copy_row (bufferAsWideNums e) (Z.to_nat d) k out eq_refl) as (out1 & E1 & I1 & L1); auto; try nia.
    { intros q Hq. destruct (pad_gap s l r (k + q) Ll Lr Hpos) as [G _]; [lia|]. apply G.
      rewrite LU by lia. rewrite Z.add_mod, Hmod, Z.add_0_l, Z.mod_mod, Z.mod_small; lia. }
    rewrite E1. cbn [obind]. rewrite Z2Nat.id in * by lia.
    assert (Hmore : k + d < size s) by nia.
    assert (SHP : forall it rest, map (mk_item [e_strides e] s) (zseq (k + d) (Z.to_nat (size s - k) - Z.to_nat d)) = it :: rest ->
        it_index it = unrm s (k + d)).
    { intros it rest. replace (Z.to_nat (size s - k) - Z.to_nat d)%nat with (S (Z.to_nat (size s - k - d - 1))) by lia.
      cbn [zseq map]. intros Q. injection Q as <- _. reflexivity. }
    replace (Z.to_nat (size s - k) - Z.to_nat d)%nat with (Z.to_nat (size s - (k + d))) in * by lia.
    destruct (map (mk_item [e_strides e] s) (zseq (k + d) (Z.to_nat (size s - (k + d))))) as [|it rest] eqn:EM.
    { exfalso. apply (f_equal (@length item)) in EM. rewrite map_length, zseq_length in EM. cbn [length] in EM. lia. }
    rewrite (SHP it rest eq_refl). rewrite <- EM.
    specialize (L1 ltac:(lia)).
    destruct (pad_gap s l r (k + d) Ll Lr Hpos) as [_ G]; [lia|]. fold o in G. rewrite EP in G. cbn [fst] in G.
    assert (MD : (k + d) mod d = 0).
    { rewrite Z.add_mod, Hmod, Z.mod_same by lia. simpl. apply Z.mod_0_l. lia. }
    rewrite LU in G by lia. specialize (G MD).
    set (gap := nth (last_zero (unrm s (k + d)) (length s - 1)) btw 0) in *.
    assert (Hgap : 0 <= gap).
    { destruct (unrm_spec s (k + d) Ok) as [Va Ea]; [lia|].
      destruct (unrm_spec s (k + d - 1) Ok) as [Vb Eb]; [lia|].
      assert (P o l (unrm s (k + d - 1)) < P o l (unrm s (k + d))) by (apply P_mono; auto; lia). lia. }
    apply IHrows; try lia; auto.
    + apply pinv_fill; auto. intros i Vi Q. apply (no_between (k + d) i); auto; lia.
    + rewrite app_length. unfold fill_n. rewrite repeat_length. lia.
Qed.

Lemma pad_main : s <> [] ->
  exists e', pad junk e (l ++ r) v = Some e' /\ e_shape e' = o /\ wf e' /\
    forall j, valid o j ->
      (forall i, valid s i -> j = map2 Z.add i l -> den e' j = den e i) /\
      ((forall i, valid s i -> j <> map2 Z.add i l) -> den e' j = Some v).
Proof.
  intros NE. unfold pad. fold s. destruct (length s) as [|n] eqn:LS.
  { apply length_zero_iff_nil in LS. contradiction. }
  rewrite <- LS in Ll, Lr. rewrite <- ?LS.
  assert (F1 : firstn (length s) (l ++ r) = l).
  { rewrite firstn_app, <- Ll, Nat.sub_diag. simpl. rewrite app_nil_r. apply firstn_all. }
  assert (F2 : skipn (length (l ++ r) - length s) (l ++ r) = r).
  { rewrite app_length. replace (length l + length r - length s)%nat with (length l) by lia.
    apply skipn_len. }
  rewrite F1, F2. fold o. unfold getNumElements. fold (size s).
  destruct (Z.eqb_spec (size s) 0); [lia|].
  destruct (pad_setup_spec s l r Ll Lr) as (btw & b & en & EP & LB & BB & EE & _). fold o in EP, BB, EE.
  destruct (exists_last NE) as (s' & d & ES).
  assert (LAST : last s 0 = d) by (rewrite ES; apply last_last).
  assert (Hd : 0 < d). { rewrite ES in Hpos. apply Forall_app in Hpos as [_ Q]. now inversion Q. }
  assert (SZ : size s = size s' * d) by (rewrite ES, size_app, size_cons, size_nil; lia).
  assert (SZ1 : 0 < size s') by nia.
  assert (Z0 : unrm s 0 = repeat 0 (length s)).
  { clear. generalize s. clear. intros s. induction s; cbn [unrm length repeat]; auto. rewrite Zdiv_0_l, Zmod_0_l. f_equal; auto. }
  assert (P0 : P o l (unrm s 0) = b).
  { rewrite Z0, map2_repeat0_l by auto. auto. }
  assert (PL : P o l (unrm s (size s - 1)) = size o - 1 - en).
  { destruct (size_maxs s Hpos) as [Em Vm]. rewrite <- Em, unrm_rm by auto. auto. }
  destruct (unrm_spec s 0 Ok) as [V0 E0]; [lia|]. pose proof (P_bound _ V0) as B0.
  destruct (unrm_spec s (size s - 1) Ok) as [Vl El]; [lia|]. pose proof (P_bound _ Vl) as Bl.
  assert (HI0 : pinv (fill_n b v)).
  { change (fill_n b v) with ([] ++ fill_n b v). apply pinv_fill; try lia.
    - split; simpl; intros; [|lia]. pose proof (P_bound _ H). lia.
    - intros i Vi [A B]. simpl in A, B. rewrite <- P0 in B. apply P_mono_inv in B; auto.
      pose proof (rm_bound _ _ Vi). lia. }
  destruct (pad_rows_spec btw b en (size o) (S (Z.to_nat (size s))) (Z.to_nat (size s' - 1)) 0 (fill_n b v))
    as (out & EO & IO & LO); auto; try lia.
  { rewrite LAST. replace (Z.of_nat (S (Z.to_nat (size s' - 1)))) with (size s') by lia. lia. }
  { rewrite SZ. nia. }
  { unfold fill_n. rewrite repeat_length. lia. }
  rewrite Z.sub_0_r in EO.
  assert (Oko : okshape o).
  { eapply valid_okshape. eapply (pad_valid s l r (unrm s 0)); auto. }
  assert (IO2 : pinv (out ++ fill_n en v)).
  { apply pinv_fill; auto; [lia|]. intros i Vi [A _]. rewrite LO in A.
    assert (rm s (unrm s (size s - 1)) < rm s i) by (apply P_mono_inv; auto; lia).
    pose proof (rm_bound _ _ Vi). lia. }
  assert (LEN : Z.of_nat (length (out ++ fill_n en v)) = size o).
  { rewrite app_length. unfold fill_n. rewrite repeat_length. lia. }
  match goal with |- context [fromWideNums junk o ?F] => rewrite (fromWideNums_spec junk o F (out ++ fill_n en v)) end.
  2:{ rewrite EP. rewrite range_explicit; [|exact Ok|repeat constructor; apply (wf_len _ We)].
      fold s. unfold zrange. rewrite EO. cbn [obind].
      replace (length (out ++ fill_n en v) =? length (alloc junk o))%nat with true; auto.
      symmetry. apply Nat.eqb_eq. apply Nat2Z.inj. rewrite LEN. symmetry. now apply alloc_is_data. }
  destruct (fresh_wf o _ Oko LEN) as [G1 [G2 G3]].
  eexists; split; [reflexivity|]. simpl. split; auto. split; auto.
  intros j Vj. rewrite <- G3 by auto. cbn [e_shape]. rewrite elem_rm by auto.
  destruct IO2 as [J1 J2]. pose proof (rm_bound _ _ Vj) as Bj. split.
  - intros i Vi ->. rewrite J1; auto. lia.
  - intros Q. apply J2; [lia|]. intros i Vi EQ. apply (Q i Vi).
    eapply rm_inj; [exact Vj|apply pad_valid; auto|]. auto.
Qed.
End PadMain.

End SlicePad.
