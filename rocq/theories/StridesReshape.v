(** Correctness of zero-copy reshape, transpose and expand of strides. *)
From Coq Require Import List ZArith Lia Bool Arith Permutation.
From Verif Require Import Util TensorSpec TensorLemmas StridesModel StridesProofs.
Import ListNotations.
Open Scope Z_scope.

(** Legal (dim, stride) pair as produced by the code: positive dim,
    non-negative stride, stride 0 when the dim is 1. *)
Definition legal (p : Z * Z) : Prop := 0 < fst p /\ 0 <= snd p /\ (fst p = 1 -> snd p = 0).

Notation dims l := (map fst l).
Notation strs l := (map snd l).

Lemma zero_run_spec l m m' l' : zero_run l m = (m', l') ->
  exists pre, l = pre ++ l' /\ strs pre = repeat 0 (length pre) /\
    m' = m * size (dims pre) /\ (forall d s r, l' = (d, s) :: r -> s <> 0).
Proof.
  revert m; induction l as [|[d s] l IH]; simpl; intros m E.
  - inversion E; subst. exists []. simpl. rewrite size_nil. repeat split; auto; try lia. discriminate.
  - destruct (Z.eqb_spec s 0).
    + apply IH in E as (pre & -> & Hs & Hm & Hh). exists ((d, s) :: pre).
      simpl. rewrite size_cons. subst. repeat split; auto. { now f_equal. } lia.
    + inversion E; subst. exists []. simpl. rewrite size_nil. repeat split; auto; try lia.
      intros ? ? ? E'. inversion E'; subst; auto.
Qed.

Lemma zero_take_spec r m m2 acc m2' r' acc' :
  Forall (fun d => 0 < d) r ->
  zero_take r m m2 acc = (m2', r', acc') -> m2 <= m -> 0 < m2 ->
  exists pre, r = pre ++ r' /\ acc' = acc ++ repeat 0 (length pre) /\
    m2' = m2 * size pre /\ m2' <= m /\ (forall d r2, r' = d :: r2 -> m < m2' * d).
Proof.
  intros Hr; revert m2 acc; induction Hr as [|d r Hd Hr IH]; simpl; intros m2 acc E Hm Hm2.
  - inversion E; subst. exists []. simpl. rewrite size_nil, app_nil_r. repeat split; auto; try lia. discriminate.
  - destruct (Z.leb_spec (m2 * d) m).
    + apply IH in E as (pre & -> & -> & -> & Hle & Hh); auto; try nia.
      exists (d :: pre). simpl. rewrite size_cons, <- app_assoc. repeat split; auto; try lia.
    + inversion E; subst. exists []. simpl. rewrite size_nil, app_nil_r. repeat split; auto; try lia.
      intros ? ? E'; inversion E'; subst; lia.
Qed.

Lemma contig_run_spec l n last :
  Forall legal l -> 0 < last ->
  exists n' last' l', contig_run n last l = Some (n', last', l') /\
  exists pre, l = pre ++ l' /\ n' = n * size (dims pre) /\
    last = last' * size (dims pre) /\ 0 < last' /\
    (forall idx, valid (dims pre) idx -> pos idx (strs pre) = last' * rm (dims pre) idx).
Proof.
  intros HL; revert n last; induction HL as [|[d s] l Hp HL IH]; intros n last Hlast.
  - exists n, last, []. split; auto. exists []. simpl. rewrite size_nil.
    repeat split; auto; try lia. intros idx V; inversion V; simpl; lia.
  - cbn [contig_run]. destruct Hp as (Hd & Hs & H1); cbn [fst snd] in *.
    destruct (Z.eqb_spec d 1).
    + assert (s = 0) by auto. subst s. simpl. destruct (IH n last Hlast) as (n' & last' & l' & E & pre & -> & En & El & Hl' & P).
      exists n', last', l'. split; auto. exists ((d, 0) :: pre). simpl. rewrite size_cons.
      repeat split; auto; try (subst; nia).
      intros idx V. inversion V; subst. simpl. rewrite P by auto.
      assert (y = 0) by lia. subst. lia.
    + destruct (Z.eqb_spec last (d * s)).
      * assert (0 < s) by nia.
        destruct (IH (n * d) s H) as (n' & last' & l' & E & pre & -> & En & El & Hl' & P).
        exists n', last', l'. split; auto. exists ((d, s) :: pre). simpl. rewrite size_cons.
        repeat split; auto; try (subst; nia).
        intros idx V. inversion V; subst. simpl. rewrite P by auto. nia.
      * exists n, last, ((d, s) :: l). split; auto. exists []. simpl. rewrite size_nil.
        repeat split; auto; try lia. intros idx V; inversion V; simpl; lia.
Qed.

Lemma contig_take_spec r n n2 total acc n2' total' r' acc' :
  Forall (fun d => 0 < d) r ->
  contig_take r n n2 total acc = (n2', total', r', acc') -> n2 <= n -> 0 < n2 -> 0 <= total ->
  exists pre rs, r = pre ++ r' /\ acc' = acc ++ rs /\ length rs = length pre /\
    n2' = n2 * size pre /\ n2' <= n /\ (forall d r2, r' = d :: r2 -> n < n2' * d) /\
    Forall legal (combine pre rs) /\
    (forall last, 0 < last -> n2 * total = n * last -> n2' = n ->
      total' = last /\ total = last * size pre /\
      forall j, valid pre j -> pos j rs = last * rm pre j).
Proof.
  intros Hr; revert n2 total acc; induction Hr as [|d r Hd Hr IH]; cbn [contig_take]; intros n2 total acc E Hn Hn2 Ht.
  - inversion E; subst. exists [], []. simpl. rewrite size_nil, app_nil_r.
    repeat split; auto; try lia; try discriminate.
    + assert (n2' = n) by lia. subst. nia.
    + assert (n2' = n) by lia. subst. nia.
    + intros j V; inversion V; simpl; lia.
  - destruct (Z.leb_spec (n2 * d) n).
    + destruct (Z.eqb_spec d 1).
      * apply IH in E as (pre & rs & -> & -> & HL & -> & Hle & Hh & Hleg & HP); auto.
        exists (d :: pre), (0 :: rs). simpl. rewrite size_cons, <- app_assoc. subst d.
        repeat split; auto; try lia.
        -- constructor; auto. repeat split; simpl; lia.
        -- apply HP; auto.
        -- destruct (HP last) as (? & ? & ?); auto; lia.
        -- intros j V. destruct (HP last) as (? & ? & P); auto.
           inversion V; subst. simpl. rewrite P by auto. assert (y = 0) by lia. subst; lia.
      * rewrite Z.quot_div_nonneg in E by lia.
        pose proof (Z.div_pos total d Ht ltac:(lia)) as Hq.
        apply IH in E as (pre & rs & -> & -> & HL & -> & Hle & Hh & Hleg & HP); auto; try nia.
        exists (d :: pre), ((total / d) :: rs). simpl. rewrite size_cons, <- app_assoc.
        assert (forall last, n2 * total = n * last -> n2 * (d * size pre) = n ->
            total = d * (size pre * last)) as Q.
        { intros. assert (n2 * total = n2 * (d * (size pre * last))) by nia. nia. }
        assert (forall last, n2 * total = n * last -> n2 * (d * size pre) = n ->
            total / d = size pre * last) as QD.
        { intros. rewrite (Q last) by auto. rewrite (Z.mul_comm d), Z.div_mul by lia. auto. }
        split; [auto|]. split; [auto|]. split; [auto|]. split; [lia|]. split; [lia|].
        split; [exact Hh|].
        split; [constructor; auto; repeat split; simpl; lia|].
        intros last Hlast EQ1 EQ2.
        pose proof (QD last EQ1 ltac:(lia)) as ET. pose proof (Q last EQ1 ltac:(lia)) as ET2.
        destruct (HP last) as (HT1 & HT2 & P); auto.
        { rewrite ET. nia. }
        split; auto. split; [lia|].
        intros j V. inversion V; subst. simpl. rewrite P by auto. rewrite ET. lia.
    + inversion E; subst. exists [], []. simpl. rewrite size_nil, app_nil_r.
      repeat split; auto; try lia; try discriminate.
      * intros ? ? E'; inversion E'; subst; lia.
      * assert (n2' = n) by lia. subst. nia.
      * assert (n2' = n) by lia. subst. nia.
      * intros j V; inversion V; simpl; lia.
Qed.

(** Two views of the same element set agree: same row-major rank implies same position. *)
Definition agree (s st r rs : list Z) : Prop :=
  length rs = length r /\
  forall i j, valid s i -> valid r j -> rm s i = rm r j -> pos i st = pos j rs.

Lemma agree_app s1 st1 r1 rs1 s2 st2 r2 rs2 c :
  length s1 = length st1 -> length r1 = length rs1 ->
  size s1 = size r1 -> size s2 = size r2 ->
  (forall i, valid s1 i -> pos i st1 = c * rm s1 i) ->
  (forall j, valid r1 j -> pos j rs1 = c * rm r1 j) ->
  agree s2 st2 r2 rs2 -> agree (s1 ++ s2) (st1 ++ st2) (r1 ++ r2) (rs1 ++ rs2).
Proof.
  intros L1 L2 E1 E2 P1 P2 [L3 P3]. split; [rewrite !app_length; lia|].
  intros i j Vi Vj E.
  apply valid_split_app in Vi as (i1 & i2 & -> & Vi1 & Vi2).
  apply valid_split_app in Vj as (j1 & j2 & -> & Vj1 & Vj2).
  pose proof (valid_length _ _ Vi1). pose proof (valid_length _ _ Vj1).
  rewrite !rm_app in E by auto. rewrite !pos_app by congruence.
  rewrite P1, P2 by auto.
  pose proof (rm_bound _ _ Vi2). pose proof (rm_bound _ _ Vj2). rewrite E2 in *.
  assert (rm s1 i1 = rm r1 j1) by nia. rewrite (P3 i2 j2) by (auto; nia). lia.
Qed.

Lemma legal_app l1 l2 : Forall legal (l1 ++ l2) <-> Forall legal l1 /\ Forall legal l2.
Proof. apply Forall_app. Qed.

Lemma legal_dims l : Forall legal l -> Forall (fun d => 0 < d) (dims l).
Proof. induction 1; simpl; constructor; auto. apply H. Qed.

Lemma combine_app {A B} (a1 a2 : list A) (b1 b2 : list B) :
  length a1 = length b1 -> combine (a1 ++ a2) (b1 ++ b2) = combine a1 b1 ++ combine a2 b2.
Proof. revert b1; induction a1; destruct b1; simpl; intros; try discriminate; auto. f_equal; auto. Qed.

Lemma legal_zeros pre : Forall (fun d => 0 < d) pre ->
  Forall legal (combine pre (repeat 0 (length pre))).
Proof. induction 1; simpl; constructor; auto. repeat split; simpl; auto; lia. Qed.

Lemma reshape_loop_spec fuel l r acc :
  Forall legal l -> Forall (fun d => 0 < d) r -> size (dims l) = size r ->
  (length l < fuel)%nat ->
  reshape_loop fuel l r acc = RS_none \/
  exists rs, reshape_loop fuel l r acc = RS_some (acc ++ rs) /\
    agree (dims l) (strs l) r rs /\ Forall legal (combine r rs).
Proof.
  revert l r acc; induction fuel as [|fuel IH]; intros l r acc Hl Hr Hsz Hf; [lia|].
  cbn [reshape_loop].
  destruct (zero_run l 1) as [m l1] eqn:E1.
  apply zero_run_spec in E1 as (p1 & -> & Hz & Hm & Hh1).
  apply legal_app in Hl as [Hp1 Hl1].
  pose proof (legal_dims _ Hp1) as Hd1. pose proof (prodZ_pos _ Hd1) as Hpos1. fold (size (dims p1)) in Hpos1.
  destruct (zero_take r m 1 acc) as [[m2 r1] acc1] eqn:E2.
  apply zero_take_spec in E2 as (q1 & -> & -> & Hm2 & Hle & Hh2); auto; try lia.
  apply Forall_app in Hr as [Hq1 Hr1].
  rewrite map_app, size_app, size_app in Hsz.
  destruct (Z.ltb_spec m2 m); [auto|].
  assert (Esz1 : size (dims p1) = size q1) by lia.
  assert (Esz1' : size (dims l1) = size r1) by nia.
  assert (Zp : forall i, valid (dims p1) i -> pos i (strs p1) = 0 * rm (dims p1) i).
  { intros. rewrite Hz, pos_repeat0. lia. }
  assert (Zq : forall j, valid q1 j -> pos j (repeat 0 (length q1)) = 0 * rm q1 j).
  { intros. rewrite pos_repeat0. lia. }
  assert (Lq : length q1 = length (repeat 0 (length q1))) by (now rewrite repeat_length).
  assert (Lp : length (dims p1) = length (strs p1)) by (now rewrite !map_length).
  assert (R1 : forall d rr, r1 = d :: rr -> 1 < d).
  { intros d rr E. specialize (Hh2 _ _ E). nia. }
  assert (NIL : forall rr, Forall (fun d => 0 < d) rr -> size rr = 1 ->
     (forall d r0, rr = d :: r0 -> 1 < d) -> rr = []).
  { intros rr F S1 HH. destruct rr as [|x rr]; auto. specialize (HH _ _ eq_refl). inversion F; subst.
    rewrite size_cons in S1. pose proof (prodZ_pos _ H3) as PP. fold (size rr) in PP. nia. }
  destruct l1 as [|[d s] l1'].
  - (* all axes consumed *)
    simpl in Esz1'. rewrite size_nil in Esz1'.
    rewrite (NIL r1) by auto. right.
    exists (repeat 0 (length q1)). split; [reflexivity|]. split.
    + rewrite !app_nil_r. rewrite <- (app_nil_r q1) at 1. rewrite <- (app_nil_r (repeat _ _)).
      rewrite <- (app_nil_r (dims p1)), <- (app_nil_r (strs p1)).
      eapply agree_app; eauto.
      split; auto. intros i j Vi Vj _. inversion Vi; inversion Vj; auto.
    + rewrite app_nil_r. now apply legal_zeros.
  - specialize (Hh1 _ _ _ eq_refl).
    inversion Hl1 as [|? ? Hp Hl1' Eq]; subst x l. destruct Hp as (Hd & Hs & H1); cbn [fst snd] in *.
    assert (d <> 1) by auto.
    destruct (Z.ltb_spec 1 d), (Z.ltb_spec 0 s); try lia.
    cbn [andb negb].
    destruct (contig_run_spec l1' d s Hl1' ltac:(lia))
      as (n & last & l2 & EC & p2 & -> & En & El & Hlast & P2). rewrite EC.
    apply legal_app in Hl1' as [Hp2 Hl2].
    pose proof (legal_dims _ Hp2) as Hd2. pose proof (prodZ_pos _ Hd2) as Hpos2. fold (size (dims p2)) in Hpos2.
    destruct (Z.eqb_spec (s * d) (n * last)); [|nia]. cbn [negb].
    destruct (contig_take r1 n 1 (s * d) (acc ++ repeat 0 (length q1))) as [[[n2 total] r2] acc2] eqn:E3.
    apply contig_take_spec in E3 as (q2 & rs2 & -> & -> & HL2 & En2 & Hle2 & Hh3 & Hleg2 & HT); auto; try nia.
    apply Forall_app in Hr1 as [Hq2 Hr2].
    destruct (Z.ltb_spec n2 n) as [|Hge]; [auto|].
    assert (n2 = n) as Enn by lia.
    destruct (HT last) as (Et & Est & PQ); auto; [lia|].
    destruct (Z.eqb_spec last total); [|lia]. cbn [negb].
    cbn [map app fst] in Esz1'. rewrite map_app, size_cons, size_app, size_app in Esz1'.
    assert (Esz2 : size (dims ((d, s) :: p2)) = size q2) by (simpl; rewrite size_cons; lia).
    assert (Esz2' : size (dims l2) = size r2).
    { simpl in Esz2. rewrite size_cons in Esz2. rewrite <- Esz2 in Esz1'. apply (Z.mul_reg_l _ _ (d * size (dims p2))); nia. }
    assert (P1 : forall i, valid (dims ((d, s) :: p2)) i ->
        pos i (strs ((d, s) :: p2)) = last * rm (dims ((d, s) :: p2)) i).
    { intros i V. simpl in V. inversion V; subst. simpl. rewrite P2 by auto. nia. }
    assert (LL : length (dims ((d, s) :: p2)) = length (strs ((d, s) :: p2))) by (now rewrite !map_length).
    assert (A : forall rs, agree (dims l2) (strs l2) r2 rs ->
      agree (dims (p1 ++ (d, s) :: p2 ++ l2)) (strs (p1 ++ (d, s) :: p2 ++ l2))
            (q1 ++ q2 ++ r2) (repeat 0 (length q1) ++ rs2 ++ rs)).
    { intros rs AG. change ((d, s) :: p2 ++ l2) with (((d, s) :: p2) ++ l2).
      rewrite !map_app. eapply agree_app; eauto.
      - rewrite !size_app. rewrite Esz2, Esz2'. auto.
      - rewrite <- !map_app. rewrite !map_app. eapply agree_app; eauto. }
    assert (G : forall rs, length rs = length r2 -> Forall legal (combine r2 rs) ->
       Forall legal (combine (q1 ++ q2 ++ r2) (repeat 0 (length q1) ++ rs2 ++ rs))).
    { intros rs HL HLeg. rewrite !combine_app by auto. apply Forall_app; split; [now apply legal_zeros|].
      apply Forall_app; split; auto. }
    destruct l2 as [|ds l2'].
    + simpl in Esz2'. rewrite size_nil in Esz2'.
      assert (r2 = []) as E0 by (apply NIL; auto; intros d0 r0 E0; specialize (Hh3 _ _ E0); nia).
      subst r2. right. exists (repeat 0 (length q1) ++ rs2 ++ []).
      split; [cbn [rs_finish]; f_equal; rewrite app_nil_r, app_assoc; reflexivity|].
      split.
      * apply A. split; auto. intros i j Vi Vj _. inversion Vi; inversion Vj; auto.
      * apply (G []); auto.
    + destruct (IH (ds :: l2') r2 ((acc ++ repeat 0 (length q1)) ++ rs2)) as [EN | (rs & ER & AG & LG)]; auto.
      { rewrite app_length in Hf; simpl in Hf. rewrite app_length in Hf. simpl in *. lia. }
      right. exists (repeat 0 (length q1) ++ rs2 ++ rs). split; [|split].
      * rewrite ER. now rewrite <- !app_assoc.
      * apply A; auto.
      * apply G; auto. apply AG.
Qed.

(** ** reshapeStrides *)
Definition legal_strides (s st : list Z) : Prop :=
  length st = length s /\ Forall legal (combine s st).

Lemma map_fst_combine {A B} (l : list A) (m : list B) : length m = length l -> map fst (combine l m) = l.
Proof. revert m; induction l; destruct m; simpl; intros; try discriminate; auto. f_equal; auto. Qed.
Lemma map_snd_combine {A B} (l : list A) (m : list B) : length m = length l -> map snd (combine l m) = m.
Proof. revert m; induction l; destruct m; simpl; intros; try discriminate; auto. f_equal; auto. Qed.

Lemma default_legal s : Forall (fun d => 0 < d) s -> legal_strides s (getDefaultStrides s).
Proof.
  intros H. split; [apply defaultStrides_length|]. induction H; [constructor|].
  rewrite defaultStrides_cons. simpl. constructor; auto.
  pose proof (prodZ_pos _ H0) as PP; fold (size l) in PP.
  unfold legal; simpl. destruct (Z.eqb_spec x 1); lia.
Qed.

Lemma default_agree s st r : length st = length s -> areStridesContiguous s st = true ->
  agree s st r (getDefaultStrides r).
Proof.
  intros HL HC. apply contiguous_iff in HC; auto. subst.
  split; [apply defaultStrides_length|]. intros. rewrite !default_pos; auto.
Qed.

Lemma reshapeStrides_spec s st r :
  legal_strides s st -> Forall (fun d => 0 < d) r -> size s = size r ->
  reshapeStrides s st r = RS_none \/
  exists rs, reshapeStrides s st r = RS_some rs /\ agree s st r rs /\ legal_strides r rs.
Proof.
  intros [HL Hleg] Hr Hsz. unfold reshapeStrides, getNumElements. fold (size s) (size r).
  rewrite HL, Nat.eqb_refl, Hsz, Z.eqb_refl. cbn [andb negb].
  destruct (areStridesContiguous s st) eqn:EC.
  - right. exists (getDefaultStrides r). split; auto. split; [now apply default_agree|].
    now apply default_legal.
  - pose proof (legal_dims _ Hleg) as Hd. rewrite map_fst_combine in Hd by auto.
    pose proof (prodZ_pos _ Hr) as Hp; fold (size r) in Hp.
    destruct (Z.ltb_spec 1 (size r)); cbn [negb].
    + destruct (reshape_loop_spec (S (length s)) (combine s st) r []) as [E | (rs & E & AG & LG)]; auto.
      * now rewrite map_fst_combine.
      * rewrite combine_length; lia.
      * right. exists rs. split; auto.
        rewrite map_fst_combine, map_snd_combine in AG by auto. split; auto. split; auto. apply AG.
    + exfalso. assert (size s = 1) by lia. clear - HL Hleg EC H0 Hd.
      assert (st = getDefaultStrides s); [|apply contiguous_iff in H; auto; congruence].
      clear EC. revert st HL Hleg H0; induction Hd; intros st HL Hleg HS.
      * destruct st; [reflexivity|discriminate].
      * destruct st as [|k st]; [discriminate|]. simpl in *. inversion Hleg; subst.
        rewrite size_cons in HS. pose proof (prodZ_pos _ Hd) as PP; fold (size l) in PP.
        assert (x = 1) by nia. assert (size l = 1) by nia. subst x.
        rewrite defaultStrides_cons. simpl. destruct H2 as (_ & _ & H2). simpl in H2.
        rewrite H2 by auto. f_equal. apply IHHd; auto; try lia.
Qed.

(** ** transpose *)
Definition is_perm (n : nat) (perm : list nat) : Prop := Permutation perm (seq 0 n).

Lemma pos_sum idx st : length idx = length st ->
  pos idx st = sumZ (map (fun k => nth k idx 0 * nth k st 0) (seq 0 (length idx))).
Proof.
  revert st; induction idx; destruct st; simpl; intros; try discriminate; auto.
  rewrite sumZ_cons, <- seq_shift, map_map. rewrite IHidx by lia. reflexivity.
Qed.

Lemma sumZ_perm l m : Permutation l m -> sumZ l = sumZ m.
Proof. induction 1; rewrite ?sumZ_cons; lia. Qed.

Lemma prodZ_perm l m : Permutation l m -> prodZ l = prodZ m.
Proof. induction 1; rewrite ?prodZ_cons; lia. Qed.

Lemma transposeDims_length d perm : length (transposeDims d perm) = length perm.
Proof. apply map_length. Qed.

Lemma is_perm_length n perm : is_perm n perm -> length perm = n.
Proof. intros H. apply Permutation_length in H. now rewrite seq_length in H. Qed.

Lemma map_nth_seq {B} (f : nat -> B) l (d : nat) :
  map (fun k => f (nth k l d)) (seq 0 (length l)) = map f l.
Proof.
  induction l; simpl; auto. f_equal. rewrite <- seq_shift, map_map. auto.
Qed.

Lemma nth_transpose d perm k : (k < length perm)%nat ->
  nth k (transposeDims d perm) 0 = nth (nth k perm O) d 0.
Proof.
  intros. unfold transposeDims.
  rewrite nth_indep with (d' := (fun p => nth p d 0) O) by (rewrite map_length; auto).
  apply (map_nth (fun p => nth p d 0)).
Qed.

Lemma pos_transpose idx st perm :
  is_perm (length st) perm -> length idx = length st ->
  pos (transposeDims idx perm) (transposeDims st perm) = pos idx st.
Proof.
  intros HP HL. pose proof (is_perm_length _ _ HP) as HPL.
  rewrite pos_sum by (rewrite !transposeDims_length; auto).
  rewrite transposeDims_length, (pos_sum idx st) by auto.
  rewrite (map_ext_in _ (fun k => (fun p => nth p idx 0 * nth p st 0) (nth k perm O))).
  - rewrite (map_nth_seq (fun p => nth p idx 0 * nth p st 0)).
    apply sumZ_perm. apply Permutation_map. rewrite HL. exact HP.
  - intros k Hk. apply in_seq in Hk. rewrite !nth_transpose by lia. auto.
Qed.

Lemma transpose_valid s idx perm :
  is_perm (length s) perm -> valid s idx -> valid (transposeDims s perm) (transposeDims idx perm).
Proof.
  intros HP V. assert (Forall (fun p => (p < length s)%nat) perm) as HB.
  { apply Forall_forall. intros p Hp. eapply Permutation_in in Hp; [|exact HP].
    apply in_seq in Hp. lia. }
  clear HP. induction HB; simpl; constructor; auto.
  apply valid_nth; auto. rewrite <- (valid_length _ _ V). auto.
Qed.

Lemma transpose_size s perm : is_perm (length s) perm -> size (transposeDims s perm) = size s.
Proof.
  intros HP. unfold size, transposeDims.
  rewrite (prodZ_perm _ (map (fun p => nth p s 0) (seq 0 (length s)))) by (apply Permutation_map; auto).
  f_equal. clear. induction s; simpl; auto. f_equal. rewrite <- seq_shift, map_map. auto.
Qed.

(** untransposeDims inverts transposeDims. *)
Lemma untranspose_loop_length d perm acc : length (untranspose_loop d perm acc) = length acc.
Proof.
  revert perm acc; induction d; destruct perm; simpl; intros; auto. rewrite IHd, upd_length; auto.
Qed.

Lemma untranspose_loop_other d perm acc k :
  ~ In k perm -> nth k (untranspose_loop d perm acc) 0 = nth k acc 0.
Proof.
  revert perm acc; induction d; destruct perm; simpl; intros; auto.
  rewrite IHd by tauto. apply nth_upd_other. tauto.
Qed.

Lemma untranspose_loop_nth d perm acc k :
  length d = length perm -> NoDup perm -> Forall (fun p => (p < length acc)%nat) perm ->
  (k < length perm)%nat ->
  nth (nth k perm O) (untranspose_loop d perm acc) 0 = nth k d 0.
Proof.
  revert perm acc k; induction d; destruct perm; simpl; intros acc k HL ND HF Hk; try discriminate; try lia.
  inversion ND; subst. inversion HF; subst. destruct k.
  - rewrite untranspose_loop_other by auto. apply nth_upd_same; auto.
  - apply IHd; auto; try lia. eapply Forall_impl; [|eassumption]. intros. rewrite upd_length. auto.
Qed.

Lemma is_perm_bound n perm : is_perm n perm -> Forall (fun p => (p < n)%nat) perm.
Proof.
  intros HP. apply Forall_forall. intros p Hp. eapply Permutation_in in Hp; [|exact HP].
  apply in_seq in Hp. lia.
Qed.

Lemma is_perm_NoDup n perm : is_perm n perm -> NoDup perm.
Proof. intros HP. eapply Permutation_NoDup; [symmetry; exact HP|]. apply seq_NoDup. Qed.

Lemma transpose_untranspose n d perm : is_perm n perm -> length d = n ->
  transposeDims (untransposeDims d perm) perm = d.
Proof.
  intros HP HL. pose proof (is_perm_length _ _ HP).
  apply nth_ext with (d := 0) (d' := 0); [rewrite transposeDims_length; lia|].
  intros k Hk. rewrite transposeDims_length in Hk. rewrite nth_transpose by auto.
  unfold untransposeDims. apply untranspose_loop_nth; auto; try lia.
  - eapply is_perm_NoDup; eauto.
  - rewrite repeat_length, H. now apply is_perm_bound.
Qed.

Lemma untranspose_length d perm : length (untransposeDims d perm) = length perm.
Proof. unfold untransposeDims. rewrite untranspose_loop_length, repeat_length; auto. Qed.

Lemma untranspose_transpose n d perm : is_perm n perm -> length d = n ->
  untransposeDims (transposeDims d perm) perm = d.
Proof.
  intros HP HL. pose proof (is_perm_length _ _ HP).
  apply nth_ext with (d := 0) (d' := 0); [rewrite untranspose_length; lia|].
  intros k Hk. rewrite untranspose_length in Hk.
  assert (In k perm) as Hin.
  { eapply Permutation_in; [symmetry; exact HP|]. apply in_seq. lia. }
  apply In_nth with (d := O) in Hin as (j & Hj & <-).
  unfold untransposeDims. rewrite untranspose_loop_nth; auto.
  - rewrite nth_transpose by auto. auto.
  - apply transposeDims_length.
  - eapply is_perm_NoDup; eauto.
  - rewrite repeat_length, H. now apply is_perm_bound.
Qed.

Lemma untranspose_valid n s idx perm : is_perm n perm -> length s = n ->
  valid (transposeDims s perm) idx -> valid s (untransposeDims idx perm).
Proof.
  intros HP HL V. pose proof (is_perm_length _ _ HP).
  pose proof (valid_length _ _ V) as VL. rewrite transposeDims_length in VL.
  assert (forall k, (k < n)%nat -> 0 <= nth k (untransposeDims idx perm) 0 < nth k s 0) as G.
  { intros k Hk. assert (In k perm) as Hin.
    { eapply Permutation_in; [symmetry; exact HP|]. apply in_seq. lia. }
    apply In_nth with (d := O) in Hin as (j & Hj & <-).
    pose proof (valid_nth _ _ j V ltac:(lia)) as B. rewrite nth_transpose in B by auto.
    unfold untransposeDims. rewrite untranspose_loop_nth; auto; try lia.
    - eapply is_perm_NoDup; eauto.
    - rewrite repeat_length, H. now apply is_perm_bound. }
  assert (length (untransposeDims idx perm) = n) as UL by (rewrite untranspose_length; lia).
  clear - G UL HL. revert n s HL UL G. generalize (untransposeDims idx perm).
  induction l; destruct s; simpl; intros; subst; try discriminate; [constructor|].
  constructor.
  - apply (G O). lia.
  - apply (IHl (length l)); [lia|auto|]. intros k Hk. apply (G (S k)). lia.
Qed.
