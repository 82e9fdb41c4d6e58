(** Block copies: concat and split. *)
From Coq Require Import List ZArith Lia Bool Arith.
From Verif Require Import Util TensorSpec TensorLemmas StridesModel StridesProofs StridesReshape
  ElementsModel ElementsSpec ElementsBase ElementsViews.
Import ListNotations.
Open Scope Z_scope.

Lemma offsets_loop_spec c fuel start step limit :
  0 <= step -> (c <= fuel)%nat -> limit <= start + Z.of_nat c * step ->
  (0 < Z.of_nat c -> start + (Z.of_nat c - 1) * step < limit) ->
  offsets_loop fuel start step limit = Some (map (fun k => start + k * step) (zseq 0 c)).
Proof.
  intros Hst. revert fuel start; induction c; intros fuel start Hf Hl Hc.
  - destruct fuel; simpl; destruct (Z.ltb_spec start limit); auto; lia.
  - destruct fuel; [lia|]. cbn [offsets_loop].
    assert (start < limit) by nia.
    destruct (Z.ltb_spec start limit); [|lia].
    rewrite IHc; [|lia|lia|intros; nia]. cbn [obind zseq map]. do 2 f_equal; [lia|].
    assert (G : forall n a, map (fun k => start + step + k * step) (zseq a n) =
              map (fun k => start + k * step) (zseq (a + 1) n)).
    { clear. induction n; intros; simpl; auto. f_equal; [lia|]. now apply IHn. }
    now apply G.
Qed.

(** Offsets of the blocks of a band starting at [start]. *)
Lemma for_offsets_blocks start step N : 0 <= start <= step -> 0 <= N ->
  exists c, for_offsets start step (N * step) = Some (map (fun k => start + k * step) (zseq 0 c)) /\
    (Z.of_nat c <= N) /\ (start < step -> Z.of_nat c = N).
Proof.
  intros Hs HN. destruct (Z.eq_dec start step) as [E|E].
  - exists (Z.to_nat (if step =? 0 then 0 else N - 1)). unfold for_offsets. split; [|split].
    + destruct (Z.eqb_spec step 0).
      * subst. simpl. rewrite Z.mul_0_r. reflexivity.
      * apply offsets_loop_spec; nia.
    + destruct (Z.eqb_spec step 0); lia.
    + lia.
  - exists (Z.to_nat N). unfold for_offsets. split; [|split; [lia|lia]].
    apply offsets_loop_spec; nia.
Qed.

Lemma split3 i (k : Z) j pre K post :
  length pre = length i -> rm (pre ++ K :: post) (i ++ k :: j) =
  rm pre i * (K * size post) + k * size post + rm post j.
Proof. intros. rewrite rm_app by auto. rewrite size_cons. simpl. lia. Qed.

Lemma valid3 pre K post idx : valid (pre ++ K :: post) idx ->
  exists i c j, idx = i ++ c :: j /\ valid pre i /\ 0 <= c < K /\ valid post j.
Proof.
  intros V. apply valid_split_app in V as (i & j & -> & Vi & Vj).
  inversion Vj; subst. eauto 10.
Qed.

Lemma valid3_mk pre K post i c j : valid pre i -> 0 <= c < K -> valid post j ->
  valid (pre ++ K :: post) (i ++ c :: j).
Proof.
  intros Vi Hc Vj. apply valid_app; [now apply valid_length|]. split; auto. constructor; auto.
Qed.

Lemma okshape3 pre K post : okshape (pre ++ K :: post) <-> okshape pre /\ 0 <= K /\ okshape post.
Proof. unfold okshape. rewrite Forall_app. rewrite Forall_cons_iff. tauto. Qed.

Lemma nth_mid {A} (pre post : list A) K d : nth (length pre) (pre ++ K :: post) d = K.
Proof. now rewrite nth_middle. Qed.

Lemma skipn_mid {A} (pre post : list A) K : skipn (length pre + 1) (pre ++ K :: post) = post.
Proof. rewrite skipn_app. rewrite skipn_all2 by lia. replace (_ - _)%nat with 1%nat by lia. reflexivity. Qed.

Lemma skipn_len {A} (pre post : list A) : skipn (length pre) (pre ++ post) = post.
Proof. rewrite skipn_app, Nat.sub_diag, skipn_all. reflexivity. Qed.

Lemma upd_mid {A} (pre post : list A) K K' : upd (length pre) K' (pre ++ K :: post) = pre ++ K' :: post.
Proof. rewrite upd_app_r by lia. now rewrite Nat.sub_diag. Qed.

Section Concat.
Context {W : Type}.
Variable junk : W.
Implicit Types e : elements W.

(** One block of the copy loop. *)
Lemma concat_block_spec e data a n blk o (dst : list W) :
  wf e -> repr e data -> 0 <= a -> 0 <= blk <= Z.of_nat n -> a + Z.of_nat n <= size (e_shape e) ->
  0 <= o -> o + blk <= Z.of_nat (length dst) ->
  exists dst',
    concat_block (bufferAsWideNums e) blk o (dst, map (mk_item [e_strides e] (e_shape e)) (zseq a n)) =
      Some (dst', map (mk_item [e_strides e] (e_shape e)) (zseq (a + blk) (n - Z.to_nat blk))) /\
    length dst' = length dst /\
    forall q, zget dst' q = if (o <=? q) && (q <? o + blk) then zget data (a + (q - o)) else zget dst q.
Proof.
  intros H R Ha Hb Hn Ho Hl. unfold concat_block, zrange.
  assert (GEN : forall m p a n (d : list W), 0 <= p -> p + Z.of_nat m = blk -> 0 <= a ->
    (m <= n)%nat -> a + Z.of_nat n <= size (e_shape e) -> length d = length dst ->
    exists d', foldM (fun p st => let '(dst, items) := st in
        match items with
        | [] => None
        | it :: items' => v <- zget (bufferAsWideNums e) (off it 0) ;; dst' <- zset dst (o + p) v ;; Some (dst', items')
        end) (zseq p m) (d, map (mk_item [e_strides e] (e_shape e)) (zseq a n)) =
      Some (d', map (mk_item [e_strides e] (e_shape e)) (zseq (a + Z.of_nat m) (n - m))) /\
    length d' = length d /\
    forall q, zget d' q = if (o + p <=? q) && (q <? o + blk) then zget data (a + (q - o - p)) else zget d q).
  { clear a n Ha Hb Hn. induction m; intros p a n d Hp Hm Ha Hmn Hn HL.
    - exists d. simpl. rewrite Z.add_0_r, Nat.sub_0_r. repeat split.
      intros q. destruct (Z.leb_spec (o + p) q), (Z.ltb_spec q (o + blk)); simpl; auto; lia.
    - destruct n as [|n]; [lia|]. cbn [zseq map foldM].
      rewrite (item_value e data a) by (auto; try lia; apply (wf_ok _ H)).
      destruct (zget_some data a) as (v & Ev).
      { destruct R as [D _]. rewrite D. lia. }
      rewrite Ev. cbn [obind]. rewrite zset_some by lia. cbn [obind].
      destruct (IHm (p + 1) (a + 1) n (upd (Z.to_nat (o + p)) v d)) as (d' & E & L & G); try lia.
      { rewrite upd_length. lia. }
      exists d'. split.
      { rewrite E. do 2 f_equal. replace (a + 1 + Z.of_nat m) with (a + Z.of_nat (S m)) by lia. reflexivity. }
      rewrite upd_length in L. split; auto. intros q. rewrite G, zget_upd by lia.
      destruct (Z.leb_spec (o + (p + 1)) q), (Z.leb_spec (o + p) q), (Z.ltb_spec q (o + blk)),
        (Z.eqb_spec q (o + p)); simpl; auto; try lia; try (f_equal; lia).
      + subst q. rewrite <- Ev. f_equal. lia. }
  destruct (GEN (Z.to_nat blk) 0 a n dst) as (d' & E & L & G); try lia.
  exists d'. split.
  { rewrite Z2Nat.id in E by lia. exact E. }
  split; auto. intros q. rewrite G. rewrite Z.add_0_r.
  destruct (_ && _); auto. f_equal. lia.
Qed.

(** The whole band of one input. *)
Lemma concat_input_spec e data pre k post start OBL (dst : list W) :
  wf e -> e_shape e = pre ++ k :: post -> repr e data ->
  0 <= start -> start + k * size post <= OBL -> Z.of_nat (length dst) = size pre * OBL ->
  exists dst', concat_input (size post) OBL (length pre) e (dst, start) = Some (dst', start + k * size post) /\
    length dst' = length dst /\
    forall b r, 0 <= b < size pre -> 0 <= r < OBL ->
      zget dst' (b * OBL + r) =
      if (start <=? r) && (r <? start + k * size post)
      then zget data (b * (k * size post) + (r - start)) else zget dst (b * OBL + r).
Proof.
  intros H HS R Hst Hb HL. pose proof (wf_ok _ H) as Ok. rewrite HS in Ok.
  apply okshape3 in Ok as (Op & Hk & Oq). pose proof (size_nonneg _ Op). pose proof (size_nonneg _ Oq).
  set (blk := k * size post) in *. assert (0 <= blk) by (unfold blk; nia).
  assert (SZ : size (e_shape e) = size pre * blk).
  { rewrite HS, size_app, size_cons. reflexivity. }
  unfold concat_input. rewrite HS, nth_mid. fold blk. rewrite <- HS, HL.
  destruct (for_offsets_blocks start OBL (size pre)) as (c & EO & Hc1 & Hc2); try lia.
  rewrite EO. cbn [obind].
  rewrite range_explicit; [|apply (wf_ok _ H)|repeat constructor; apply (wf_len _ H)].
  unfold zrange. rewrite foldM_map.
  assert (GEN : forall m k0 (d : list W), 0 <= k0 -> k0 + Z.of_nat m <= size pre -> length d = length dst ->
    exists d', foldM (fun k => concat_block (bufferAsWideNums e) blk (start + k * OBL)) (zseq k0 m)
      (d, map (mk_item [e_strides e] (e_shape e)) (zseq (k0 * blk) (Z.to_nat (size (e_shape e) - k0 * blk)))) =
      Some (d', map (mk_item [e_strides e] (e_shape e))
        (zseq ((k0 + Z.of_nat m) * blk) (Z.to_nat (size (e_shape e) - (k0 + Z.of_nat m) * blk)))) /\
    length d' = length d /\
    forall b r, 0 <= b < size pre -> 0 <= r < OBL ->
      zget d' (b * OBL + r) =
      if (start <=? r) && (r <? start + blk) && (k0 <=? b) && (b <? k0 + Z.of_nat m)
      then zget data (b * blk + (r - start)) else zget d (b * OBL + r)).
  { induction m; intros k0 d Hk0 Hm HLd.
    - exists d. cbn [zseq foldM]. rewrite Z.add_0_r. split; auto. split; auto. intros b r Hbb Hr.
      destruct (Z.leb_spec k0 b), (Z.ltb_spec b k0); rewrite ?andb_false_r; simpl; auto; lia.
    - cbn [zseq foldM].
      destruct (concat_block_spec e data (k0 * blk) (Z.to_nat (size (e_shape e) - k0 * blk)) blk
        (start + k0 * OBL) d) as (d1 & E1 & L1 & G1); auto; try nia.
      rewrite E1. cbn [obind].
      destruct (IHm (k0 + 1) d1) as (d' & E & L & G); try lia.
      exists d'. split.
      { replace (k0 * blk + blk) with ((k0 + 1) * blk) by lia.
        replace (Z.to_nat (size (e_shape e) - k0 * blk) - Z.to_nat blk)%nat
          with (Z.to_nat (size (e_shape e) - (k0 + 1) * blk)) by nia.
        rewrite E. replace (k0 + 1 + Z.of_nat m) with (k0 + Z.of_nat (S m)) by lia. reflexivity. }
      split; [lia|]. intros b r Hbb Hr. rewrite G, G1 by auto.
      assert (Q : (start + k0 * OBL <=? b * OBL + r) && (b * OBL + r <? start + k0 * OBL + blk)
                  = (start <=? r) && (r <? start + blk) && (b =? k0)).
      { destruct (Z.eqb_spec b k0).
        - subst. rewrite andb_true_r. f_equal; [apply eq_true_iff_eq; rewrite !Z.leb_le; lia|
            apply eq_true_iff_eq; rewrite !Z.ltb_lt; lia].
        - rewrite andb_false_r. apply andb_false_iff. rewrite Z.leb_gt, Z.ltb_ge.
          destruct (Z.lt_ge_cases b k0); [left|right]; nia. }
      rewrite Q.
      destruct ((start <=? r) && (r <? start + blk)) eqn:EQ; cbn [andb]; auto.
      destruct (Z.leb_spec (k0 + 1) b), (Z.leb_spec k0 b), (Z.eqb_spec b k0),
        (Z.ltb_spec b (k0 + 1 + Z.of_nat m)), (Z.ltb_spec b (k0 + Z.of_nat (S m))); cbn [andb]; auto; try lia.
      f_equal. subst b. ring. }
  destruct (GEN c 0 dst) as (d' & E & L & G); try lia.
  rewrite Z.mul_0_l, Z.sub_0_r, Z.add_0_l in E.
  exists d'. split.
  - match goal with |- context [foldM ?F ?L ?S] =>
      change (foldM F L S) with (foldM (fun k => concat_block (bufferAsWideNums e) blk (start + k * OBL)) L S) end.
    rewrite E. cbn [obind].
    assert (size (e_shape e) - Z.of_nat c * blk <= 0).
    { destruct (Z.eq_dec start OBL).
      - assert (blk = 0) by lia. nia.
      - rewrite Hc2 by lia. lia. }
    replace (Z.to_nat (size (e_shape e) - Z.of_nat c * blk)) with O by lia. reflexivity.
  - split; auto. intros b r Hbb Hr. rewrite G by auto.
    destruct (Z.leb_spec start r), (Z.ltb_spec r (start + blk)); simpl; auto.
    destruct (Z.leb_spec 0 b), (Z.ltb_spec b (Z.of_nat c)); simpl; auto; try lia.
Qed.

(** All the inputs. *)
Definition concat_inputs pre post (elms : list (elements W)) (kds : list (Z * list W)) : Prop :=
  Forall2 (fun e kd => const junk e (pre ++ fst kd :: post) (snd kd)) elms kds.

Lemma concat_inputs_spec pre post OBL elms kds : concat_inputs pre post elms kds ->
  forall start (dst : list W),
  0 <= start -> start + sumZ (map fst kds) * size post <= OBL -> Z.of_nat (length dst) = size pre * OBL ->
  exists dst', foldM (concat_input (size post) OBL (length pre)) elms (dst, start) =
      Some (dst', start + sumZ (map fst kds) * size post) /\
    length dst' = length dst /\
    (forall b r, 0 <= b < size pre -> 0 <= r < start -> zget dst' (b * OBL + r) = zget dst (b * OBL + r)) /\
    (forall kds1 k d kds2, kds = kds1 ++ (k, d) :: kds2 ->
      forall b r, 0 <= b < size pre -> 0 <= r < k * size post ->
      zget dst' (b * OBL + (start + sumZ (map fst kds1) * size post + r)) = zget d (b * (k * size post) + r)).
Proof.
  induction 1 as [|e [k d] elms kds C HF IH]; intros start dst Hst HO HL.
  - exists dst. cbn [foldM map]. replace (sumZ []) with 0 by reflexivity. rewrite Z.mul_0_l, Z.add_0_r.
    repeat (split; auto). intros [|] * E; discriminate.
  - simpl in C. apply const_iff in C as (We & Se & R).
    assert (Ok := wf_ok _ We). rewrite Se in Ok. apply okshape3 in Ok as (Op & Hk & Oq).
    cbn [map fst] in *. rewrite sumZ_cons in *.
    pose proof (size_nonneg _ Oq).
    assert (NN : 0 <= sumZ (map fst kds)).
    { clear - HF. induction HF; [unfold sumZ; simpl; lia|]. simpl. rewrite sumZ_cons.
      apply const_iff in H as (We & Se & R). assert (Ok := wf_ok _ We). rewrite Se in Ok.
      apply okshape3 in Ok. lia. }
    destruct (concat_input_spec e d pre k post start OBL dst) as (d1 & E1 & L1 & G1); auto; try nia.
    cbn [foldM]. rewrite E1. cbn [obind].
    destruct (IH (start + k * size post) d1) as (d' & E & L & P & G); try nia.
    exists d'. split; [rewrite E; do 2 f_equal; lia|]. split; [lia|]. split.
    + intros b r Hbb Hr. rewrite P by nia. rewrite G1 by nia.
      destruct (Z.leb_spec start r); simpl; auto; lia.
    + intros kds1 k' d2 kds2 EQ b r Hbb Hr. destruct kds1 as [|[k1 dd1] kds1]; simpl in EQ; inversion EQ; subst.
      * cbn [map]. replace (sumZ []) with 0 by reflexivity. rewrite Z.mul_0_l, Z.add_0_r.
        rewrite P by nia. rewrite G1 by nia.
        destruct (Z.leb_spec start (start + r)), (Z.ltb_spec (start + r) (start + k' * size post)); simpl; try lia.
        f_equal. lia.
      * cbn [map fst] in *. rewrite sumZ_cons.
        rewrite <- (G kds1 k' d2 kds2 eq_refl b r) by auto. f_equal. lia.
Qed.

Lemma concat_spec pre post elms kds : (2 <= length elms)%nat -> concat_inputs pre post elms kds ->
  exists e out, concat junk elms (length pre) = Some e /\
    const junk e (pre ++ sumZ (map fst kds) :: post) out /\
    forall kds1 k d kds2, kds = kds1 ++ (k, d) :: kds2 ->
      forall i c j, valid pre i -> 0 <= c < k -> valid post j ->
      elem (pre ++ sumZ (map fst kds) :: post) out (i ++ (sumZ (map fst kds1) + c) :: j) =
      elem (pre ++ k :: post) d (i ++ c :: j).
Proof.
  intros H2 HC. destruct elms as [|e1 [|e2 rest]]; simpl in H2; try lia.
  assert (SH : Forall2 (fun e (kd : Z * list W) => e_shape e = pre ++ fst kd :: post) (e1 :: e2 :: rest) kds).
  { clear H2. unfold concat_inputs in HC. induction HC; constructor; auto.
    apply const_iff in H. tauto. }
  inversion HC as [|? [k1 d1] ? kds' C1 HC']; subst. simpl in C1.
  assert (S1 : e_shape e1 = pre ++ k1 :: post) by (apply const_iff in C1; tauto).
  assert (okshape (pre ++ sumZ (map fst ((k1, d1) :: kds')) :: post)) as OKO.
  { destruct (const_data _ _ _ _ C1) as [Ok _]. apply okshape3 in Ok as (Op & Hk & Oq).
    apply okshape3. repeat split; auto.
    clear - HC. induction HC; [unfold sumZ; simpl; lia|]. simpl. rewrite sumZ_cons.
    destruct (const_data _ _ _ _ H) as [Ok _]. apply okshape3 in Ok. lia. }
  set (K := sumZ (map fst ((k1, d1) :: kds'))) in *.
  unfold concat. rewrite S1.
  rewrite app_length. cbn [length].
  replace (length pre <? length pre + S (length post))%nat with true by (symmetry; apply Nat.ltb_lt; lia).
  cbn [negb].
  assert (CHK : forallb (fun e => (length (e_shape e) =? length pre + S (length post))%nat &&
     forallb (fun a => (a =? length pre)%nat || (nth a (e_shape e) 0 =? nth a (pre ++ k1 :: post) 0))
       (seq 0 (length pre + S (length post)))) (e2 :: rest) = true).
  { apply forallb_forall. intros e He. inversion SH; subst.
    destruct (In_nth_error _ _ He) as (n & En).
    assert (exists kd : Z * list W, e_shape e = pre ++ fst kd :: post) as ([k d] & Es).
    { clear - H5 En. revert n En. induction H5; intros [|n] E; simpl in E; try discriminate.
      - injection E as <-. eauto.
      - eauto. }
    rewrite Es. simpl fst. rewrite app_length. simpl length. rewrite Nat.eqb_refl. simpl andb.
    apply forallb_forall. intros a Ha. apply in_seq in Ha.
    destruct (Nat.eqb_spec a (length pre)); auto. simpl.
    apply Z.eqb_eq. destruct (Nat.lt_ge_cases a (length pre)).
    - rewrite !app_nth1 by lia. auto.
    - rewrite !app_nth2 by lia. destruct (a - length pre)%nat eqn:Q; [lia|]. reflexivity. }
  rewrite CHK. cbn [negb].
  assert (KS : sumZ (map (fun e => nth (length pre) (e_shape e) 0) (e1 :: e2 :: rest)) = K).
  { unfold K. clear - SH. f_equal. induction SH; simpl; auto. f_equal; auto. rewrite H. apply nth_mid. }
  rewrite KS, upd_mid, skipn_mid. unfold getNumElements. fold (size post).
  destruct (concat_inputs_spec pre post (K * size post) _ _ HC 0 (alloc junk (pre ++ K :: post)))
    as (dst & E & L & _ & G); try lia.
  { rewrite (alloc_is_data junk _ OKO), size_app, size_cons. reflexivity. }
  match goal with |- context [fromWideNums junk ?S ?F] => rewrite (fromWideNums_spec junk S F dst) end.
  2:{ rewrite E. reflexivity. }
  assert (D : is_data (pre ++ K :: post) dst).
  { unfold is_data. rewrite L. now apply alloc_is_data. }
  destruct (fresh_wf _ dst OKO D) as [F1 F2].
  eexists _, dst. split; [reflexivity|]. split; [apply const_iff; auto|].
  intros kds1 k d kds2 EQ i c j Vi Hc Vj.
  pose proof (rm_bound _ _ Vi) as Bi. pose proof (rm_bound _ _ Vj) as Bj.
  assert (0 <= sumZ (map fst kds1) /\ sumZ (map fst kds1) + k <= K) as [N1 N2].
  { unfold K. rewrite EQ, map_app, sumZ_app. cbn [map fst]. rewrite sumZ_cons.
    assert (NNE : Forall (fun kd : Z * list W => 0 <= fst kd) ((k1, d1) :: kds')).
    { clear - HC. induction HC; constructor; auto.
      destruct (const_data _ _ _ _ H) as [Ok _]. apply okshape3 in Ok. lia. }
    rewrite EQ in NNE. apply Forall_app in NNE as [P1 P2]. apply Forall_cons_iff in P2 as [Hk2 P2].
    assert (SN : forall l : list (Z * list W), Forall (fun kd => 0 <= fst kd) l -> 0 <= sumZ (map fst l)).
    { induction 1; [unfold sumZ; simpl; lia|]. simpl; rewrite sumZ_cons; lia. }
    pose proof (SN _ P1). pose proof (SN _ P2). simpl in Hk2. lia. }
  rewrite !elem_rm by (apply valid3_mk; auto; lia).
  rewrite !split3 by (now apply valid_length).
  rewrite <- (Z.add_assoc (rm pre i * (k * size post))).
  rewrite <- (G kds1 k d kds2 EQ (rm pre i) (c * size post + rm post j)); [f_equal; lia|lia|nia].
Qed.

(** ** split *)
Lemma copy_n_spec {A} (src : list A) from n : 0 <= from -> 0 <= n -> from + n <= Z.of_nat (length src) ->
  exists c, copy_n src from n = Some c /\ Z.of_nat (length c) = n /\
    forall p, 0 <= p < n -> zget c p = zget src (from + p).
Proof.
  intros. unfold copy_n. destruct (Z.ltb_spec from 0), (Z.ltb_spec (Z.of_nat (length src)) (from + n)); simpl; try lia.
  eexists; split; [reflexivity|]. split.
  - rewrite firstn_length, skipn_length. lia.
  - intros p Hp. rewrite !zget_spec by lia.
    rewrite <- (firstn_skipn (Z.to_nat from) src) at 2.
    rewrite nth_error_app2 by (rewrite firstn_length; lia).
    rewrite firstn_length. replace (Z.to_nat (from + p) - Nat.min (Z.to_nat from) (length src))%nat with (Z.to_nat p) by lia.
    rewrite <- (firstn_skipn (Z.to_nat n) (skipn (Z.to_nat from) src)) at 2.
    rewrite nth_error_app1; auto. rewrite firstn_length, skipn_length. lia.
Qed.

Lemma splitImpl_spec (data splitData : list W) start len stride N :
  0 <= start -> 0 <= len -> start + len <= stride -> 0 <= N ->
  Z.of_nat (length data) = N * stride -> Z.of_nat (length splitData) = N * len ->
  exists out, splitImpl data start len stride splitData = Some out /\ length out = length splitData /\
    forall b r, 0 <= b < N -> 0 <= r < len -> zget out (b * len + r) = zget data (b * stride + (start + r)).
Proof.
  intros Hs Hl Hsl HN HD HS. unfold splitImpl. rewrite HD.
  destruct (for_offsets_blocks start stride N) as (c & EO & Hc1 & Hc2); try lia.
  rewrite EO. cbn [obind]. rewrite foldM_map.
  assert (GEN : forall m k0 acc, 0 <= k0 -> k0 + Z.of_nat m <= N -> Z.of_nat (length acc) = k0 * len ->
    exists out, foldM (fun k acc => c <- copy_n data (start + k * stride) len ;; Some (acc ++ c)) (zseq k0 m) acc = Some out /\
      Z.of_nat (length out) = (k0 + Z.of_nat m) * len /\
      (forall q, q < k0 * len -> zget out q = zget acc q) /\
      forall b r, k0 <= b < k0 + Z.of_nat m -> 0 <= r < len -> zget out (b * len + r) = zget data (b * stride + (start + r))).
  { induction m; intros k0 acc Hk Hm HA.
    - exists acc. simpl. rewrite Z.add_0_r. repeat (split; auto). intros; lia.
    - cbn [zseq foldM].
      destruct (copy_n_spec data (start + k0 * stride) len) as (cc & -> & Lc & Gc); try nia.
      cbn [obind].
      destruct (IHm (k0 + 1) (acc ++ cc)) as (out & E & L & P & G); try lia.
      { rewrite app_length. lia. }
      exists out. split; auto. split; [lia|]. split.
      + intros q Hq. rewrite P by nia. apply zget_app1. lia.
      + intros b r Hbb Hr. destruct (Z.eq_dec b k0).
        * subst b. rewrite P by nia. rewrite zget_app2 by nia.
          replace (k0 * len + r - Z.of_nat (length acc)) with r by lia.
          rewrite Gc by lia. f_equal. lia.
        * apply G; lia. }
  destruct (GEN c 0 []) as (out & E & L & _ & G); try (simpl; lia).
  rewrite E. cbn [obind]. exists out.
  assert (LL : length out = length splitData).
  { apply Nat2Z.inj. rewrite L, HS. destruct (Z.eq_dec start stride).
    - assert (len = 0) by lia. nia.
    - rewrite Hc2; lia. }
  rewrite LL, Nat.eqb_refl. repeat (split; auto). intros b r Hbb Hr. apply G; auto.
  rewrite Hc2; lia.
Qed.

Lemma split_loop_spec data pre K post sizes offset :
  okshape pre -> okshape post -> 0 <= K -> is_data (pre ++ K :: post) data ->
  Forall (fun z => 0 <= z) sizes -> 0 <= offset -> offset + sumZ sizes <= K ->
  exists es, split_loop junk data (pre ++ K :: post) (length pre) (K * size post) (size post) (offset * size post) sizes
      = Some es /\ length es = length sizes /\
    forall sz1 z sz2, sizes = sz1 ++ z :: sz2 ->
      exists e d, nth_error es (length sz1) = Some e /\ const junk e (pre ++ z :: post) d /\
        forall i c j, valid pre i -> 0 <= c < z -> valid post j ->
          elem (pre ++ z :: post) d (i ++ c :: j) =
          elem (pre ++ K :: post) data (i ++ (offset + sumZ sz1 + c) :: j).
Proof.
  intros Op Oq HK D. pose proof (size_nonneg _ Op). pose proof (size_nonneg _ Oq).
  intros HF; revert offset; induction HF as [|z sizes Hz HF IH]; intros offset Ho Hsum.
  - exists []. repeat (split; auto). intros [|] * E; discriminate.
  - rewrite sumZ_cons in Hsum. cbn [split_loop]. rewrite upd_mid.
    assert (NN : 0 <= sumZ sizes).
    { clear - HF. induction HF; [unfold sumZ; simpl; lia|]. rewrite sumZ_cons. lia. }
    assert (OKz : okshape (pre ++ z :: post)) by (apply okshape3; auto).
    destruct (splitImpl_spec data (alloc junk (pre ++ z :: post)) (offset * size post) (z * size post)
      (K * size post) (size pre)) as (out & E & L & G); try nia.
    { rewrite D, size_app, size_cons. reflexivity. }
    { rewrite (alloc_is_data junk _ OKz), size_app, size_cons. reflexivity. }
    rewrite (fromWideNums_spec junk _ _ out E). cbn [obind].
    destruct (IH (offset + z)) as (es & E2 & L2 & P); try lia.
    replace (offset * size post + z * size post) with ((offset + z) * size post) by lia.
    rewrite E2. cbn [obind].
    assert (Dz : is_data (pre ++ z :: post) out).
    { unfold is_data. rewrite L. now apply alloc_is_data. }
    destruct (fresh_wf _ out OKz Dz) as [F1 F2].
    eexists. split; [reflexivity|]. split; [simpl; lia|].
    intros sz1 z' sz2 EQ. destruct sz1 as [|s1 sz1]; simpl in EQ; inversion EQ; subst.
    + eexists _, out. split; [reflexivity|]. split; [apply const_iff; auto|].
      intros i c j Vi Hc Vj. replace (sumZ []) with 0 by reflexivity. rewrite Z.add_0_r.
      rewrite !elem_rm by (apply valid3_mk; auto; lia).
      rewrite !split3 by (now apply valid_length).
      pose proof (rm_bound _ _ Vi). pose proof (rm_bound _ _ Vj).
      rewrite <- Z.add_assoc. rewrite G; [f_equal; lia|lia|nia].
    + destruct (P sz1 z' sz2 eq_refl) as (e & d & N & C & Q). exists e, d. simpl. repeat (split; auto).
      intros. rewrite Q by auto. rewrite sumZ_cons. f_equal. f_equal. f_equal. lia.
Qed.

Lemma split_spec e data pre K post sizes :
  const junk e (pre ++ K :: post) data -> 0 < K ->
  Forall (fun z => 0 <= z) sizes -> sumZ sizes = K ->
  exists es, split junk e (length pre) sizes = Some es /\ length es = length sizes /\
    forall sz1 z sz2, sizes = sz1 ++ z :: sz2 ->
      exists e' d, nth_error es (length sz1) = Some e' /\ const junk e' (pre ++ z :: post) d /\
        forall i c j, valid pre i -> 0 <= c < z -> valid post j ->
          elem (pre ++ z :: post) d (i ++ c :: j) =
          elem (pre ++ K :: post) data (i ++ (sumZ sz1 + c) :: j).
Proof.
  intros C HK HF HS. assert (C' := C). destruct C' as (We & Se & Gw).
  destruct (const_data _ _ _ _ C) as [Ok D]. apply okshape3 in Ok as (Op & _ & Oq).
  unfold split. rewrite Se, nth_mid, app_length. cbn [length].
  replace (length pre <? length pre + S (length post))%nat with true by (symmetry; apply Nat.ltb_lt; lia).
  rewrite HS, Z.eqb_refl. cbn [negb].
  destruct sizes as [|z1 [|z2 rest]].
  - unfold sumZ in HS; simpl in HS; lia.
  - exists [e]. split; auto. split; auto. intros sz1 z sz2 EQ.
    destruct sz1 as [|? [|]]; simpl in EQ; inversion EQ; subst.
    replace (sumZ [z]) with z in * by (unfold sumZ; simpl; lia).
    exists e, data. repeat (split; auto).
  - rewrite Gw. cbn [obind]. destruct (Z.eqb_spec K 0); [lia|].
    rewrite skipn_len. unfold getNumElements. rewrite prodZ_cons. fold (size post).
    replace (K * size post / K) with (size post) by (symmetry; rewrite Z.mul_comm; now apply Z.div_mul).
    destruct (split_loop_spec data pre K post (z1 :: z2 :: rest) 0) as (es & E & L & P); auto; try lia.
    rewrite Z.mul_0_l in E. rewrite E. exists es. repeat (split; auto).
Qed.

End Concat.
