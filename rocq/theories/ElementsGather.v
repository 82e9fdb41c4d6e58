(** gather and scatterND. *)
From Coq Require Import List ZArith Lia Bool Arith.
From Verif Require Import Util TensorSpec TensorLemmas StridesModel StridesProofs StridesReshape
  ElementsModel ElementsSpec ElementsBase ElementsViews ElementsConcat ElementsPad.
Import ListNotations.
Open Scope Z_scope.

Section Gather.
Context {W : Type}.
Variable junk : W.
Implicit Types e : elements W.

Lemma write_block_spec {A} (dst vs : list A) o : 0 <= o -> o + Z.of_nat (length vs) <= Z.of_nat (length dst) ->
  exists d, write_block dst o vs = Some d /\ length d = length dst /\
    forall q, zget d q = if (o <=? q) && (q <? o + Z.of_nat (length vs)) then zget vs (q - o) else zget dst q.
Proof.
  intros Ho Hl. unfold write_block, zrange. rewrite Nat2Z.id.
  assert (GEN : forall (vs : list A) p d, 0 <= p -> o + p + Z.of_nat (length vs) <= Z.of_nat (length d) ->
    exists d', foldM (fun kv d => zset d (o + fst kv) (snd kv)) (combine (zseq p (length vs)) vs) d = Some d' /\
      length d' = length d /\
      forall q, zget d' q = if (o + p <=? q) && (q <? o + p + Z.of_nat (length vs)) then zget vs (q - o - p) else zget d q).
  { clear - Ho. induction vs; intros p d Hp HL.
    - exists d. cbn. repeat split; auto. intros q.
      destruct (Z.leb_spec (o + p) q), (Z.ltb_spec q (o + p + 0)); simpl; auto; lia.
    - cbn [length zseq combine foldM fst snd] in *. rewrite zset_some by lia. cbn [obind].
      destruct (IHvs (p + 1) (upd (Z.to_nat (o + p)) a d)) as (d' & E & L & G); try lia.
      { rewrite upd_length. lia. }
      exists d'. split; auto. rewrite upd_length in L. split; auto.
      intros q. rewrite G, zget_upd by lia.
      destruct (Z.leb_spec (o + (p + 1)) q), (Z.leb_spec (o + p) q), (Z.ltb_spec q (o + (p + 1) + Z.of_nat (length vs))),
        (Z.ltb_spec q (o + p + Z.of_nat (S (length vs)))), (Z.eqb_spec q (o + p)); cbn [andb]; auto; try lia.
      + change (a :: vs) with ([a] ++ vs). rewrite zget_app2 by (cbn [length]; lia). cbn [length]. f_equal. lia.
      + subst q. replace (o + p - o - p) with 0 by lia. reflexivity. }
  destruct (GEN vs 0 dst) as (d' & E & L & G); try lia.
  exists d'. repeat (split; auto). intros q. rewrite G, !Z.add_0_r, Z.sub_0_r. auto.
Qed.

Lemma gather_one_spec (src dst : list W) N K postN n idx pos0 :
  0 <= N -> 0 <= K -> 0 <= postN -> 0 <= pos0 < n ->
  Z.of_nat (length src) = N * (K * postN) -> Z.of_nat (length dst) = N * (n * postN) ->
  0 <= wrap K idx < K ->
  exists d, gather_one src K postN (n * postN) idx (dst, pos0 * postN) = Some (d, (pos0 + 1) * postN) /\
    length d = length dst /\
    forall b r, 0 <= b < N -> 0 <= r < n * postN ->
      zget d (b * (n * postN) + r) =
      if (pos0 * postN <=? r) && (r <? (pos0 + 1) * postN)
      then zget src (b * (K * postN) + (wrap K idx * postN + (r - pos0 * postN)))
      else zget dst (b * (n * postN) + r).
Proof.
  intros HN HK Hp Hpos HS HD HW. unfold gather_one. fold (wrap K idx).
  set (adj := wrap K idx) in *. rewrite HD.
  destruct (for_offsets_blocks (pos0 * postN) (n * postN) N) as (c & EO & Hc1 & Hc2); [nia|lia|].
  rewrite EO. cbn [obind]. rewrite foldM_map.
  assert (GEN : forall m k0 (d : list W), 0 <= k0 -> k0 + Z.of_nat m <= N -> length d = length dst ->
    exists d', foldM (fun b st => let '(d, inp) := st in
         c <- copy_n src inp postN ;; d' <- write_block d (pos0 * postN + b * (n * postN)) c ;; Some (d', inp + K * postN))
         (zseq k0 m) (d, k0 * (K * postN) + adj * postN) = Some (d', (k0 + Z.of_nat m) * (K * postN) + adj * postN) /\
    length d' = length d /\
    forall b r, 0 <= b < N -> 0 <= r < n * postN ->
      zget d' (b * (n * postN) + r) =
      if (pos0 * postN <=? r) && (r <? (pos0 + 1) * postN) && (k0 <=? b) && (b <? k0 + Z.of_nat m)
      then zget src (b * (K * postN) + (adj * postN + (r - pos0 * postN)))
      else zget d (b * (n * postN) + r)).
  { induction m; intros k0 d Hk Hm HLd.
    - exists d. cbn [zseq foldM]. rewrite Z.add_0_r. split; auto. split; auto. intros b r Hbb Hr.
      destruct (Z.leb_spec k0 b), (Z.ltb_spec b k0); rewrite ?andb_false_r; simpl; auto; lia.
    - cbn [zseq foldM].
      assert (A1 : adj * postN + postN <= K * postN) by nia.
      assert (A2 : pos0 * postN + postN <= n * postN) by nia.
      assert (A3 : 0 <= K * postN) by nia. assert (A4 : 0 <= n * postN) by nia.
      assert (A5 : 0 <= adj * postN) by nia. assert (A6 : 0 <= pos0 * postN) by nia.
      destruct (copy_n_spec src (k0 * (K * postN) + adj * postN) postN) as (cc & -> & Lc & Gc); try nia.
      cbn [obind].
      destruct (write_block_spec d cc (pos0 * postN + k0 * (n * postN))) as (d1 & -> & L1 & G1); try nia.
      cbn [obind].
      replace (k0 * (K * postN) + adj * postN + K * postN) with ((k0 + 1) * (K * postN) + adj * postN) by lia.
      destruct (IHm (k0 + 1) d1) as (d' & E & L & G); try lia.
      exists d'. split; [rewrite E; do 3 f_equal; lia|]. split; [lia|].
      intros b r Hbb Hr. rewrite G, G1 by auto. rewrite Lc.
      assert (Q : (pos0 * postN + k0 * (n * postN) <=? b * (n * postN) + r) &&
                  (b * (n * postN) + r <? pos0 * postN + k0 * (n * postN) + postN)
                  = (pos0 * postN <=? r) && (r <? (pos0 + 1) * postN) && (b =? k0)).
      { destruct (Z.eqb_spec b k0).
        - subst b. rewrite andb_true_r. f_equal; [apply eq_true_iff_eq; rewrite !Z.leb_le; lia|
            apply eq_true_iff_eq; rewrite !Z.ltb_lt; lia].
        - rewrite andb_false_r. apply andb_false_iff. rewrite Z.leb_gt, Z.ltb_ge.
          assert (0 < n * postN) by lia.
          assert (pos0 * postN + postN <= n * postN) by nia.
          destruct (Z.lt_ge_cases b k0); [left|right]; nia. }
      rewrite Q. clear Q.
      destruct ((pos0 * postN <=? r) && (r <? (pos0 + 1) * postN)) eqn:EQ; cbn [andb]; auto.
      apply andb_true_iff in EQ as [EQ1 EQ2]. apply Z.leb_le in EQ1. apply Z.ltb_lt in EQ2.
      destruct (Z.leb_spec (k0 + 1) b), (Z.leb_spec k0 b), (Z.eqb_spec b k0),
        (Z.ltb_spec b (k0 + 1 + Z.of_nat m)), (Z.ltb_spec b (k0 + Z.of_nat (S m))); cbn [andb]; auto; try lia.
      subst b. rewrite Gc by lia. f_equal. ring. }
  destruct (GEN c 0 dst) as (d' & E & L & G); try lia.
  rewrite Z.mul_0_l, !Z.add_0_l in E. rewrite E. cbn [obind fst].
  exists d'. split; [do 2 f_equal; lia|]. split; auto.
  intros b r Hbb Hr. rewrite G by auto.
  destruct (Z.leb_spec (pos0 * postN) r), (Z.ltb_spec r ((pos0 + 1) * postN)); simpl; auto.
  destruct (Z.leb_spec 0 b), (Z.ltb_spec b (Z.of_nat c)); simpl; auto; try lia.
  all: exfalso; rewrite Hc2 in *; nia.
Qed.

Lemma gather_all_spec (src : list W) N K postN n ids :
  0 <= N -> 0 <= K -> 0 <= postN -> Z.of_nat (length src) = N * (K * postN) ->
  Forall (fun idx => 0 <= wrap K idx < K) ids ->
  forall pos0 (dst : list W), 0 <= pos0 -> pos0 + Z.of_nat (length ids) = n ->
  Z.of_nat (length dst) = N * (n * postN) ->
  exists d, foldM (gather_one src K postN (n * postN)) ids (dst, pos0 * postN) = Some (d, n * postN) /\
    length d = length dst /\
    (forall b r, 0 <= b < N -> 0 <= r < pos0 * postN -> zget d (b * (n * postN) + r) = zget dst (b * (n * postN) + r)) /\
    (forall b q idx r, 0 <= b < N -> 0 <= r < postN -> zget ids q = Some idx ->
      zget d (b * (n * postN) + ((pos0 + q) * postN + r)) =
      zget src (b * (K * postN) + (wrap K idx * postN + r))).
Proof.
  intros HN HK Hp HS HF. induction HF as [|x ids Hx HF IH]; intros pos0 dst Hpos Hn HD.
  - exists dst. cbn [foldM]. cbn [length] in Hn. split; [do 2 f_equal; lia|]. split; auto. split; auto.
    intros b q idx r _ _ Eq. apply zget_inv in Eq. cbn [length] in Eq. lia.
  - cbn [length] in Hn. cbn [foldM].
    destruct (gather_one_spec src dst N K postN n x pos0) as (d1 & -> & L1 & G1); auto; try lia.
    cbn [obind]. destruct (IH (pos0 + 1) d1) as (d & -> & L & P & G); try lia.
    exists d. split; auto. split; [lia|]. split.
    + intros b r Hb Hr. rewrite P by nia. rewrite G1 by nia.
      destruct (Z.leb_spec (pos0 * postN) r); simpl; auto; lia.
    + intros b q idx r Hb Hr Eq. pose proof (zget_inv _ _ _ Eq) as Bq. cbn [length] in Bq.
      destruct (Z.eq_dec q 0).
      * subst q. cbn in Eq. injection Eq as <-. rewrite Z.add_0_r.
        rewrite P by nia. rewrite G1 by nia.
        destruct (Z.leb_spec (pos0 * postN) (pos0 * postN + r)), (Z.ltb_spec (pos0 * postN + r) ((pos0 + 1) * postN));
          cbn [andb]; try lia. f_equal. lia.
      * change (x :: ids) with ([x] ++ ids) in Eq. rewrite zget_app2 in Eq by (cbn [length]; lia).
        cbn [length] in Eq. rewrite <- (G b (q - 1) idx r) by auto. f_equal. nia.
Qed.

Lemma gather_spec (toZ : W -> Z) e ei pre K post t data ids :
  const junk e (pre ++ K :: post) data -> const junk ei t ids ->
  (forall j w, valid t j -> elem t ids j = Some w -> 0 <= wrap K (toZ w) < K) ->
  exists e' out, gather junk toZ e ei (length pre) = Some e' /\ const junk e' (pre ++ t ++ post) out /\
    forall i j k w, valid pre i -> valid t j -> valid post k -> elem t ids j = Some w ->
      elem (pre ++ t ++ post) out (i ++ j ++ k) = elem (pre ++ K :: post) data (i ++ wrap K (toZ w) :: k).
Proof.
  intros C CI HW. destruct (const_data _ _ _ _ C) as [Ok D]. destruct (const_data _ _ _ _ CI) as [OkI DI].
  destruct C as (We & Se & Gw), CI as (Wi & Si & Gi).
  apply okshape3 in Ok as (Op & HK & Oq).
  pose proof (size_nonneg _ Op). pose proof (size_nonneg _ Oq). pose proof (size_nonneg _ OkI).
  assert (OkO : okshape (pre ++ t ++ post)) by (unfold okshape; rewrite !Forall_app; auto).
  unfold gather. rewrite Se, app_length. cbn [length].
  replace (length pre <? length pre + S (length post))%nat with true by (symmetry; apply Nat.ltb_lt; lia).
  cbn [negb]. rewrite skipn_mid, nth_mid, Si.
  assert (FN : firstn (length pre) (pre ++ K :: post) = pre).
  { rewrite firstn_app, Nat.sub_diag. simpl. rewrite app_nil_r. apply firstn_all. }
  rewrite FN.
  destruct (gather_all_spec data (size pre) K (size post) (size t) (map toZ ids)) with (pos0 := 0)
    (dst := alloc junk (pre ++ t ++ post)) as (d & E & L & _ & G); auto; try lia.
  { rewrite D, size_app, size_cons. reflexivity. }
  { apply Forall_map, Forall_forall. intros w Hw. apply In_nth_error in Hw as (q & Eq).
    assert (Hq : (q < length ids)%nat) by (apply nth_error_Some; congruence).
    unfold is_data in DI.
    destruct (unrm_spec t (Z.of_nat q) OkI) as [V EV]; [lia|].
    apply (HW (unrm t (Z.of_nat q))); auto. rewrite elem_rm, EV by auto. rewrite zget_spec, Nat2Z.id by lia. auto. }
  { rewrite map_length. rewrite DI. lia. }
  { rewrite (alloc_is_data junk _ OkO), !size_app. reflexivity. }
  match goal with |- context [fromWideNums junk ?S ?F] => rewrite (fromWideNums_spec junk S F d) end.
  2:{ rewrite Gw, Gi. cbn [obind]. unfold getNumElements. fold (size post). rewrite DI.
      rewrite Z.mul_0_l in E. rewrite E. reflexivity. }
  assert (DO : is_data (pre ++ t ++ post) d) by (unfold is_data; rewrite L; now apply alloc_is_data).
  destruct (fresh_wf _ d OkO DO) as [F1 F2].
  eexists _, d. split; [reflexivity|]. split; [apply const_iff; auto|].
  intros i j k w Vi Vj Vk Ej.
  assert (Hw := HW j w Vj Ej).
  rewrite elem_rm in Ej by auto.
  rewrite !elem_rm; [|apply valid3_mk; auto|].
  2:{ apply valid_app; [now apply valid_length|]. split; auto.
      apply valid_app; [now apply valid_length|]. auto. }
  rewrite split3 by (now apply valid_length).
  rewrite rm_app by (now apply valid_length). rewrite rm_app by (now apply valid_length). rewrite size_app.
  pose proof (rm_bound _ _ Vi). pose proof (rm_bound _ _ Vj). pose proof (rm_bound _ _ Vk).
  rewrite <- (Z.add_0_l (rm t j)). rewrite (G (rm pre i) (rm t j) (toZ w) (rm post k)); auto; try lia.
  - f_equal. lia.
  - rewrite zget_map, Ej. reflexivity.
Qed.

(** ** scatterND *)
Lemma scatter_one_spec e (data : list W) a n sliceSize st idxs (dst : list W) :
  wf e -> repr e data -> 0 <= a -> 0 <= sliceSize <= Z.of_nat n -> a + Z.of_nat n <= size (e_shape e) ->
  0 <= pos idxs st -> pos idxs st + sliceSize <= Z.of_nat (length dst) ->
  exists dst',
    scatter_one (bufferAsWideNums e) sliceSize st idxs (dst, map (mk_item [e_strides e] (e_shape e)) (zseq a n)) =
      Some (dst', map (mk_item [e_strides e] (e_shape e)) (zseq (a + sliceSize) (n - Z.to_nat sliceSize))) /\
    length dst' = length dst /\
    forall q, zget dst' q = if (pos idxs st <=? q) && (q <? pos idxs st + sliceSize)
                            then zget data (a + (q - pos idxs st)) else zget dst q.
Proof.
  intros H R Ha Hb Hn Ho Hl. unfold scatter_one, zrange. set (o := pos idxs st) in *. clearbody o.
  assert (GEN : forall m p a n o (d : list W), (m <= n)%nat -> 0 <= a -> 0 <= o ->
    a + Z.of_nat n <= size (e_shape e) -> o + Z.of_nat m <= Z.of_nat (length d) ->
    exists d', foldM (fun _ (st : list W * list item * Z) =>
         let '(dst, items, pos) := st in
         match items with
         | [] => None
         | it :: items' =>
             v <- zget (bufferAsWideNums e) (off it 0) ;; dst' <- zset dst pos v ;; Some (dst', items', pos + 1)
         end) (zseq p m) (d, map (mk_item [e_strides e] (e_shape e)) (zseq a n), o) =
      Some (d', map (mk_item [e_strides e] (e_shape e)) (zseq (a + Z.of_nat m) (n - m)), o + Z.of_nat m) /\
    length d' = length d /\
    forall q, zget d' q = if (o <=? q) && (q <? o + Z.of_nat m) then zget data (a + (q - o)) else zget d q).
  { clear - H R. induction m; intros p a n o d Hmn Ha Ho Hn HL.
    - exists d. cbn [zseq foldM]. rewrite !Z.add_0_r, Nat.sub_0_r. repeat split.
      intros q. destruct (Z.leb_spec o q), (Z.ltb_spec q o); simpl; auto; lia.
    - destruct n as [|n]; [lia|]. cbn [zseq map foldM].
      rewrite (item_value e data a) by (auto; try lia; apply (wf_ok _ H)).
      destruct (zget_some data a) as (v & Ev).
      { destruct R as [D _]. rewrite D. lia. }
      rewrite Ev. cbn [obind]. rewrite zset_some by lia. cbn [obind].
      destruct (IHm (p + 1) (a + 1) n (o + 1) (upd (Z.to_nat o) v d)) as (d' & E & L & G); try lia.
      { rewrite upd_length. lia. }
      exists d'. split.
      { rewrite E. replace (a + 1 + Z.of_nat m) with (a + Z.of_nat (S m)) by lia.
        replace (o + 1 + Z.of_nat m) with (o + Z.of_nat (S m)) by lia. reflexivity. }
      rewrite upd_length in L. split; auto. intros q. rewrite G, zget_upd by lia.
      destruct (Z.leb_spec (o + 1) q), (Z.leb_spec o q), (Z.ltb_spec q (o + 1 + Z.of_nat m)),
        (Z.ltb_spec q (o + Z.of_nat (S m))), (Z.eqb_spec q o); cbn [andb]; auto; try lia; try (f_equal; lia).
      subst q. rewrite <- Ev. f_equal. lia. }
  destruct (GEN (Z.to_nat sliceSize) 0 a n o dst) as (d' & E & L & G); try lia.
  rewrite E. cbn [obind fst]. exists d'. rewrite Z2Nat.id in * by lia. auto.
Qed.

(** The value of one output element after the first slices. *)
Definition scatter_val (data : list W) (sliceSize : Z) (st : list Z) (a : Z) (ixs : list (list Z)) (q : Z) (init : option W) : option W :=
  snd (fold_left (fun (acc : Z * option W) ix =>
    (fst acc + sliceSize,
     if (pos ix st <=? q) && (q <? pos ix st + sliceSize) then zget data (fst acc + (q - pos ix st)) else snd acc))
    ixs (a, init)).

Lemma scatter_all_spec e (data : list W) sliceSize st ixs :
  wf e -> repr e data -> 0 <= sliceSize ->
  forall a n (dst : list W), 0 <= a -> Z.of_nat n = Z.of_nat (length ixs) * sliceSize -> a + Z.of_nat n <= size (e_shape e) ->
  Forall (fun ix => 0 <= pos ix st /\ pos ix st + sliceSize <= Z.of_nat (length dst)) ixs ->
  exists dst',
    foldM (scatter_one (bufferAsWideNums e) sliceSize st) ixs (dst, map (mk_item [e_strides e] (e_shape e)) (zseq a n)) =
      Some (dst', []) /\
    length dst' = length dst /\
    forall q, zget dst' q = scatter_val data sliceSize st a ixs q (zget dst q).
Proof.
  intros H R Hss. induction ixs as [|ix ixs IH]; intros a n dst Ha Hn Hsz HF.
  - exists dst. cbn [length] in Hn. assert (n = O) by lia. subst. cbn. auto.
  - inversion HF as [|? ? [F1 F2] F3]; subst. cbn [foldM]. cbn [length] in Hn.
    destruct (scatter_one_spec e data a n sliceSize st ix dst) as (d1 & -> & L1 & G1); auto; try nia.
    cbn [obind].
    destruct (IH (a + sliceSize) (n - Z.to_nat sliceSize)%nat d1) as (d & -> & L & G); try nia.
    { eapply Forall_impl; [|exact F3]. simpl. intros. rewrite L1. auto. }
    exists d. split; auto. split; [lia|]. intros q. rewrite G, G1. reflexivity.
Qed.

Lemma pos_firstn_default s1 s2 i : valid s1 i ->
  pos i (firstn (length s1) (getDefaultStrides (s1 ++ s2))) = rm s1 i * size s2.
Proof.
  intros V. induction V; cbn [app length firstn].
  - reflexivity.
  - rewrite defaultStrides_cons. cbn [firstn getStridesPosition rm]. rewrite IHV, size_app.
    destruct (Z.eqb_spec x 1); [|ring]. assert (y = 0) by lia. subst. ring.
Qed.

Lemma chunks_spec {A} n k (l : list A) : length (chunks n k l) = n.
Proof. revert l; induction n; simpl; auto. Qed.


Lemma skipn_add {A} a b (l : list A) : skipn a (skipn b l) = skipn (b + a) l.
Proof. revert l; induction b; intros l; simpl; auto. destruct l; simpl; auto. now destruct a. Qed.

Lemma chunks_nth {A} n k (l : list A) q : (q < n)%nat ->
  nth_error (chunks n k l) q = Some (firstn k (skipn (q * k) l)).
Proof.
  revert l q; induction n; intros l q Hq; [lia|]. destruct q; cbn [chunks nth_error]; auto.
  rewrite IHn by lia. rewrite skipn_add. do 3 f_equal.
Qed.

Lemma indices_unrm s : okshape s -> indices s = map (unrm s) (zrange (size s)).
Proof.
  intros Ok. pose proof (indices_length _ Ok) as IL. pose proof (size_nonneg _ Ok).
  apply zget_ext.
  - rewrite map_length, zrange_length. lia.
  - intros i Hi. rewrite zget_map. unfold zrange. rewrite zget_zseq by lia. cbn [option_map Z.add].
    destruct (unrm_spec s i Ok) as [V E]; [lia|].
    rewrite <- (indices_nth s (unrm s i)) by auto. f_equal. auto.
Qed.

Lemma chunk_row toZ outer nd (ids : list W) q : okshape outer -> 0 <= q < size outer ->
  is_data (outer ++ [Z.of_nat nd]) ids ->
  firstn nd (skipn (Z.to_nat q * nd) (map toZ ids)) = index_row toZ outer nd ids (unrm outer q).
Proof.
  intros Ok Hq D. destruct (unrm_spec outer q Ok Hq) as [V E].
  unfold is_data in D. rewrite size_app, size_cons, size_nil in D.
  unfold index_row. apply zget_ext.
  - rewrite firstn_length, skipn_length, !map_length, zrange_length. nia.
  - intros i Hi. rewrite firstn_length, skipn_length, map_length in Hi.
    rewrite zget_map. unfold zrange. rewrite zget_zseq by lia. cbn [option_map Z.add].
    rewrite elem_rm by (apply valid_app; [now apply valid_length|]; split; auto; constructor; [lia|constructor]).
    rewrite rm_app by (now apply valid_length). rewrite E. cbn [rm]. rewrite size_cons, size_nil.
    match goal with |- context [zget ids ?p] => replace p with (q * Z.of_nat nd + i) by lia end.
    destruct (zget_some ids (q * Z.of_nat nd + i)) as (w & Ew); [nia|]. rewrite Ew.
    rewrite (zget_spec ids) in Ew by lia. rewrite zget_spec by lia.
    assert (X : nth_error (map toZ ids) (Z.to_nat (q * Z.of_nat nd + i)) = Some (toZ w)).
    { rewrite nth_error_map, Ew. reflexivity. }
    rewrite <- X. rewrite <- (firstn_skipn (Z.to_nat q * nd) (map toZ ids)) at 2.
    rewrite nth_error_app2 by (rewrite firstn_length, map_length; nia).
    rewrite firstn_length, map_length.
    replace (Z.to_nat (q * Z.of_nat nd + i) - Nat.min (Z.to_nat q * nd) (length ids))%nat with (Z.to_nat i) by nia.
    rewrite <- (firstn_skipn nd (skipn (Z.to_nat q * nd) (map toZ ids))) at 2.
    symmetry. apply nth_error_app1. rewrite firstn_length, skipn_length, map_length. lia.
Qed.

Lemma scatter_spec (toZ : W -> Z) e ei eu s1 s2 outer data ids ups :
  const junk e (s1 ++ s2) data ->
  const junk ei (outer ++ [Z.of_nat (length s1)]) ids ->
  const junk eu (outer ++ s2) ups ->
  (forall o, valid outer o -> valid s1 (index_row toZ outer (length s1) ids o)) ->
  exists e' out, scatterND junk toZ e ei eu = Some e' /\ const junk e' (s1 ++ s2) out /\
    forall a b, valid s1 a -> valid s2 b ->
      elem (s1 ++ s2) out (a ++ b) =
      fold_left (fun acc o => if list_eq_dec Z.eq_dec (index_row toZ outer (length s1) ids o) a
                              then elem (outer ++ s2) ups (o ++ b) else acc)
        (indices outer) (elem (s1 ++ s2) data (a ++ b)).
Proof.
  intros C CI CU HV.
  destruct (const_data _ _ _ _ C) as [Ok D]. destruct (const_data _ _ _ _ CI) as [OkI DI].
  destruct (const_data _ _ _ _ CU) as [OkU DU].
  apply Forall_app in OkU as [Oo O2]. assert (O1 := Ok). apply Forall_app in O1 as [O1 _].
  pose proof (size_nonneg _ Oo) as Ho. pose proof (size_nonneg _ O2) as H2.
  assert (RD := read_any junk e (s1 ++ s2) data (alloc junk (s1 ++ s2)) C (alloc_is_data junk _ Ok)).
  destruct C as (We & Se & Gw), CI as (Wi & Si & Gi). apply const_iff in CU as (Wu & Su & Ru).
  unfold scatterND. rewrite Se, Si, Su.
  rewrite last_last, removelast_last, skipn_len, Nat2Z.id. unfold getNumElements. fold (size s2) (size outer).
  set (ixs := chunks (Z.to_nat (size outer)) (length s1) (map toZ ids)).
  assert (IXS : ixs = map (fun k => index_row toZ outer (length s1) ids (unrm outer k)) (zrange (size outer))).
  { unfold ixs. apply zget_ext.
    - rewrite chunks_spec, map_length, zrange_length. auto.
    - intros i Hi. rewrite chunks_spec in Hi. rewrite zget_spec by lia. rewrite chunks_nth by lia.
      rewrite zget_map. unfold zrange. rewrite zget_zseq by lia. cbn [option_map Z.add].
      rewrite (chunk_row toZ outer (length s1) ids i); auto. lia. }
  set (st := firstn (length s1) (getDefaultStrides (s1 ++ s2))).
  destruct (scatter_all_spec eu ups (size s2) st ixs Wu Ru H2 0 (Z.to_nat (size outer * size s2)) data)
    as (d & E & L & G); try lia.
  { rewrite IXS, map_length, zrange_length. nia. }
  { rewrite Su, size_app. nia. }
  { rewrite IXS. apply Forall_map, Forall_forall. intros k Hk. apply zrange_In in Hk.
    destruct (unrm_spec outer k Oo Hk) as [V _]. specialize (HV _ V).
    unfold st. rewrite pos_firstn_default by auto. pose proof (rm_bound _ _ HV).
    rewrite D, size_app. nia. }
  match goal with |- context [fromWideNums junk ?S ?F] => rewrite (fromWideNums_spec junk S F d) end.
  2:{ rewrite RD, Gi. cbn [obind]. fold ixs st.
      rewrite range_explicit; [|unfold okshape; rewrite Forall_app; auto|].
      2:{ repeat constructor. rewrite (wf_len _ Wu), Su. auto. }
      unfold zrange. rewrite size_app. rewrite Su in E. rewrite E. reflexivity. }
  assert (DO : is_data (s1 ++ s2) d) by (unfold is_data; rewrite L; apply D).
  destruct (fresh_wf _ d Ok DO) as [F1 F2].
  eexists _, d. split; [reflexivity|]. split; [apply const_iff; auto|].
  intros a b Va Vb. assert (Vab : valid (s1 ++ s2) (a ++ b)).
  { apply valid_app; auto. now apply valid_length. }
  rewrite !elem_rm by auto. rewrite G. set (q := rm (s1 ++ s2) (a ++ b)).
  rewrite (indices_unrm outer Oo), IXS. unfold zrange.
  generalize (zget data q). unfold scatter_val.
  assert (GEN : forall n k init, 0 <= k -> k + Z.of_nat n <= size outer ->
    snd (fold_left (fun (acc : Z * option W) ix =>
    (fst acc + size s2,
     if (pos ix st <=? q) && (q <? pos ix st + size s2) then zget ups (fst acc + (q - pos ix st)) else snd acc))
    (map (fun k => index_row toZ outer (length s1) ids (unrm outer k)) (zseq k n)) (k * size s2, init)) =
    fold_left (fun acc o => if list_eq_dec Z.eq_dec (index_row toZ outer (length s1) ids o) a
                              then elem (outer ++ s2) ups (o ++ b) else acc) (map (unrm outer) (zseq k n)) init).
  { induction n; intros k init Hk Hn; [reflexivity|]. cbn [zseq map fold_left fst snd].
    replace (k * size s2 + size s2) with ((k + 1) * size s2) by lia.
    destruct (unrm_spec outer k Oo) as [V E1]; [lia|]. specialize (HV _ V).
    set (ix := index_row toZ outer (length s1) ids (unrm outer k)) in *.
    rewrite IHn by lia. f_equal. unfold st. rewrite pos_firstn_default by auto.
    assert (Q : q = rm s1 a * size s2 + rm s2 b) by (unfold q; apply rm_app; now apply valid_length).
    pose proof (rm_bound _ _ HV). pose proof (rm_bound _ _ Va). pose proof (rm_bound _ _ Vb).
    destruct (list_eq_dec Z.eq_dec ix a) as [->|NE].
    - rewrite Q. destruct (Z.leb_spec (rm s1 a * size s2) (rm s1 a * size s2 + rm s2 b)),
        (Z.ltb_spec (rm s1 a * size s2 + rm s2 b) (rm s1 a * size s2 + size s2)); cbn [andb]; try lia.
      rewrite elem_rm by (apply valid_app; auto; now apply valid_length).
      rewrite rm_app by (now apply valid_length). rewrite E1. f_equal. lia.
    - assert (rm s1 ix <> rm s1 a) by (intros X; apply NE; eapply rm_inj; eauto).
      replace ((rm s1 ix * size s2 <=? q) && (q <? rm s1 ix * size s2 + size s2)) with false; auto.
      symmetry. apply andb_false_iff. rewrite Z.leb_gt, Z.ltb_ge. rewrite Q.
      destruct (Z.lt_ge_cases (rm s1 ix) (rm s1 a)); [right|left]; nia. }
  intros init. rewrite <- (GEN (Z.to_nat (size outer)) 0 init) by lia. rewrite Z.mul_0_l. reflexivity.
Qed.

End Gather.
