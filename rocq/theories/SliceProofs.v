(** Proofs about Slice. *)
From Coq Require Import List ZArith Lia Bool Arith.
From Verif Require Import Util TensorSpec TensorLemmas StridesModel StridesProofs
  ElementsModel ElementsSpec ElementsBase ElementsViews SliceModel SliceSpec.
Import ListNotations.
Open Scope Z_scope.

Lemma ceil_div_lt_pos a b k : 0 < b -> (k < ceil_div a b <-> k * b < a).
Proof.
  intros Hb. unfold ceil_div. pose proof (Z.div_mod (- a) b ltac:(lia)). pose proof (Z.mod_pos_bound (- a) b Hb).
  split; intros; nia.
Qed.

Lemma ceil_div_lt_neg a b k : b < 0 -> (k < ceil_div a b <-> k * b > a).
Proof.
  intros Hb. unfold ceil_div. pose proof (Z.div_mod (- a) b ltac:(lia)). pose proof (Z.mod_neg_bound (- a) b Hb).
  split; intros; nia.
Qed.

(** [walk] lists the arithmetic progression up to the number of in-range terms. *)
Lemma walk_spec stop step : forall fuel i n, 0 <= n <= Z.of_nat fuel ->
  (forall k, 0 <= k < Z.of_nat fuel -> (k < n <-> (if 0 <? step then i + k * step <? stop else stop <? i + k * step) = true)) ->
  walk fuel i stop step = map (fun k => i + k * step) (zrange n).
Proof.
  induction fuel; intros i n Hn H.
  - assert (n = 0) by lia. subst. reflexivity.
  - cbn [walk]. pose proof (H 0 ltac:(lia)) as H0. rewrite Z.mul_0_l, Z.add_0_r in H0.
    destruct (if 0 <? step then i <? stop else stop <? i) eqn:E.
    + assert (0 < n) by (apply H0; auto).
      rewrite (IHfuel (i + step) (n - 1)).
      * unfold zrange. replace (Z.to_nat n) with (S (Z.to_nat (n - 1))) by lia. cbn [zseq map].
        f_equal; [ring|]. generalize (Z.to_nat (n - 1)) as m. intros m.
        assert (G : forall m a, map (fun k => k + 1) (zseq a m) = zseq (a + 1) m).
        { induction m0; intros; cbn [zseq map]; f_equal; auto. }
        rewrite <- (G m 0), map_map. apply map_ext. intros. ring.
      * lia.
      * intros k Hk. specialize (H (k + 1) ltac:(lia)).
        replace (i + step + k * step) with (i + (k + 1) * step) by ring. rewrite <- H. lia.
    + assert (n = 0). { destruct (Z.eq_dec n 0); auto. assert (X : false = true); [|discriminate]. apply H0. lia. }
      subst. reflexivity.
Qed.

Lemma slice_axis_spec dim start_ end_ step r : 0 <= dim < 2 ^ 31 -> (0 < step \/ 0 < dim) ->
  slice_axis dim start_ end_ step = Some r ->
  sd_step r = step /\ 0 <= sd_out r /\
  onnx_slice dim start_ end_ step = map (fun k => sd_start r + k * step) (zrange (sd_out r)) /\
  (forall k, 0 <= k < sd_out r -> 0 <= sd_start r + k * step < dim).
Proof.
  intros Hd Hs E. unfold slice_axis in E. destruct (Z.eqb_spec step 0); [discriminate|].
  change (2 ^ 31) with 2147483648 in *.
  injection E as <-. cbn [sd_step sd_out sd_start]. split; auto.
  set (en := if step <? 0 then _ else _). set (st := if step <? 0 then _ else _).
  set (out := if ceil_div (en - st) step <? 0 then 0 else ceil_div (en - st) step).
  assert (HO : 0 <= out). { unfold out. destruct (Z.ltb_spec (ceil_div (en - st) step) 0); lia. }
  split; auto.
  assert (ST : st = onnx_start dim start_ step).
  { unfold st, onnx_start, adjust, clamp_lit.
    repeat match goal with |- context [if ?a <? ?b then _ else _] => destruct (Z.ltb_spec a b)
               | |- context [if ?a >? ?b then _ else _] => rewrite (Z.gtb_ltb a b) end; lia. }
  assert (EN : (0 < step -> en = onnx_end dim end_ step) /\
               (step < 0 -> en = onnx_end dim end_ step \/ (st <= en /\ st <= onnx_end dim end_ step))).
  { rewrite ST. unfold onnx_start, onnx_end, adjust, en, clamp_lit. clear HO out st ST en.
    rewrite Z.geb_leb. destruct (Z.ltb_spec step 0), (Z.ltb_spec 0 step), (Z.ltb_spec start_ 0), (Z.ltb_spec end_ 0), (Z.leb_spec end_ (- 2147483648)), (Z.leb_spec 2147483647 end_); try lia;
    split; intros;
    repeat match goal with |- context [if ?a <? ?b then _ else _] => destruct (Z.ltb_spec a b)
               | |- context [if ?a <=? ?b then _ else _] => destruct (Z.leb_spec a b)
               | |- context [if ?a >=? ?b then _ else _] => rewrite (Z.geb_leb a b)
               | |- context [if ?a >? ?b then _ else _] => rewrite (Z.gtb_ltb a b) end; try lia. }
  destruct EN as [EP EN].
  assert (STB : (0 < step -> 0 <= st <= dim) /\ (step < 0 -> 0 <= st <= dim - 1)).
  { rewrite ST. unfold onnx_start, adjust. destruct (Z.ltb_spec 0 step); destruct (start_ <? 0); lia. }
  assert (ENB : (0 < step -> onnx_end dim end_ step <= dim) /\ (step < 0 -> -1 <= onnx_end dim end_ step)).
  { unfold onnx_end, adjust. destruct (Z.ltb_spec 0 step); destruct (end_ <? 0); lia. }
  (* membership *)
  assert (KEY : forall k, 0 <= k -> (k < out <->
      (if 0 <? step then st + k * step <? onnx_end dim end_ step else onnx_end dim end_ step <? st + k * step) = true)).
  { intros k Hk. assert (KO : k < out <-> k < ceil_div (en - st) step).
    { unfold out. destruct (Z.ltb_spec (ceil_div (en - st) step) 0); lia. }
    rewrite KO. destruct (Z.ltb_spec 0 step) as [P|P].
    - rewrite ceil_div_lt_pos by lia. rewrite (EP P), Z.ltb_lt. lia.
    - rewrite ceil_div_lt_neg by lia. rewrite Z.ltb_lt. destruct EN as [->|[E1 E2]]; [lia|lia|].
      split; intros; exfalso; nia. }
  assert (RNG : forall k, 0 <= k < out -> 0 <= st + k * step < dim).
  { intros k Hk. pose proof (proj1 (KEY k ltac:(lia)) ltac:(lia)) as K.
    destruct (Z.ltb_spec 0 step); apply Z.ltb_lt in K; nia. }
  split; auto. unfold onnx_slice. rewrite <- ST.
  apply walk_spec.
  - split; auto. destruct (Z_le_gt_dec out (Z.of_nat (Z.to_nat dim))); auto. exfalso.
    pose proof (RNG 0 ltac:(lia)). pose proof (RNG (out - 1) ltac:(lia)). nia.
  - intros k Hk. apply KEY. lia.
Qed.

(** ** The element-wise part *)
Section Slice.
Context {W : Type}.
Variable junk : W.

Definition in_index (starts steps idx : list Z) : list Z :=
  map2 Z.add starts (map2 Z.mul idx steps).

Lemma slice_pos : forall idx starts steps st, length starts = length idx -> length steps = length idx ->
  length st = length idx ->
  sumZ (map2 Z.mul starts st) + pos idx (map2 Z.mul st steps) = pos (in_index starts steps idx) st.
Proof.
  unfold in_index. induction idx as [|i idx IH]; intros [|a starts] [|t steps] [|k st] L1 L2 L3; try discriminate; auto.
  cbn [map2 getStridesPosition]. rewrite sumZ_cons. cbn [length] in *. rewrite <- (IH starts steps st) by lia. ring.
Qed.

Lemma slice_spec (e : elements W) s data shape starts steps : const junk e s data -> okshape shape ->
  length shape = length s -> length starts = length s -> length steps = length s ->
  (forall idx, valid shape idx -> valid s (in_index starts steps idx)) ->
  exists e' out, slice junk e shape starts steps = Some e' /\ const junk e' shape out /\
    forall idx, valid shape idx -> elem shape out idx = elem s data (in_index starts steps idx).
Proof.
  intros C Ok L1 L2 L3 HV. assert (C' := C). apply const_iff in C' as (We & Se & _).
  pose proof (wf_len _ We) as HL. rewrite Se in HL.
  unfold slice.
  destruct (fromWideNums_range junk shape [map2 Z.mul (e_strides e) steps]
     (fun it => zget (bufferAsWideNums e) (sumZ (map2 Z.mul starts (e_strides e)) + off it 0))
     (fun k => den e (in_index starts steps (unrm shape k)))) as (e' & E & F1 & F2 & F3); auto.
  { unfold all_len. constructor; [rewrite map2_length; lia|constructor]. }
  { intros k Hk. destruct (unrm_spec shape k Ok Hk) as [V _]. split.
    - unfold off, mk_item. cbn [offsets map nth]. rewrite den_wide. f_equal.
      apply slice_pos; pose proof (valid_length _ _ V); lia.
    - apply den_some; auto. rewrite Se. auto. }
  destruct (wf_const junk e' shape F2 F1) as (out & Co & _). exists e', out. split; auto. split; auto.
  intros idx V. rewrite (const_elem _ _ _ _ _ Co V), (const_elem _ _ _ _ _ C), F3 by auto.
  now rewrite unrm_rm.
Qed.

(** ** The loop over the axes *)
Fixpoint lookup (a : nat) (axes : list nat) (starts ends steps : list Z) : option (Z * Z * Z) :=
  match axes, starts, ends, steps with
  | x :: axes', s :: starts', e :: ends', t :: steps' =>
      if (x =? a)%nat then Some (s, e, t) else lookup a axes' starts' ends' steps'
  | _, _, _, _ => None
  end.

Lemma lookup_none a axes : forall starts ends steps, ~ In a axes -> lookup a axes starts ends steps = None.
Proof.
  induction axes as [|x axes IH]; intros [|s starts] [|e ends] [|t steps] H; auto. cbn [lookup].
  destruct (Nat.eqb_spec x a); [exfalso; apply H; now left|]. apply IH. intros ?; apply H; now right.
Qed.

Lemma slice_loop_spec dims axes : forall starts ends steps acc,
  length starts = length axes -> length ends = length axes -> length steps = length axes ->
  NoDup axes -> Forall (fun a => (a < length dims)%nat) axes -> length acc = length dims ->
  Forall (fun t => t <> 0) steps ->
  exists arr, slice_loop dims axes starts ends steps acc = Some arr /\ length arr = length dims /\
    forall a, (a < length dims)%nat ->
      nth a arr None = match lookup a axes starts ends steps with
                       | Some (s, e, t) => slice_axis (nth a dims 0) s e t
                       | None => nth a acc None
                       end.
Proof.
  induction axes as [|x axes IH]; intros starts ends steps acc L1 L2 L3 ND FA LA FS.
  - exists acc. split; auto.
  - destruct starts as [|s starts], ends as [|e ends], steps as [|t steps]; try discriminate.
    inversion ND as [|? ? NI ND']; inversion FA as [|? ? Hx FA']; inversion FS as [|? ? Ht FS']; subst.
    cbn [slice_loop]. destruct (slice_axis (nth x dims 0) s e t) as [r|] eqn:ER.
    2:{ unfold slice_axis in ER. destruct (Z.eqb_spec t 0); [congruence|discriminate]. }
    cbn [obind]. cbn [length] in *.
    destruct (IH starts ends steps (upd x (Some r) acc)) as (arr & E & LR & G); auto; try lia.
    { now rewrite upd_length. }
    exists arr. split; auto. split; auto. intros a Ha. rewrite G by auto. cbn [lookup].
    destruct (Nat.eqb_spec x a) as [->|NE].
    + rewrite lookup_none by auto. rewrite nth_upd_same by lia. auto.
    + rewrite nth_upd_other by auto. auto.
Qed.

(** Relation between an input dimension, the helper's numbers and the selected positions. *)
Definition axis_ok (d : Z) (r : slice_dim) (l : list Z) : Prop :=
  0 <= sd_out r /\ l = map (fun k => sd_start r + k * sd_step r) (zrange (sd_out r)) /\
  (forall k, 0 <= k < sd_out r -> 0 <= sd_start r + k * sd_step r < d).

Lemma nth_map_zrange (f : Z -> Z) n k : 0 <= k < n -> nth (Z.to_nat k) (map f (zrange n)) 0 = f k.
Proof.
  intros Hk. apply nth_error_nth. rewrite nth_error_map. unfold zrange. rewrite zseq_nth by lia.
  simpl. f_equal. f_equal. lia.
Qed.

Inductive axes_ok : list Z -> list slice_dim -> list (list Z) -> Prop :=
| ao_nil : axes_ok [] [] []
| ao_cons d r l ds rs ls : axis_ok d r l -> axes_ok ds rs ls -> axes_ok (d :: ds) (r :: rs) (l :: ls).

Lemma axes_ok_facts ds rs ls : axes_ok ds rs ls ->
  okshape (map sd_out rs) /\ length rs = length ds /\
  map (fun l => Z.of_nat (length l)) ls = map sd_out rs /\
  forall idx, valid (map sd_out rs) idx ->
    valid ds (in_index (map sd_start rs) (map sd_step rs) idx) /\
    selected_index ls idx = in_index (map sd_start rs) (map sd_step rs) idx.
Proof.
  unfold in_index. induction 1 as [|d r l ds rs ls (H1 & H2 & H3) HA (IH1 & IH2 & IH3 & IH4)].
  - repeat split; try constructor; inversion H; subst; try constructor; auto.
  - cbn [map]. split; [constructor; auto|]. split; [simpl; lia|]. split.
    + f_equal; auto. subst l. rewrite map_length, zrange_length. lia.
    + intros idx V. inversion V as [|? x ? idx' Hx V']; subst. destruct (IH4 idx' V') as [A B].
      cbn [map2]. split.
      * constructor; auto.
      * unfold selected_index in *. cbn [combine map fst snd]. rewrite B. f_equal. now rewrite nth_map_zrange.
Qed.
End Slice.

Lemma zrange_of_nat n : 0 <= n -> map Z.of_nat (seq 0 (Z.to_nat n)) = map (fun k => 0 + k * 1) (zrange n).
Proof.
  intros Hn. unfold zrange. generalize (Z.to_nat n). intros m.
  assert (G : forall a, map Z.of_nat (seq a m) = map (fun k => 0 + k * 1) (zseq (Z.of_nat a) m)).
  { induction m; intros a; cbn [seq zseq map]; auto. f_equal; [lia|]. rewrite IHm. do 2 f_equal. lia. }
  apply (G O).
Qed.

Lemma norm_axes_some rank axes : Forall (fun a => - rank <= a < rank) axes ->
  norm_axes rank axes = Some (map (fun a => Z.to_nat (if a <? 0 then a + rank else a)) axes).
Proof.
  intros H. unfold norm_axes. induction H as [|x l Hx H IH]; auto.
  cbn [fold_right map]. rewrite IH. cbn [obind].
  destruct (Z.ltb_spec x 0); cbn [andb];
  match goal with |- context [(0 <=? ?a) && (?a <? ?b)] => destruct (Z.leb_spec 0 a), (Z.ltb_spec a b) end; auto; lia.
Qed.
