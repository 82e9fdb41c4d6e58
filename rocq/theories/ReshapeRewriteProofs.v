(** Lemmas for the rewriting of Reshape operations. *)
From Coq Require Import List ZArith Bool Lia.
From Verif Require Import Util TensorSpec TensorLemmas ShapeOpsModel ShapeOpsSpec ReshapeRewriteSpec ReshapeRewriteModel.
Import ListNotations.
Open Scope Z_scope.

Definition runPositive (l : list entry) : Prop := Forall (fun e => match e with Run v => 0 < v | Const _ => True end) l.

Lemma fuseDims_length s2 : forall s1, length (fuseDims s1 s2) = length s2.
Proof. induction s2 as [|d2 s2 IH]; intros [|d1 s1]; cbn [fuseDims length]; auto. Qed.
Lemma fuseDims_nth s2 : forall s1 i d2, nth_error s2 i = Some d2 ->
  nth_error (fuseDims s1 s2) i = Some (match nth_error s1 i with Some d1 => if isZero d2 then d1 else d2 | None => d2 end).
Proof.
  induction s2 as [|e s2 IH]; intros s1 [|i] d2 H; try discriminate; cbn in H.
  - injection H as ->. destruct s1; reflexivity.
  - destruct s1 as [|d1 s1]; cbn [fuseDims nth_error]; rewrite (IH _ i d2 H); auto. destruct i; reflexivity.
Qed.
Lemma nth_value l i v : nth_error (map value l) i = Some v -> exists e, nth_error l i = Some e /\ value e = v.
Proof. rewrite nth_error_map. destruct (nth_error l i); [|discriminate]. intros E; injection E as <-. eauto. Qed.
Lemma nth_run l i e : runPositive l -> nth_error l i = Some e -> match e with Run v => 0 < v | Const _ => True end.
Proof. intros H E. eapply (proj1 (Forall_forall _ _)) in H; [exact H|]. eapply nth_error_In; eauto. Qed.

Lemma filter_unique {A} (f : A -> bool) l : (length (filter f l) <= 1)%nat -> forall i j a b,
  nth_error l i = Some a -> nth_error l j = Some b -> f a = true -> f b = true -> i = j.
Proof.
  assert (P : forall l i a, nth_error l i = Some a -> f a = true -> (1 <= length (filter f l))%nat).
  { intros m i a H F. assert (I : In a (filter f m)) by (apply filter_In; split; auto; eapply nth_error_In; eauto). destruct (filter f m); [destruct I | cbn; lia]. }
  induction l as [|x l IH]; intros H [|i] [|j] a b Ha Hb Fa Fb; cbn [nth_error] in Ha, Hb; try discriminate; auto.
  - injection Ha as ->. cbn [filter] in H. rewrite Fa in H. cbn [length] in H. pose proof (P _ _ _ Hb Fb). lia.
  - injection Hb as ->. cbn [filter] in H. rewrite Fb in H. cbn [length] in H. pose proof (P _ _ _ Ha Fa). lia.
  - f_equal. eapply IH; eauto. cbn [filter] in H. destruct (f x); cbn [length] in H; lia.
Qed.

Lemma fuse_ok s1 s2 f data mid out : runPositive s1 -> runPositive s2 -> fuseTwoReshapes 0 0 s1 s2 = Some f ->
  legal_target data (map value s1) -> reshapes_to data (map value s1) mid ->
  legal_target mid (map value s2) -> reshapes_to mid (map value s2) out ->
  legal_target data (map value f) /\ reshapes_to data (map value f) out.
Proof.
  intros R1 R2 E [L1 U1] (N1 & M1 & P1) [L2 U2] (N2 & M2 & P2). unfold fuseTwoReshapes in E. cbn [Z.eqb negb] in E.
  destruct (1 <? length (filter isMinusOne (fuseDims s1 s2)))%nat eqn:Ec; [discriminate|]. injection E as <-. apply Nat.ltb_ge in Ec.
  rewrite map_length in N1, N2.
  (* the entries *)
  assert (G : forall i e, nth_error (fuseDims s1 s2) i = Some e -> exists d2, nth_error s2 i = Some d2 /\
     ((isZero d2 = true /\ value d2 = 0 /\ nth_error s1 i = Some e) \/ (value d2 <> 0 /\ e = d2))).
  { intros i e H. assert (I : (i < length s2)%nat) by (rewrite <- (fuseDims_length s2 s1); apply nth_error_Some; congruence).
    destruct (nth_error s2 i) as [d2|] eqn:E2; [|apply nth_error_None in E2; lia]. exists d2. split; auto.
    rewrite (fuseDims_nth _ _ _ _ E2) in H. injection H as <-.
    destruct (isZero d2) eqn:Z2.
    - left. split; auto. assert (V : value d2 = 0) by (destruct d2; cbn in *; [apply Z.eqb_eq; auto | discriminate]). split; auto.
      destruct (L2 i 0) as [_ Q]. { rewrite nth_error_map, E2. cbn. now rewrite V. }
      specialize (Q eq_refl). rewrite N1 in Q. destruct (nth_error s1 i) eqn:E1; [reflexivity | apply nth_error_None in E1; lia].
    - right. pose proof (nth_run _ _ _ R2 E2) as RP. split; [destruct d2; cbn in *; [apply Z.eqb_neq; auto | lia]|]. destruct (nth_error s1 i); auto. }
  assert (Gm : forall i v, nth_error (map value (fuseDims s1 s2)) i = Some v -> exists e, nth_error (fuseDims s1 s2) i = Some e /\ value e = v) by (intros; apply nth_value; auto).
  split; [split|].
  - intros i v H. apply Gm in H as (e & He & <-). destruct (G i e He) as (d2 & E2 & [(Z2 & V2 & E1) | (V2 & ->)]).
    + apply (L1 i). rewrite nth_error_map, E1. reflexivity.
    + destruct (L2 i (value d2)) as [A B]; [rewrite nth_error_map, E2; reflexivity|]. split; auto. intros X. contradiction.
  - assert (Q : forall i, nth_error (map value (fuseDims s1 s2)) i = Some (-1) -> exists e, nth_error (fuseDims s1 s2) i = Some e /\ isMinusOne e = true).
    { intros i H. apply Gm in H as (e & He & V). exists e. split; auto. destruct (G i e He) as (d2 & E2 & [(Z2 & V2 & E1) | (V2 & ->)]).
      - pose proof (nth_run _ _ _ R1 E1) as RP. destruct e; cbn in *; [subst; reflexivity | lia].
      - pose proof (nth_run _ _ _ R2 E2) as RP. destruct d2; cbn in *; [subst; reflexivity | lia]. }
    intros i j Hi Hj. apply Q in Hi as (a & Ha & Fa). apply Q in Hj as (b & Hb & Fb). eapply filter_unique; eauto.
  - split; [rewrite map_length, fuseDims_length; exact N2|]. split; [|congruence].
    intros i v H. apply Gm in H as (e & He & <-). destruct (G i e He) as (d2 & E2 & [(Z2 & V2 & E1) | (V2 & ->)]).
    + destruct (M2 i 0) as [C _]; [rewrite nth_error_map, E2; cbn; now rewrite V2|]. rewrite (C eq_refl).
      apply (M1 i). rewrite nth_error_map, E1. reflexivity.
    + destruct (M2 i (value d2)) as [_ C]; [rewrite nth_error_map, E2; reflexivity|]. split; [intros X; contradiction | exact C].
Qed.

(** Identity. *)
Lemma sameDims_le ins : forall outs same, (sameDims ins outs same <= length ins)%nat.
Proof. induction ins as [|x r IH]; intros [|y s] [|b t]; cbn [sameDims length]; try lia. specialize (IH s t). destruct (match x with Some _ => _ | None => _ end); [lia|]. destruct b; lia. Qed.

Definition sameOk (same : list bool) (data out : list Z) : Prop := forall i, nth_error same i = Some true -> nth_error data i = nth_error out i.
Lemma sameOk_tl b same x y data out : sameOk (b :: same) (x :: data) (y :: out) -> sameOk same data out.
Proof. intros H i E. apply (H (S i)). exact E. Qed.

Lemma head_same x y b t dx dy data out : agrees [x] [dx] -> agrees [y] [dy] -> sameOk (b :: t) (dx :: data) (dy :: out) ->
  match x with Some _ => eqDim x y | None => false end = true \/ b = true -> dx = dy.
Proof.
  intros Hx Hy S [H | ->].
  - destruct x as [v|]; [|discriminate]. destruct y as [w|]; [|discriminate]. cbn in H. apply Z.eqb_eq in H. subst w.
    inversion Hx as [|? ? ? ? A _]; inversion Hy as [|? ? ? ? B _]; subst. rewrite <- (A v), <- (B v); auto.
  - specialize (S 0%nat eq_refl). cbn in S. congruence.
Qed.

Lemma all_same ins : forall outs same data out, agrees ins data -> agrees outs out -> length ins = length outs -> sameOk same data out ->
  sameDims ins outs same = length ins -> out = data.
Proof.
  induction ins as [|x r IH]; intros outs same data out A B L Sm E; destruct outs as [|y s]; cbn [length] in L; try lia.
  - inversion A; inversion B; subst. reflexivity.
  - inversion A as [|? dx ? data' Ax Ar]; inversion B as [|? dy ? out' By Bs]; subst. destruct same as [|b t]; [cbn in E; lia|]. cbn [sameDims length] in E.
    pose proof (sameDims_le r s t) as Le.
    assert (Hd : dx = dy).
    { apply (head_same x y b t dx dy data' out'); [repeat constructor; auto | repeat constructor; auto | exact Sm |].
      destruct (match x with Some _ => eqDim x y | None => false end); [left; auto|]. destruct b; [right; auto | lia]. }
    f_equal; auto. apply (IH s t data' out' Ar Bs ltac:(lia) (sameOk_tl _ _ _ _ _ _ Sm)).
    destruct (match x with Some _ => eqDim x y | None => false end); [lia|]. destruct b; lia.
Qed.
Lemma prodZ_pos l : Forall (fun d => 1 <= d) l -> 1 <= prodZ l.
Proof. induction 1; [unfold prodZ; cbn; lia|]. change (prodZ (x :: l)) with (x * prodZ l). nia. Qed.
Lemma identity_ok ins : forall outs same data out, agrees ins data -> agrees outs out -> length ins = length outs -> sameOk same data out ->
  (length ins - 1 <= sameDims ins outs same)%nat -> Forall (fun d => 1 <= d) data -> prodZ out = prodZ data -> out = data.
Proof.
  induction ins as [|x r IH]; intros outs same data out A B L Sm E Pos P; destruct outs as [|y s]; cbn [length] in L; try lia.
  - inversion A; inversion B; subst. reflexivity.
  - inversion A as [|? dx ? data' Ax Ar]; inversion B as [|? dy ? out' By Bs]; subst. inversion Pos as [|? ? Px Pr]; subst.
    change (prodZ (dy :: out')) with (dy * prodZ out') in P. change (prodZ (dx :: data')) with (dx * prodZ data') in P.
    assert (L' : length r = length s) by lia. pose proof (prodZ_pos _ Pr) as Pp.
    destruct same as [|b t].
    { cbn [sameDims length] in E. assert (length r = 0%nat) by lia. destruct r; [|discriminate]. destruct s; [|discriminate]. inversion Ar; inversion Bs; subst. f_equal. unfold prodZ in P. cbn in P. lia. }
    pose proof (sameDims_le r s t) as Le. cbn [sameDims length] in E.
    assert (D : (match x with Some _ => eqDim x y | None => false end = true \/ b = true) \/
                sameDims r s t = length r /\ match x with Some _ => eqDim x y | None => false end = false /\ b = false).
    { destruct (match x with Some _ => eqDim x y | None => false end); [left; left; auto|]. destruct b; [left; right; auto|]. right. repeat split. lia. }
    destruct D as [D | (D & _)].
    + assert (Hd : dx = dy) by (apply (head_same x y b t dx dy data' out'); [repeat constructor; auto | repeat constructor; auto | exact Sm | exact D]). subst dy. f_equal.
      apply (IH s t data' out' Ar Bs L' (sameOk_tl _ _ _ _ _ _ Sm)); auto; [|nia].
      destruct (match x with Some _ => eqDim x y | None => false end); [lia|]. destruct b; [lia | destruct D; discriminate].
    + assert (out' = data') by (apply (all_same r s t data' out' Ar Bs L' (sameOk_tl _ _ _ _ _ _ Sm) D)). subst out'. f_equal. nia.
Qed.

Lemma allowzero_ok data sh out : Forall (fun d => 1 <= d) out -> reshapes_to_allowing_zero data sh out -> reshapes_to data sh out.
Proof.
  intros Pos (L & M & P). split; auto. split; auto. intros i v H. split; [|intros; apply M; auto; lia].
  intros ->. specialize (M i 0 H ltac:(lia)). apply nth_error_In in M. rewrite Forall_forall in Pos. specialize (Pos 0 M). lia.
Qed.

(** Products. *)
Lemma snoc_rm pre K p k : length pre = length p -> rowmajor (pre ++ [K]) (p ++ [k]) = rm pre p * K + k.
Proof.
  intros H. rewrite rowmajor_rm by (rewrite !app_length; cbn; lia). rewrite rm_app by auto. cbn [rm]. rewrite size_cons, size_nil. lia.
Qed.
Lemma snoc_rm2 R K r k : rowmajor [R; K] [r; k] = r * K + k.
Proof. change [R; K] with ([R] ++ [K]). change [r; k] with ([r] ++ [k]). rewrite (snoc_rm [R] K [r] k eq_refl). cbn [rm]. rewrite size_nil. lia. Qed.

Lemma product_unique {T} (add mul : T -> T -> T) zero pre R K N A B C C' : okshape pre -> R = size pre -> 0 <= K -> 1 <= N ->
  isProduct add mul zero [R] K N A B C -> isProduct add mul zero pre K N A B C' -> C = C'.
Proof.
  intros Ok ER HK HN (DA & DB & DC & H) (DA' & _ & DC' & H'). unfold is_data in DC, DC'. cbn [app] in DC. rewrite size_app in DC'.
  rewrite !size_cons, size_nil in *. cbn [app] in H.
  apply zget_ext; [lia|]. intros n Hn. rewrite DC in Hn.
  assert (Hr : 0 <= n / N < R) by (split; [apply Z.div_pos; lia | apply Z.div_lt_upper_bound; nia]).
  assert (Hj : 0 <= n mod N < N) by (apply Z.mod_pos_bound; lia).
  destruct (unrm_spec pre (n / N)) as [Vp Ep]; [auto | subst R; auto |]. set (p := unrm pre (n / N)) in *.
  assert (Lp : length pre = length p) by (apply valid_length; auto).
  destruct (H [n / N] (n mod N)) as (as1 & bs1 & La1 & Lb1 & Ks1 & E1); [constructor; auto; constructor | auto |].
  destruct (H' p (n mod N) Vp Hj) as (as2 & bs2 & La2 & Lb2 & Ks2 & E2).
  assert (as1 = as2).
  { apply zget_ext; [lia|]. intros k Hk. destruct (Ks1 k ltac:(lia)) as [X1 _]. destruct (Ks2 k ltac:(lia)) as [X2 _]. rewrite <- X1, <- X2. unfold elem. cbn [app]. rewrite snoc_rm, Ep by auto. reflexivity. }
  assert (bs1 = bs2).
  { apply zget_ext; [lia|]. intros k Hk. destruct (Ks1 k ltac:(lia)) as [_ X1]. destruct (Ks2 k ltac:(lia)) as [_ X2]. rewrite <- X1, <- X2. reflexivity. }
  subst as2 bs2. unfold elem in E1, E2. cbn [app] in E1. rewrite snoc_rm2 in E1. rewrite snoc_rm, Ep in E2 by auto.
  replace (n / N * N + n mod N) with n in E1, E2 by (pose proof (Z.div_mod n N ltac:(lia)); lia). congruence.
Qed.

Lemma product_flat {T} (add mul : T -> T -> T) zero pre K N A B C :
  isProduct add mul zero [size pre] K N A B C -> isProduct add mul zero pre K N A B C.
Proof.
  intros (DA & DB & DC & H). unfold is_data in *. cbn [app] in *. rewrite !size_cons, size_nil in *. split; [|split; [|split]]; unfold is_data; rewrite ?size_app, ?size_cons, ?size_nil; try lia.
  intros p j Vp Hj. assert (Lp : length pre = length p) by (apply valid_length; auto). pose proof (rm_bound _ _ Vp) as Bp.
  destruct (H [rm pre p] j) as (as_ & bs & La & Lb & Ks & E); [constructor; auto; constructor | auto |].
  exists as_, bs. split; auto. split; auto. unfold elem in *. cbn [app] in *. rewrite snoc_rm2 in E. rewrite snoc_rm by auto. split; auto.
  intros k Hk. destruct (Ks k Hk) as [X Y]. rewrite snoc_rm2 in X. rewrite snoc_rm by auto. auto.
Qed.

Lemma agrees_last : forall known (pre : list Z) K, agrees known (pre ++ [K]) -> forall v, last known None = Some v -> v = K.
Proof.
  intros known pre. revert known. induction pre as [|x pre IH]; intros known K H v E; cbn [app] in H; inversion H as [|o d k' s' Ho Hk]; subst.
  - inversion Hk; subst. cbn in E. apply Ho. exact E.
  - apply (IH k'); [exact Hk|]. destruct k' as [|o' k']; [inversion Hk as [E0|]; destruct pre; discriminate | exact E].
Qed.
Lemma agrees_static : forall known s, agrees known s -> forallb (fun d => negb (isDynamic d)) known = true -> map (fun d => match d with Some v => v | None => 0 end) known = s.
Proof. induction 1 as [|o d k s H _ IH]; cbn; auto. destruct o as [v|]; cbn; [|discriminate]. intros E. rewrite (H v eq_refl), IH; auto. Qed.

Lemma swap_ok {T} (add mul : T -> T -> T) zero aT res1T bT res2T target pre K R K1 N A B C C' :
  swapReshapeMatMul aT res1T bT res2T = Some target -> last aT None <> None ->
  agrees aT (pre ++ [K]) -> agrees res1T [R; K1] -> agrees res2T [R; N] -> okshape pre -> 1 <= K -> 1 <= N ->
  R * K1 = size pre * K -> isProduct add mul zero [R] K1 N A B C -> isProduct add mul zero pre K N A B C /\ (isProduct add mul zero pre K N A B C' -> C' = C) /\
  K1 = K /\ target = [R; N] /\ R * N = size pre * N.
Proof.
  intros E Hl Ha H1 H2 Ok HK HN HP PC. unfold swapReshapeMatMul in E.
  destruct ((2 <? length aT)%nat && (length res1T =? 2)%nat && (length bT =? 2)%nat && eqDim (last aT None) (last res1T None) && forallb (fun d => negb (isDynamic d)) res2T) eqn:Eg; [|discriminate].
  apply andb_prop in Eg as [Eg Es]. apply andb_prop in Eg as [_ Ed]. injection E as <-.
  destruct (last aT None) as [v|] eqn:La; [|congruence]. destruct (last res1T None) as [w|] eqn:L1; [|discriminate]. apply Z.eqb_eq in Ed. subst w.
  pose proof (agrees_last aT pre K Ha v La). pose proof (agrees_last res1T [R] K1 H1 v L1). subst v K1.
  assert (R = size pre) by nia. subst R. split; [apply product_flat; auto|]. split; [|split; [auto | split; [apply agrees_static; auto | auto]]].
  intros PC'. symmetry. eapply product_unique; eauto. lia.
Qed.
