(** Lemmas for the rewriting of normalizations. *)
From Coq Require Import List ZArith Bool Lia.
From Verif Require Import Util TensorSpec TensorLemmas ShapeOpsModel ShapeOpsSpec BroadcastSpec BroadcastModel BroadcastProofs ShapeRewriteModel PowRnnProofs BinaryRewriteSpec BinaryRewriteProofs NormRewriteSpec NormRewriteModel.
Import ListNotations.
Open Scope Z_scope.

Lemma map2_ones : forall m idx, length idx = m -> map2 (fun d i : Z => if d =? 1 then 0 else i) (repeat 1 m) idx = repeat 0 m.
Proof. induction m as [|m IH]; intros [|i idx] L; try discriminate; [reflexivity|]. cbn in *. f_equal. apply IH. lia. Qed.
Lemma bindex_skip s pre idx : length s = length idx -> bindex s (pre ++ idx) = map2 (fun d i => if d =? 1 then 0 else i) s idx.
Proof. intros L. unfold bindex. rewrite app_length, L. replace (length pre + length idx - length idx)%nat with (length pre) by lia. rewrite skipn_app, Nat.sub_diag, skipn_all. reflexivity. Qed.
Lemma rm_ones : forall m acc, rm_acc acc (repeat 1 m) (repeat 0 m) = acc.
Proof. induction m as [|m IH]; intros acc; [reflexivity|]. cbn [repeat rm_acc]. rewrite IH. lia. Qed.
Lemma valid_zeros m : valid (repeat 1 m) (repeat 0 m).
Proof. induction m; constructor; auto; lia. Qed.
(** The element of a vector unsqueezed to (G, 1, ..., 1). *)
Lemma unsqueezed_value {A} (s s' : tensor A) G m pre g rest : tShape s = [G] -> tShape s' = G :: repeat 1 m ->
  (forall i j, valid (tShape s) i -> valid (tShape s') j -> rowmajor (tShape s) i = rowmajor (tShape s') j -> tAt s' j = tAt s i) ->
  0 <= g < G -> length rest = m -> tAt s' (bindex (tShape s') (pre ++ g :: rest)) = tAt s [g].
Proof.
  intros E E' H Hg L. rewrite E'. rewrite bindex_skip by (cbn; rewrite repeat_length; lia). cbn [map2]. rewrite map2_ones by auto.
  replace (if G =? 1 then 0 else g) with g by (destruct (Z.eqb_spec G 1); lia). apply H; rewrite ?E, ?E'.
  - repeat constructor; lia.
  - constructor; [lia | apply valid_zeros].
  - unfold rowmajor. cbn [rm_acc]. now rewrite rm_ones.
Qed.
(** The element of a vector reshaped to (G, K, 1, ..., 1). *)
Lemma reshaped_value {A} (s s' : tensor A) G K m pre g k rest : tShape s = [G * K] -> tShape s' = G :: K :: repeat 1 m ->
  (forall i j, valid (tShape s) i -> valid (tShape s') j -> rowmajor (tShape s) i = rowmajor (tShape s') j -> tAt s' j = tAt s i) ->
  0 <= g < G -> 0 <= k < K -> length rest = m -> tAt s' (bindex (tShape s') (pre ++ g :: k :: rest)) = tAt s [g * K + k].
Proof.
  intros E E' H Hg Hk L. rewrite E'. rewrite bindex_skip by (cbn; rewrite repeat_length; lia). cbn [map2]. rewrite map2_ones by auto.
  replace (if G =? 1 then 0 else g) with g by (destruct (Z.eqb_spec G 1); lia). replace (if K =? 1 then 0 else k) with k by (destruct (Z.eqb_spec K 1); lia). apply H; rewrite ?E, ?E'.
  - repeat constructor; nia.
  - repeat (constructor; [lia|]). apply valid_zeros.
  - unfold rowmajor. cbn [rm_acc]. rewrite rm_ones. lia.
Qed.
(** Broadcasting (G, 1, ..., 1) and (G, K, 1, ..., 1). *)
Lemma broadcast_tail pre s t : broadcast [s; t] s -> length t = length s -> broadcast [pre ++ s; t] (pre ++ s).
Proof.
  intros (B1 & _ & B3) L. split; [intros u [<- | [<- | []]]; rewrite ?app_length; lia|]. split; [exists (pre ++ s); split; [left|]; auto|].
  intros j Hj. cbn [map] in *. split; [left; auto|]. intros v [<- | [<- | []]]; [auto|].
  destruct (Nat.lt_ge_cases j (length s)) as [H | H].
  - assert (RD : rdim (pre ++ s) j = rdim s j) by (unfold rdim; rewrite rev_app_distr, app_nth1; [auto | rewrite rev_length; auto]). rewrite RD. destruct (B3 j H) as [_ K]. apply K. right; left; auto.
  - left. unfold rdim. apply nth_overflow. rewrite rev_length. lia.
Qed.
Lemma broadcast_same_len : forall s t, length t = length s -> Forall2 (fun d e => e = 1 \/ e = d) s t -> broadcast [s; t] s.
Proof.
  intros s t L F. split; [intros u [<- | [<- | []]]; lia|]. split; [exists s; split; [left|]; auto|]. intros j Hj. cbn [map]. split; [left; auto|]. intros v [<- | [<- | []]]; [auto|].
  set (k := (length s - 1 - j)%nat). replace (rdim t j) with (nth k t 1) by (rewrite <- (rdim_nth t k) by (unfold k; lia); f_equal; unfold k; lia).
  replace (rdim s j) with (nth k s 1) by (rewrite <- (rdim_nth s k) by (unfold k; lia); f_equal; unfold k; lia). clearbody k. clear - F. revert k. induction F as [|d e s t H F IH]; intros [|k]; cbn [nth]; auto.
Qed.
Lemma ones_fit D : Forall2 (fun d e : Z => e = 1 \/ e = d) D (repeat 1 (length D)).
Proof. induction D; constructor; auto. Qed.

(** The shape a Reshape with positive entries and at most one -1 gives. *)
Lemma reshape_static sh data out : Forall (fun d => 1 <= d) sh -> reshapes_to data sh out -> out = sh.
Proof.
  intros P (L & M & _). apply (list_ext_nth 0); auto. intros i Hi. rewrite Forall_forall in P.
  assert (Hs : nth_error sh i = Some (nth i sh 0)) by (apply nth_error_nth'; lia). destruct (M _ _ Hs) as [_ M2].
  assert (1 <= nth i sh 0) by (apply P, nth_In; lia). specialize (M2 ltac:(lia)). apply (nth_error_nth _ _ 0) in M2. exact M2.
Qed.
Lemma reshape_group N G K D out : 1 <= N -> 1 <= G -> Forall (fun d => 1 <= d) D -> reshapes_to (N :: G * K :: D) (N :: G :: -1 :: D) out -> out = N :: G :: K :: D.
Proof.
  intros HN HG HD (L & M & P). destruct out as [|n [|g [|k out]]]; try discriminate. cbn [length] in L.
  assert (n = N) as ->. { destruct (M 0%nat N eq_refl) as [_ Q]. specialize (Q ltac:(lia)). cbn in Q. congruence. }
  assert (g = G) as ->. { destruct (M 1%nat G eq_refl) as [_ Q]. specialize (Q ltac:(lia)). cbn in Q. congruence. }
  assert (out = D) as ->. { apply (list_ext_nth 0); [lia|]. intros i Hi. assert (Hs : nth_error D i = Some (nth i D 0)) by (apply nth_error_nth'; lia). destruct (M (S (S (S i))) _ Hs) as [_ Q].
    rewrite Forall_forall in HD. assert (1 <= nth i D 0) by (apply HD, nth_In; lia). specialize (Q ltac:(lia)). cbn in Q. apply (nth_error_nth _ _ 0) in Q. exact Q. }
  rewrite !prodZ_cons in P. assert (PD : 1 <= prodZ D) by (clear - HD; induction HD as [|d D H F IH]; [unfold prodZ; cbn; lia | rewrite prodZ_cons; nia]). 
  assert (E : (N * G * prodZ D) * (k - K) = 0) by (unfold size in P; rewrite ?prodZ_cons in P; apply (f_equal (fun z => z - N * G * prodZ D * K)) in P; ring_simplify; ring_simplify in P; lia). apply Z.mul_eq_0 in E as [E | E]; [|do 3 f_equal; lia]. assert (1 <= N * G) by nia. nia.
Qed.
Lemma broadcast2_unique s t y z : broadcast [s; t] y -> broadcast [s; t] z -> y = z.
Proof.
  intros (A1 & (u & Au & A2) & A3) (B1 & (v & Bv & B2) & B3). assert (L : length y = length z) by (pose proof (A1 _ Bv); pose proof (B1 _ Au); lia).
  apply (list_ext_nth 1); auto. intros i Hi. rewrite <- (rdim_nth y i), <- (rdim_nth z i) by lia. rewrite L. apply (bcast_unique (map (fun s0 => rdim s0 (length z - 1 - i)) [s; t])); [apply A3; lia | apply B3; lia].
Qed.
