(** C86: rewriting normalizations keeps their results. *)
From Coq Require Import List ZArith Bool Lia.
From Verif Require Import Util TensorSpec TensorLemmas ShapeOpsModel ShapeOpsSpec BroadcastSpec ReshapeRewriteSpec ShapeRewriteModel PowRnnProofs BinaryRewriteSpec BinaryRewriteProofs NormRewriteSpec NormRewriteModel NormRewriteProofs.
Import ListNotations.
Open Scope Z_scope.

Section Props.
Context {A : Type} (nrm : list A -> A -> A) (add mul : A -> A -> A).

(** InstanceNormalization is the LayerNormalization with scale and bias unsqueezed. *)
Theorem C86_instance_norm N C D (x scale b : tensor A) : tShape x = N :: C :: D -> D <> [] -> 1 <= C -> tShape scale = [C] -> tShape b = [C] ->
  exists sh axis, instanceNorm (tShape x) = Rewritten (sh, axis) /\
  forall scale' b' y, isReshaped false scale sh scale' -> isReshaped false b sh b' ->
    (isLayerNorm nrm add mul axis x scale' (Some b') y <-> isInstanceNorm nrm add mul x scale b y).
Proof.
  intros Ex HD HC Es Eb. exists (C :: repeat 1 (length D)), 2%nat. split.
  { unfold instanceNorm. rewrite Ex. cbn [zget length]. destruct D as [|d D]; [congruence|]. reflexivity. }
  intros scale' b' y [R1 V1] [R2 V2]. assert (P : Forall (fun d => 1 <= d) (C :: repeat 1 (length D))) by (constructor; [auto|]; clear; induction D; constructor; auto; lia).
  apply (reshape_static _ _ _ P) in R1. apply (reshape_static _ _ _ P) in R2.
  assert (Bc : broadcast [N :: C :: D; C :: repeat 1 (length D)] (N :: C :: D)).
  { apply (broadcast_tail [N] (C :: D)); [|cbn; rewrite repeat_length; auto]. apply broadcast_same_len; [cbn; rewrite repeat_length; auto|]. constructor; [auto | apply ones_fit]. }
  assert (Vs : forall n c d, 0 <= c < C -> valid D d -> tAt scale' (bindex (tShape scale') (n :: c :: d)) = tAt scale [c] /\ tAt b' (bindex (tShape b') (n :: c :: d)) = tAt b [c]).
  { intros n c d Hc Hd. split; apply (unsqueezed_value _ _ C (length D) [n]); auto using valid_len. }
  split.
  - intros (Sy & _ & _ & H). exists N, C, D. repeat (split; [assumption|]). intros n c d Hn Hc Hd. rewrite (H (n :: c :: d)) by (rewrite Ex; constructor; auto; constructor; auto).
    unfold layerNormed. destruct (Vs n c d Hc Hd) as [-> ->]. rewrite Ex. reflexivity.
  - intros (N' & C' & D' & E & _ & _ & Sy & H). rewrite Ex in E. injection E as <- <- <-. split; [auto|]. split; [rewrite R1, Ex; auto|]. split; [rewrite R2, Ex; auto|]. intros idx V. rewrite Ex in V.
    inversion V as [|? n ? idx' Hn V' ]; subst. inversion V' as [|? c ? d Hc Hd]; subst. rewrite H by auto. unfold layerNormed. destruct (Vs n c d Hc Hd) as [-> ->]. rewrite Ex. reflexivity.
Qed.

(** The pipeline of operations made from a GroupNormalization. *)
Definition groupNormRuns (p : groupNormParts) (x scale b y : tensor A) : Prop :=
  exists scale' b' t u, isReshaped false scale (gScaleShape p) scale' /\ isReshaped false b (gScaleShape p) b' /\ isReshaped false x (gInputShape p) t /\
    isLayerNorm nrm add mul (gAxis p) t scale' (Some b') u /\ isReshaped false u (gOutputShape p) y.

Lemma groupNormRuns_right N G K D p (x scale b y : tensor A) (perChannel : bool) : 1 <= N -> 1 <= G -> 1 <= K -> Forall (fun d => 1 <= d) D ->
  tShape x = N :: G * K :: D -> gInputShape p = N :: G :: -1 :: D -> gAxis p = 2%nat -> gOutputShape p = tShape x ->
  tShape scale = [if perChannel then G * K else G] -> tShape b = tShape scale ->
  (forall (s s' : tensor A), tShape s = tShape scale -> isReshaped false s (gScaleShape p) s' -> forall n g k d, 0 <= g < G -> 0 <= k < K -> valid D d ->
     tAt s' (bindex (tShape s') (n :: g :: k :: d)) = tAt s [if perChannel then g * K + k else g]) ->
  groupNormRuns p x scale b y -> isGroupNorm nrm add mul perChannel G x scale b y.
Proof.
  intros HN HG HK HD Ex Ei Ea Eo Es Eb Sc (s' & b' & t & u & R1 & R2 & [R3 V3] & LN & [R4 V4]). rewrite Ei, Ex in R3. apply reshape_group in R3; auto. rewrite Ea in LN. destruct LN as (Su & _ & _ & LN).
  assert (Px : Forall (fun d => 1 <= d) (tShape x)) by (rewrite Ex; constructor; auto; constructor; auto; nia). rewrite Eo in R4. apply (reshape_static _ _ _ Px) in R4.
  exists N, K, D. split; [auto|]. split; [auto|]. split; [auto|]. split; [auto|]. intros n g k d Hn Hg Hk Hd. cbn zeta.
  assert (Hc : 0 <= g * K + k < G * K) by nia.
  assert (Vx : valid (tShape x) (n :: g * K + k :: d)) by (rewrite Ex; constructor; auto; constructor; auto). assert (Vt : valid (tShape t) (n :: g :: k :: d)) by (rewrite R3; repeat (constructor; auto)).
  assert (RM : forall i j l, rowmajor (N :: G * K :: D) (n :: i * K + j :: l) = rowmajor (N :: G :: K :: D) (n :: i :: j :: l)) by (intros; unfold rowmajor; cbn [rm_acc]; f_equal; ring).
  rewrite (V4 (n :: g :: k :: d)); [|rewrite Su; auto | rewrite R4; auto | rewrite Su, R3, R4, Ex, RM; reflexivity].
  rewrite LN by auto. unfold layerNormed. rewrite (Sc scale s'), (Sc b b') by auto. do 2 f_equal. f_equal.
  - rewrite R3. cbn [skipn firstn app]. apply map_ext_in. intros r Hr. apply indices_valid in Hr; [|constructor; [lia|]; eapply Forall_impl; [|exact HD]; intros; cbn in *; lia].
    inversion Hr as [|? k' ? d' Hk' Hd']; subst. cbn [hd tl]. apply V3; [rewrite Ex; constructor; auto; constructor; auto; nia | rewrite R3; repeat (constructor; auto) | rewrite Ex, R3; apply RM].
  - apply V3; auto. rewrite Ex, R3. apply RM.
Qed.

(** GroupNormalization of ONNX 18. *)
Theorem C86_group_norm_18 N G K D (x scale b : tensor A) staticC : 1 <= N -> 1 <= G -> 1 <= K -> Forall (fun d => 1 <= d) D -> D <> [] ->
  tShape x = N :: G * K :: D -> staticC = None \/ staticC = Some (G * K) -> tShape scale = [G] -> tShape b = [G] ->
  exists p, groupNorm true (tShape x) staticC G = Rewritten p /\ forall y, groupNormRuns p x scale b y -> isGroupNorm nrm add mul false G x scale b y.
Proof.
  intros HN HG HK HD NE Ex Ec Es Eb. eexists. split.
  { unfold groupNorm. rewrite Ex. assert (LD : Nat.leb (length (N :: G * K :: D)) 2 = false) by (destruct D; [congruence | reflexivity]). rewrite LD. replace (match staticC with Some C => (G =? 0) || negb (C mod G =? 0) | None => false end) with false; [reflexivity|].
    destruct Ec as [-> | ->]; [auto|]. rewrite Z.mul_comm, Z_mod_mult. destruct (Z.eqb_spec G 0); [lia | reflexivity]. }
  intros y. apply (groupNormRuns_right N G K D); cbn [gInputShape gAxis gOutputShape gScaleShape]; auto; [congruence|].
  intros s s' Ss [R V] n g k d Hg Hk Hd. cbn [length Nat.sub] in R. apply reshape_static in R; [|constructor; auto; clear; induction (S (length D)); constructor; auto; lia].
  apply (unsqueezed_value _ _ G (S (length D)) [n]); auto; [congruence|]. cbn. f_equal. auto using valid_len.
Qed.

(** GroupNormalization of ONNX 21, when there are as many groups as channels in a group. *)
Theorem C86_group_norm_21 N G D (x scale b : tensor A) staticC : 1 <= N -> 1 <= G -> Forall (fun d => 1 <= d) D -> D <> [] ->
  tShape x = N :: G * G :: D -> staticC = None \/ staticC = Some (G * G) -> tShape scale = [G * G] -> tShape b = [G * G] ->
  exists p, groupNorm false (tShape x) staticC G = Rewritten p /\ forall y, groupNormRuns p x scale b y -> isGroupNorm nrm add mul true G x scale b y.
Proof.
  intros HN HG HD NE Ex Ec Es Eb. eexists. split.
  { unfold groupNorm. rewrite Ex. assert (LD : Nat.leb (length (N :: G * G :: D)) 2 = false) by (destruct D; [congruence | reflexivity]). rewrite LD. replace (match staticC with Some C => (G =? 0) || negb (C mod G =? 0) | None => false end) with false; [reflexivity|].
    destruct Ec as [-> | ->]; [auto|]. rewrite Z_mod_mult. destruct (Z.eqb_spec G 0); [lia | reflexivity]. }
  intros y. apply (groupNormRuns_right N G G D); cbn [gInputShape gAxis gOutputShape gScaleShape]; auto; [congruence|].
  intros s s' Ss [R V] n g k d Hg Hk Hd. cbn [length Nat.sub app] in R. rewrite Nat.sub_0_r in R. apply reshape_static in R; [|constructor; auto; constructor; auto; clear; induction (length D); constructor; auto; lia].
  apply (reshaped_value _ _ G G (length D) [n]); auto; [congruence | auto using valid_len].
Qed.
(** Otherwise the Reshape of scale and bias is not defined: the number of elements is wrong. *)
Theorem C86_group_norm_21_refuted N G K D (x scale b : tensor A) staticC p : 1 <= G -> K <> G ->
  tShape x = N :: G * K :: D -> tShape scale = [G * K] -> groupNorm false (tShape x) staticC G = Rewritten p ->
  forall y, ~ groupNormRuns p x scale b y.
Proof.
  intros HG NE Ex Es E y (s' & b' & t & u & [R _] & _). unfold groupNorm in E. rewrite Ex in E. destruct (Nat.leb (length (N :: G * K :: D)) 2); [discriminate|].
  destruct (match staticC with Some C => _ | None => false end); [discriminate|]. change (zget (N :: G * K :: D) 0) with (Some N) in E. apply (f_equal (fun o => match o with Rewritten q => gScaleShape q | _ => [] end)) in E. cbn [gScaleShape] in E.
  rewrite <- E, Es in R. cbn [length Nat.sub app] in R. set (m := (length D - 0)%nat) in R. assert (Q := R). apply reshape_static in R; [|constructor; auto; constructor; auto; clear; induction m; constructor; auto; lia].
  destruct Q as (_ & _ & Q). rewrite R in Q. rewrite !prodZ_cons in Q. assert (O : prodZ (repeat 1 m) = 1) by (clear; induction m; [reflexivity|]; cbn [repeat]; rewrite prodZ_cons; lia). rewrite O in Q.
  unfold prodZ in Q at 1. cbn in Q. nia.
Qed.

(** An addition to a LayerNormalization without bias, of something that broadcasts to its shape. *)
Theorem C86_bias axis x scale (a b : addOperand A) z y bias : (forall u v, add u v = add v u) ->
  propagateBias a b = Rewritten (y, bias) -> isBinary add (oValue a) (oValue b) z ->
  isLayerNorm nrm add mul axis x scale None y -> broadcast [tShape x; tShape bias] (tShape x) ->
  isLayerNorm nrm add mul axis x scale (Some bias) z.
Proof.
  intros Comm E B (Sy & Bs & V) Bb.
  assert (K : isBinary add y bias z).
  { assert (Sym : forall u v w : tensor A, isBinary add u v w -> isBinary add v u w).
    { intros u v w [W1 W2]. split; [apply broadcast_sym; auto|]. intros idx H. rewrite (W2 idx H). apply Comm. }
    unfold propagateBias in E. destruct (oNorm a) as [n|].
    - destruct (negb (nOneUse n)); [discriminate|]. destruct (nHasBias n); [discriminate|]. injection E as <- <-. auto.
    - destruct (oNorm b) as [n|]; [|discriminate]. destruct (negb (nOneUse n)); [discriminate|]. destruct (nHasBias n); [discriminate|]. injection E as <- <-. auto. }
  destruct K as [Bz Vz]. rewrite Sy in Bz. assert (Sz : tShape z = tShape x) by (eapply broadcast2_unique; eauto). split; [auto|]. split; [auto|]. split; [auto|].
  intros idx H. rewrite Vz by (rewrite Sz; auto). rewrite Sy, bindex_self by auto. rewrite V by auto. reflexivity.
Qed.
(** It is rewritten only when the normalization has no bias and no other use. *)
Theorem C86_bias_checked (a b : addOperand A) r : propagateBias a b = Rewritten r ->
  exists n, (oNorm a = Some n /\ r = (oValue a, oValue b) \/ oNorm b = Some n /\ r = (oValue b, oValue a)) /\ nOneUse n = true /\ nHasBias n = false.
Proof.
  unfold propagateBias. intros E. destruct (oNorm a) as [n|]; [|destruct (oNorm b) as [n|]; [|discriminate]]; exists n; destruct (nOneUse n) eqn:E1, (nHasBias n) eqn:E2; try discriminate; injection E as <-; auto.
Qed.
End Props.

Local Ltac fit := repeat (apply Forall2_cons; [lia|]); apply Forall2_nil.
(** A bias that makes the shape larger is accepted: no LayerNormalization has such a bias. *)
Theorem C86_bias_shape_refuted : exists (x scale y bias z : tensor Z) nrm,
  propagateBias {| oValue := y; oNorm := Some {| nResult := 0; nOneUse := true; nHasBias := false |} |} {| oValue := bias; oNorm := None |} = Rewritten (y, bias) /\
  isLayerNorm nrm Z.add Z.mul 1 x scale None y /\ isBinary Z.add y bias z /\ tShape z = [3; 2] /\ forall z', ~ isLayerNorm nrm Z.add Z.mul 1 x scale (Some bias) z'.
Proof.
  exists {| tShape := [1; 2]; tAt := fun i => nth 1 i 0 |}, {| tShape := [2]; tAt := fun _ => 1 |}, {| tShape := [1; 2]; tAt := fun i => nth 1 i 0 |},
    {| tShape := [3; 2]; tAt := fun i => nth 0 i 0 |}, {| tShape := [3; 2]; tAt := fun i => nth 1 i 0 + nth 0 i 0 |}, (fun _ v => v).
  split; [reflexivity|]. split; [|split; [|split; [reflexivity|]]].
  - split; [reflexivity|]. split; [apply (broadcast_tail [1] [2] [2]); [apply broadcast_same_len; [reflexivity | fit] | reflexivity]|]. intros idx V. unfold layerNormed. cbn [tAt tShape]. lia.
  - cbn [tShape tAt]. split.
    + apply broadcast_sym. apply broadcast_same_len; [reflexivity|]. fit.
    + intros idx V. cbn [tShape tAt] in *. destruct idx as [|i [|j [|]]]; apply valid_len in V; try discriminate. reflexivity.
  - intros z' (_ & _ & (_ & _ & B) & _). cbn [tShape length map] in B. destruct (B 1%nat ltac:(lia)) as [_ K]. destruct (K 3 (or_intror (or_introl eq_refl))) as [Q | Q]; vm_compute in Q; discriminate.
Qed.
(** The mean is accepted in place of the normalized tensor. *)
Theorem C86_mean_refuted : exists (x scale m bias z : tensor Z) mean,
  propagateBias {| oValue := m; oNorm := Some {| nResult := 1; nOneUse := true; nHasBias := false |} |} {| oValue := bias; oNorm := None |} = Rewritten (m, bias) /\
  isLayerMean mean 1 x m /\ isBinary Z.add m bias z /\ broadcast [tShape x; tShape bias] (tShape x) /\ ~ isLayerNorm (fun l v => v - mean l) Z.add Z.mul 1 x scale (Some bias) z.
Proof.
  exists {| tShape := [1; 2]; tAt := fun i => 4 + 2 * nth 1 i 0 |}, {| tShape := [2]; tAt := fun _ => 1 |}, {| tShape := [1; 1]; tAt := fun i => 5 |},
    {| tShape := [2]; tAt := fun i => 0 |}, {| tShape := [1; 2]; tAt := fun i => 5 |}, (fun l => fold_right Z.add 0 l / Z.of_nat (length l)).
  assert (B2 : broadcast [[1; 2]; [2]] [1; 2]) by (apply (broadcast_tail [1] [2] [2]); [apply broadcast_same_len; [reflexivity | fit] | reflexivity]).
  split; [reflexivity|]. split; [|split; [|split; [exact B2|]]].
  - split; [reflexivity|]. intros idx V. destruct idx as [|i [|j [|]]]; apply valid_len in V; try discriminate. reflexivity.
  - split; [|intros; reflexivity]. cbn [tShape]. apply broadcast_sym. split; [intros s [<- | [<- | []]]; cbn; lia|]. split; [exists [1; 1]; split; [right; left|]; reflexivity|].
    intros [|[|j]] Hj; cbn in Hj; try lia; (split; [cbn; auto|]; intros v [<- | [<- | []]]; vm_compute; auto).
  - intros (_ & _ & _ & V). specialize (V [0; 0] ltac:(cbn; repeat constructor; lia)). vm_compute in V. discriminate.
Qed.

(** Cases: two channels normalized over a row of two; 4 channels in 2 groups. *)
Definition center (l : list Z) (v : Z) : Z := v - fold_right Z.add 0 l / Z.of_nat (length l).
Example C86_instance_case : exists x scale b y : tensor Z, tShape x = [1; 2; 2] /\ isInstanceNorm center Z.add Z.mul x scale b y /\ tAt y [0; 1; 0] = 17.
Proof.
  exists {| tShape := [1; 2; 2]; tAt := fun i => 10 * nth 1 i 0 + 2 * nth 2 i 0 |}, {| tShape := [2]; tAt := fun i => 2 + nth 0 i 0 |}, {| tShape := [2]; tAt := fun i => 20 * nth 0 i 0 |},
    {| tShape := [1; 2; 2]; tAt := fun i => center [10 * nth 1 i 0; 10 * nth 1 i 0 + 2] (10 * nth 1 i 0 + 2 * nth 2 i 0) * (2 + nth 1 i 0) + 20 * nth 1 i 0 |}.
  split; [reflexivity|]. split; [|reflexivity]. exists 1, 2, [2]. repeat (split; [reflexivity|]). intros n c d Hn Hc Hd. inversion Hd as [|? i ? r Hi Hr]; subst. inversion Hr; subst.
  assert (n = 0) by lia. assert (Q : c = 0 \/ c = 1) by lia. assert (Q' : i = 0 \/ i = 1) by lia. subst n. destruct Q as [-> | ->], Q' as [-> | ->]; reflexivity.
Qed.
Example C86_group_case : exists (x scale b y : tensor Z) p, tShape x = [1; 4; 1] /\ groupNorm true [1; 4; 1] (Some 4) 2 = Rewritten p /\ groupNormRuns center Z.add Z.mul p x scale b y /\ tAt y [0; 3; 0] = 5.
Proof.
  set (v := fun c : Z => center [4 * (c / 2); 4 * (c / 2) + 2] (2 * c) * (2 + c / 2) + 2 * (c / 2)).
  exists {| tShape := [1; 4; 1]; tAt := fun i => 2 * nth 1 i 0 |}, {| tShape := [2]; tAt := fun i => 2 + nth 0 i 0 |}, {| tShape := [2]; tAt := fun i => 2 * nth 0 i 0 |},
    {| tShape := [1; 4; 1]; tAt := fun i => v (nth 1 i 0) |}. eexists. split; [reflexivity|]. split; [reflexivity|]. split; [|reflexivity].
  exists {| tShape := [2; 1; 1]; tAt := fun i => 2 + nth 0 i 0 |}, {| tShape := [2; 1; 1]; tAt := fun i => 2 * nth 0 i 0 |},
    {| tShape := [1; 2; 2; 1]; tAt := fun i => 2 * (2 * nth 1 i 0 + nth 2 i 0) |}, {| tShape := [1; 2; 2; 1]; tAt := fun i => v (2 * nth 1 i 0 + nth 2 i 0) |}.
  cbn [gScaleShape gInputShape gAxis gOutputShape length Nat.sub repeat skipn app].
  assert (R : forall d sh o, length o = length sh -> Forall2 (fun w e => w = -1 \/ 0 < w /\ e = w) sh o -> prodZ o = prodZ d -> reshapes_to d sh o).
  { intros d sh o L F P. split; [auto|]. split; [|auto]. assert (K : forall i u, nth_error sh i = Some u -> u = -1 \/ 0 < u /\ nth_error o i = Some u).
    { clear - F. induction F as [|w e sh o H F IH]; intros [|i] u E; try discriminate; cbn in *; auto. injection E as <-. destruct H as [H | [H ->]]; auto. }
    intros i u E. specialize (K i u E). split; intros; [lia|]. destruct K as [K | [K ->]]; [lia | auto]. }
  assert (I1 : forall i n, valid [n] i -> exists a, i = [a] /\ 0 <= a < n) by (intros i n V; inversion V as [|? a ? r Ha V']; inversion V'; subst; eauto).
  assert (I3 : forall i a b c, valid [a; b; c] i -> exists p q r, i = [p; q; r] /\ 0 <= p < a /\ 0 <= q < b /\ 0 <= r < c).
  { intros i a b c V. inversion V as [|? p ? r Ha V']; subst. inversion V' as [|? q ? r' Hb V'']; subst. apply I1 in V'' as (s & -> & Hs). exists p, q, s. auto. }
  assert (I4 : forall i a b c d, valid [a; b; c; d] i -> exists p q r s, i = [p; q; r; s] /\ 0 <= p < a /\ 0 <= q < b /\ 0 <= r < c /\ 0 <= s < d).
  { intros i a b c d V. inversion V as [|? p ? r Ha V']; subst. apply I3 in V' as (q & s & u & -> & H). exists p, q, s, u. intuition. }
  split; [|split; [|split; [|split]]].
  - split; [apply R; [reflexivity | fit | reflexivity]|]. intros i j Vi Vj E. cbn [tShape tAt] in *. apply I1 in Vi as (a & -> & _). apply I3 in Vj as (p & q & r & -> & _ & Hq & Hr). unfold rowmajor in E. cbn [rm_acc] in E. cbn [nth]. lia.
  - split; [apply R; [reflexivity | fit | reflexivity]|]. intros i j Vi Vj E. cbn [tShape tAt] in *. apply I1 in Vi as (a & -> & _). apply I3 in Vj as (p & q & r & -> & _ & Hq & Hr). unfold rowmajor in E. cbn [rm_acc] in E. cbn [nth]. lia.
  - split; [apply R; [reflexivity | fit | reflexivity]|]. intros i j Vi Vj E. cbn [tShape tAt] in *. apply I3 in Vi as (a & b & c & -> & Ha & Hb & Hc). apply I4 in Vj as (p & q & r & s & -> & Hp & Hq & Hr & Hs). unfold rowmajor in E. cbn [rm_acc] in E. cbn [nth]. lia.
  - assert (B : broadcast [[1; 2; 2; 1]; [2; 1; 1]] [1; 2; 2; 1]) by (apply (broadcast_tail [1] [2; 2; 1] [2; 1; 1]); [apply broadcast_same_len; [reflexivity | fit] | reflexivity]).
    split; [reflexivity|]. split; [exact B|]. split; [exact B|]. intros idx V. cbn [tShape] in V. apply I4 in V as (p & q & r & s & -> & Hp & Hq & Hr & Hs). assert (p = 0) by lia; assert (s = 0) by lia; subst.
    assert (Q : q = 0 \/ q = 1) by lia. assert (Q' : r = 0 \/ r = 1) by lia. destruct Q as [-> | ->], Q' as [-> | ->]; reflexivity.
  - split; [apply R; [reflexivity | fit | reflexivity]|]. intros i j Vi Vj E. cbn [tShape tAt] in *. apply I4 in Vi as (p & q & r & s & -> & Hp & Hq & Hr & Hs). apply I3 in Vj as (a & b & c & -> & Ha & Hb & Hc). unfold rowmajor in E. cbn [rm_acc] in E. cbn [nth]. f_equal. lia.
Qed.

Example C86_bias_case : exists x scale y bias z : tensor Z,
  propagateBias {| oValue := bias; oNorm := None |} {| oValue := y; oNorm := Some {| nResult := 0; nOneUse := true; nHasBias := false |} |} = Rewritten (y, bias) /\
  isLayerNorm center Z.add Z.mul 1 x scale None y /\ isBinary Z.add bias y z /\ broadcast [tShape x; tShape bias] (tShape x) /\ tAt z [0; 1] = 13.
Proof.
  exists {| tShape := [1; 2]; tAt := fun i => 4 + 2 * nth 1 i 0 |}, {| tShape := [2]; tAt := fun _ => 3 |}, {| tShape := [1; 2]; tAt := fun i => 3 * (2 * nth 1 i 0 - 1) |},
    {| tShape := [2]; tAt := fun i => 10 * nth 0 i 0 |}, {| tShape := [1; 2]; tAt := fun i => 10 * nth 1 i 0 + 3 * (2 * nth 1 i 0 - 1) |}.
  assert (B : broadcast [[1; 2]; [2]] [1; 2]) by (apply (broadcast_tail [1] [2] [2]); [apply broadcast_same_len; [reflexivity | fit] | reflexivity]).
  assert (I : forall idx, valid [1; 2] idx -> idx = [0; 0] \/ idx = [0; 1]).
  { intros idx V. inversion V as [|? i ? r Hi Hr]; subst. inversion Hr as [|? j ? r' Hj Hr']; subst. inversion Hr'; subst. assert (i = 0) by lia. subst. assert (Q : j = 0 \/ j = 1) by lia. destruct Q as [-> | ->]; auto. }
  split; [reflexivity|]. split; [split; [reflexivity|]; split; [exact B|]; intros idx V; destruct (I idx V) as [-> | ->]; reflexivity|]. split; [|split; [exact B | reflexivity]].
  split; [apply broadcast_sym; exact B|]. intros idx V. destruct (I idx V) as [-> | ->]; reflexivity.
Qed.

Print Assumptions C86_instance_norm.
Print Assumptions C86_group_norm_18.
Print Assumptions C86_group_norm_21.
Print Assumptions C86_group_norm_21_refuted.
Print Assumptions C86_bias.
Print Assumptions C86_bias_checked.
Print Assumptions C86_bias_shape_refuted.
Print Assumptions C86_mean_refuted.
