From Coq Require Import List ZArith QArith Qabs Qminmax Qround Bool Lia Lqa.
From Verif Require Import Util QuantSpec QuantModel.
Import ListNotations.
Open Scope Z_scope.

Lemma Qabs_le x y : (Qabs x <= y <-> - y <= x /\ x <= y)%Q.
Proof. apply Qabs_Qle_condition. Qed.
Lemma Qltb_iff a b : Qltb a b = true <-> (a < b)%Q.
Proof. unfold Qltb. rewrite negb_true_iff, <- not_true_iff_false, Qle_bool_iff. split; intros H; [now apply Qnot_le_lt | now apply Qlt_not_le]. Qed.
Lemma injZ_le a b : (inject_Z a <= inject_Z b)%Q <-> a <= b. Proof. rewrite (Zle_Qle a b). tauto. Qed.
Lemma Qle_Zle a b : (inject_Z a <= inject_Z b)%Q -> a <= b. Proof. apply injZ_le. Qed.
Lemma Zle_Qle' a b : a <= b -> (inject_Z a <= inject_Z b)%Q. Proof. apply injZ_le. Qed.
Lemma injZ_lt a b : (inject_Z a < inject_Z b)%Q <-> a < b. Proof. rewrite (Zlt_Qlt a b). tauto. Qed.
Lemma injZ_sub a b : (inject_Z (a - b) == inject_Z a - inject_Z b)%Q.
Proof. unfold Z.sub. rewrite inject_Z_plus, inject_Z_opp. reflexivity. Qed.

Lemma half_abs x n : (Qabs (x - inject_Z n) == 1 # 2)%Q -> (x == inject_Z n + (1 # 2) \/ x == inject_Z n - (1 # 2))%Q.
Proof. intros H. destruct (Qlt_le_dec (x - inject_Z n) 0) as [L | L]; [rewrite Qabs_neg in H by lra | rewrite Qabs_pos in H by auto]; [right | left]; lra. Qed.
Lemma abs_half x n : (x == inject_Z n + (1 # 2) \/ x == inject_Z n - (1 # 2))%Q -> (Qabs (x - inject_Z n) == 1 # 2)%Q.
Proof. intros [H | H]; [rewrite Qabs_pos | rewrite Qabs_neg]; lra. Qed.

Lemma rounded_mono x x' n n' : (x <= x')%Q -> rounded x n -> rounded x' n' -> n <= n'.
Proof.
  intros L [H1 H2] [H1' H2']. apply Qabs_le in H1 as [A B]. apply Qabs_le in H1' as [A' B'].
  destruct (Z_le_gt_dec n n') as [|G]; auto. exfalso.
  assert (G1 : n' + 1 <= n) by lia. apply Zle_Qle' in G1. rewrite inject_Z_plus in G1. change (inject_Z 1) with 1%Q in G1.
  assert (E : (x == inject_Z n - (1 # 2))%Q) by lra. assert (E' : (x' == inject_Z n' + (1 # 2))%Q) by lra.
  assert (V : Z.even n = true) by (apply H2, abs_half; auto). assert (V' : Z.even n' = true) by (apply H2', abs_half; auto).
  assert (En : n = n' + 1).
  { assert (V3 : (inject_Z n <= inject_Z (n' + 1))%Q) .
    { rewrite inject_Z_plus. change (inject_Z 1) with 1%Q. lra. } apply Qle_Zle in V3. lia. }
  subst n. rewrite Z.even_add, V' in V. discriminate.
Qed.
Lemma rounded_unique x n m : rounded x n -> rounded x m -> n = m.
Proof. intros H1 H2. assert (n <= m) by (eapply rounded_mono; eauto; lra). assert (m <= n) by (eapply rounded_mono; eauto; lra). lia. Qed.
Lemma rounded_comp x y n : (x == y)%Q -> rounded x n -> rounded y n.
Proof. intros E [H1 H2]. unfold rounded. rewrite <- E. auto. Qed.
Lemma rounded_Z n : rounded (inject_Z n) n.
Proof. assert (E : (inject_Z n - inject_Z n == 0)%Q) by ring. split; rewrite E; cbn; [discriminate|]. intros X. discriminate X. Qed.

(** The emulation rounds. *)
Definition emuZ (x : Q) : Z :=
  let f := Qfloor x in
  if Qeq_bool (x - inject_Z f) (1 # 2) then if Z.odd f then f + 1 else f else if Qltb (1 # 2) (x - inject_Z f) then f + 1 else f.
Lemma emu_eq x : (roundEvenEmulation exactQ x == inject_Z (emuZ x))%Q.
Proof.
  unfold roundEvenEmulation, emuZ. cbn [exactQ T cst half floorT subT addT mulT gtT eqT]. cbv zeta.
  destruct (Qeq_bool (x - inject_Z (Qfloor x)) (1 # 2)).
  - set (f := Qfloor x).
    assert (E : Qfloor ((1 # 2) * inject_Z f)%Q = f / 2).
    { unfold Qfloor, Qmult, inject_Z. cbn [Qnum Qden]. rewrite Z.mul_1_l. reflexivity. }
    rewrite E. assert (Eo : Qeq_bool (inject_Z f - inject_Z (f / 2) * inject_Z 2) (inject_Z 1) = Z.odd f).
    { rewrite <- inject_Z_mult. rewrite Zodd_mod. replace (f mod 2) with (f - f / 2 * 2) by (rewrite Z.mod_eq by lia; ring).
      apply eq_true_iff_eq. rewrite Qeq_bool_iff, <- Zeq_is_eq_bool, <- injZ_sub. unfold Qeq, inject_Z. cbn [Qnum Qden]. lia. }
    rewrite Eo. destruct (Z.odd f); [rewrite inject_Z_plus|]; reflexivity.
  - destruct (Qltb (1 # 2) (x - inject_Z (Qfloor x))); [rewrite inject_Z_plus|]; reflexivity.
Qed.
Lemma emu_rounded x : rounded x (emuZ x).
Proof.
  unfold emuZ. cbv zeta. set (f := Qfloor x). pose proof (Qfloor_le x) as L. pose proof (Qlt_floor x) as U. fold f in L, U.
  rewrite inject_Z_plus in U. change (inject_Z 1) with 1%Q in U.
  destruct (Qeq_bool (x - inject_Z f) (1 # 2)) eqn:E.
  - apply Qeq_bool_iff in E. destruct (Z.odd f) eqn:Eo.
    + split; [apply Qabs_le; rewrite inject_Z_plus; change (inject_Z 1) with 1%Q; lra|]. intros _. rewrite Z.even_add, <- Z.negb_odd, Eo. reflexivity.
    + split; [apply Qabs_le; lra|]. intros _. rewrite <- Z.negb_odd, Eo. reflexivity.
  - assert (E' : ~ (x - inject_Z f == 1 # 2)%Q) by (rewrite <- Qeq_bool_iff; congruence).
    destruct (Qltb (1 # 2) (x - inject_Z f)) eqn:G.
    + apply Qltb_iff in G. split; [apply Qabs_le; rewrite inject_Z_plus; change (inject_Z 1) with 1%Q; lra|].
      intros X. apply half_abs in X. rewrite inject_Z_plus in X. change (inject_Z 1) with 1%Q in X. exfalso. destruct X; lra.
    + assert (~ (1 # 2 < x - inject_Z f)%Q) by (rewrite <- Qltb_iff; congruence).
      split; [apply Qabs_le; lra|]. intros X. apply half_abs in X. exfalso. destruct X; lra.
Qed.

Lemma clip_comp a a' b b' c c' : (a == a' -> b == b' -> c == c' -> clip a b c == clip a' b' c')%Q.
Proof. intros E1 E2 E3. unfold clip. rewrite E1, E2, E3. reflexivity. Qed.
Lemma clip_Z lo hi n : lo <= hi -> (clip (inject_Z n) (inject_Z lo) (inject_Z hi) == inject_Z (saturate lo hi n))%Q.
Proof.
  intros H. unfold clip, saturate. destruct (Z_le_gt_dec lo n) as [A | A].
  - rewrite Q.max_l by (apply Zle_Qle'; lia). destruct (Z_le_gt_dec n hi).
    + rewrite Q.min_l by (apply Zle_Qle'; lia). rewrite Z.min_r, Z.max_r by lia. reflexivity.
    + rewrite Q.min_r by (apply Zle_Qle'; lia). rewrite Z.min_l, Z.max_r by lia. reflexivity.
  - rewrite Q.max_r by (apply Zle_Qle'; lia). rewrite Q.min_l by (apply Zle_Qle'; lia). rewrite Z.min_r, Z.max_l by lia. reflexivity.
Qed.
Lemma clip_id x lo hi : (lo <= x <= hi -> clip x lo hi == x)%Q.
Proof. intros [A B]. unfold clip. rewrite Q.max_l by auto. now rewrite Q.min_l. Qed.

Lemma toward0_Z x n : (x == inject_Z n)%Q -> toward0 x = n.
Proof.
  intros E. unfold toward0. destruct (Qle_bool 0 x).
  - rewrite (Qfloor_comp _ _ E). apply Qfloor_Z.
  - rewrite (Qceiling_comp _ _ E). apply Qceiling_Z.
Qed.
Definition lo8 (u : bool) : Z := if u then 0 else -128.
Definition hi8 (u : bool) : Z := if u then 255 else 127.
Lemma cast8_Z u x n : (x == inject_Z n)%Q -> lo8 u <= n <= hi8 u -> cast8 u x = Some n.
Proof.
  intros E H. unfold cast8. destruct u; [unfold castU8 | unfold castI8]; rewrite (toward0_Z _ _ E); cbn [lo8 hi8] in H; cbv zeta.
  - replace ((0 <=? n) && (n <? 2 ^ 32)) with true by (symmetry; apply andb_true_intro; split; [apply Z.leb_le | apply Z.ltb_lt]; lia).
    rewrite Z.mod_small by lia. reflexivity.
  - replace ((- 2 ^ 31 <=? n) && (n <? 2 ^ 31)) with true by (symmetry; apply andb_true_intro; split; [apply Z.leb_le | apply Z.ltb_lt]; lia).
    rewrite Z.mod_small by lia. f_equal. lia.
Qed.

Definition zpZ (z : option Z) : Z := match z with Some z => z | None => 0 end.
Lemma quantizeElement_ok rec u scale zq z x n : ~ (scale == 0)%Q ->
  match zq, z with Some a, Some b => (a == inject_Z b)%Q | None, None => True | _, _ => False end ->
  rounded (x / scale) n ->
  quantizeElement rec u (inject_Z (lo8 u)) (inject_Z (hi8 u)) scale zq x = Some (saturate (lo8 u) (hi8 u) (n + zpZ z)).
Proof.
  intros Hs Hz Hr. unfold quantizeElement. destruct (Qeq_bool scale 0) eqn:E; [apply Qeq_bool_iff in E; contradiction|]. cbv zeta.
  assert (H8 : lo8 u <= hi8 u) by (destruct u; cbn; lia).
  apply cast8_Z; [|unfold saturate; lia]. rewrite <- clip_Z by auto. apply clip_comp; try reflexivity.
  set (sx := if rec then _ else _). assert (Es : (sx == x / scale)%Q) by (subst sx; destruct rec; [field; auto | reflexivity]).
  assert (En : emuZ sx = n). { eapply rounded_unique; [|exact Hr]. eapply rounded_comp; [exact Es|]. apply emu_rounded. }
  pose proof (emu_eq sx) as Ee. rewrite En in Ee. destruct zq as [a|], z as [b|]; try contradiction; cbn [zpZ].
  - rewrite inject_Z_plus, Hz, Ee. reflexivity.
  - rewrite Z.add_0_r. exact Ee.
Qed.

Lemma mapM_Forall2 {A B} (f : A -> option B) (P : A -> B -> Prop) l : (forall a, In a l -> exists b, f a = Some b /\ P a b) ->
  exists m, mapM f l = Some m /\ Forall2 P l m.
Proof.
  induction l as [|a l IH]; intros H; cbn [mapM]; [eauto|]. destruct (H a) as (b & E & Hp); [cbn; auto|]. rewrite E. cbn [obind].
  destruct IH as (m & E2 & F); [intros; apply H; cbn; auto|]. rewrite E2. cbn [obind]. eauto.
Qed.
Lemma mapM_inv {A B} (f : A -> option B) l : forall m, mapM f l = Some m -> Forall2 (fun a b => f a = Some b) l m.
Proof.
  induction l as [|a l IH]; intros m; cbn [mapM]; [intros E; inversion E; constructor|].
  destruct (f a) eqn:E; [|discriminate]. cbn [obind]. destruct (mapM f l) eqn:E2; [|discriminate]. cbn [obind]. intros X; inversion X; subst. constructor; auto.
Qed.

(** The error of a round trip. *)
Lemma round_trip lo hi scale zp x n : (0 < scale)%Q -> lo <= hi -> rounded (x / scale) n ->
  (inject_Z lo - (1 # 2) <= x / scale + inject_Z zp <= inject_Z hi + (1 # 2))%Q ->
  (Qabs (dequantized scale zp (saturate lo hi (n + zp)) - x) <= scale / 2)%Q.
Proof.
  intros Hs Hlh [Hr _] [A B]. set (u := (x / scale)%Q) in *. assert (Ex : (x == u * scale)%Q) by (subst u; field; lra).
  apply Qabs_le in Hr as [R1 R2].
  assert (D : (- (1 # 2) <= inject_Z (saturate lo hi (n + zp) - zp) - u <= 1 # 2)%Q).
  { rewrite injZ_sub. unfold saturate. destruct (Z_le_gt_dec (n + zp) hi) as [G | G]; [destruct (Z_le_gt_dec lo (n + zp)) as [G' | G']|].
    - rewrite Z.min_r, Z.max_r by lia. rewrite inject_Z_plus. lra.
    - rewrite Z.min_r, Z.max_l by lia. assert (G1 : n + zp + 1 <= lo) by lia. apply Zle_Qle' in G1. rewrite !inject_Z_plus in G1. change (inject_Z 1) with 1%Q in G1. lra.
    - rewrite Z.min_l, Z.max_r by lia. assert (G1 : hi + 1 <= n + zp) by lia. apply Zle_Qle' in G1. rewrite !inject_Z_plus in G1. change (inject_Z 1) with 1%Q in G1. lra. }
  unfold dequantized. set (v := inject_Z (saturate lo hi (n + zp) - zp)) in *.
  assert (E : (v * scale - x == (v - u) * scale)%Q) by (rewrite Ex; ring). rewrite E. rewrite Qabs_Qmult. rewrite (Qabs_pos scale) by lra.
  assert ((Qabs (v - u) <= 1 # 2)%Q) by (apply Qabs_le; exact D).
  assert (E2 : (scale / 2 == (1 # 2) * scale)%Q) by field. rewrite E2. apply Qmult_le_compat_r; lra.
Qed.

Lemma fold_min_spec r : forall x, ((exists y, In y (x :: r) /\ fold_left Qmin r x == y) /\ forall y, In y (x :: r) -> fold_left Qmin r x <= y)%Q.
Proof.
  induction r as [|a r IH]; intros x; cbn [fold_left].
  - split; [exists x; cbn; split; auto; reflexivity|]. intros y [<- | []]. lra.
  - destruct (IH (Qmin x a)) as ((y & Hy & E) & H). split.
    + destruct Hy as [<- | Hy]; [|exists y; cbn; auto]. destruct (Q.min_dec x a) as [X | X]; [exists x | exists a]; (split; [cbn; auto|]); rewrite E; auto.
    + intros y' [<- | [<- | Hy']]; [| |apply H; cbn; auto];
        (apply Qle_trans with (Qmin x a); [apply H; cbn; auto|]); [apply Q.le_min_l | apply Q.le_min_r].
Qed.
Lemma fold_max_spec r : forall x, ((exists y, In y (x :: r) /\ fold_left Qmax r x == y) /\ forall y, In y (x :: r) -> y <= fold_left Qmax r x)%Q.
Proof.
  induction r as [|a r IH]; intros x; cbn [fold_left].
  - split; [exists x; cbn; split; auto; reflexivity|]. intros y [<- | []]. lra.
  - destruct (IH (Qmax x a)) as ((y & Hy & E) & H). split.
    + destruct Hy as [<- | Hy]; [|exists y; cbn; auto]. destruct (Q.max_dec x a) as [X | X]; [exists x | exists a]; (split; [cbn; auto|]); rewrite E; auto.
    + intros y' [<- | [<- | Hy']]; [| |apply H; cbn; auto];
        (apply Qle_trans with (Qmax x a); [|apply H; cbn; auto]); [apply Q.le_max_l | apply Q.le_max_r].
Qed.
Lemma isMin_fold x r : isMin (x :: r) (Qmin (fold_left Qmin r x) 0).
Proof.
  destruct (fold_min_spec r x) as ((y & Hy & E) & H). split.
  - destruct (Q.min_dec (fold_left Qmin r x) 0) as [X | X]; [exists y; split; [cbn; auto|]; rewrite X; auto | exists 0%Q; split; [cbn; auto | auto]].
  - intros z [<- | Hz]; [apply Q.le_min_r|]. eapply Qle_trans; [apply Q.le_min_l | apply H; auto].
Qed.
Lemma isMax_fold x r : isMax (x :: r) (Qmax (fold_left Qmax r x) 0).
Proof.
  destruct (fold_max_spec r x) as ((y & Hy & E) & H). split.
  - destruct (Q.max_dec (fold_left Qmax r x) 0) as [X | X]; [exists y; split; [cbn; auto|]; rewrite X; auto | exists 0%Q; split; [cbn; auto | auto]].
  - intros z [<- | Hz]; [apply Q.le_max_r|]. eapply Qle_trans; [apply H; auto | apply Q.le_max_l].
Qed.
