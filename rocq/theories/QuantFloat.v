(** The rounding emulation in floating-point arithmetic of any precision. *)
From Coq Require Import ZArith Bool Lia Reals Lra.
From Flocq Require Import Core Sterbenz.
From Verif Require Import QuantSpec QuantModel.
Open Scope R_scope.

Lemma exact_case x : exists n,
  (if Req_bool (x - IZR (Zfloor x)) (/ 2) then if Z.odd (Zfloor x) then IZR (Zfloor x + 1) else IZR (Zfloor x)
   else if Rlt_bool (/ 2) (x - IZR (Zfloor x)) then IZR (Zfloor x + 1) else IZR (Zfloor x)) = IZR n /\ roundedR x n.
Proof.
  pose proof (Zfloor_lb x) as F1. pose proof (Zfloor_ub x) as F2. set (f := Zfloor x) in *.
  assert (P : IZR (f + 1) = IZR f + 1) by (rewrite plus_IZR; reflexivity).
  destruct (Req_bool_spec (x - IZR f) (/ 2)) as [E | E].
  - destruct (Z.odd f) eqn:O; [exists (f + 1)%Z | exists f]; (split; [reflexivity|]); unfold roundedR; rewrite ?P.
    + split; [rewrite Rabs_left1; lra|]. intros _. rewrite Z.even_add, <- Z.negb_odd, O. reflexivity.
    + split; [rewrite Rabs_pos_eq; lra|]. intros _. rewrite <- Z.negb_odd, O. reflexivity.
  - destruct (Rlt_bool_spec (/ 2) (x - IZR f)); [exists (f + 1)%Z | exists f]; (split; [reflexivity|]); unfold roundedR; rewrite ?P.
    + split; [rewrite Rabs_left1; lra|]. rewrite Rabs_left1 by lra. intros; lra.
    + split; [rewrite Rabs_pos_eq; lra|]. rewrite Rabs_pos_eq by lra. intros; lra.
Qed.

Section Float.
Variables emin prec : Z.
Hypothesis Hprec : (1 < prec)%Z.
Hypothesis Hemin : (emin <= -1)%Z.
Lemma Hp0 : Prec_gt_0 prec. Proof. unfold Prec_gt_0. lia. Qed.
Existing Instance Hp0.
Notation fexp := (FLT_exp emin prec).
Notation format := (generic_format radix2 fexp).
Notation rn := (rnd emin prec).

Lemma rnd_id x : format x -> rn x = x.
Proof. intros H. unfold rnd. apply round_generic; auto. apply valid_rnd_N. Qed.
Lemma format_scaled n e : (Z.abs n < 2 ^ prec)%Z -> (emin <= e)%Z -> format (IZR n * bpow radix2 e).
Proof. intros H He. apply generic_format_FLT. apply (FLT_spec radix2 emin prec _ (Float radix2 n e)); [reflexivity | exact H | exact He]. Qed.
Lemma format_int n : (Z.abs n < 2 ^ prec)%Z -> format (IZR n).
Proof. intros H. replace (IZR n) with (IZR n * bpow radix2 0) by (cbn; ring). apply format_scaled; auto. lia. Qed.
Lemma format_half_int n : (Z.abs n < 2 ^ prec)%Z -> format (IZR n / 2).
Proof. intros H. replace (IZR n / 2) with (IZR n * bpow radix2 (-1)) by (cbn; field). apply format_scaled; auto. Qed.

Lemma pow_split : (2 ^ prec = 2 * 2 ^ (prec - 1))%Z.
Proof. replace prec with (Z.succ (prec - 1)) at 1 by lia. apply Z.pow_succ_r. lia. Qed.
Lemma pow_ge : (2 <= 2 ^ (prec - 1))%Z.
Proof. change 2%Z with (2 ^ 1)%Z at 1. apply Z.pow_le_mono_r; lia. Qed.

Lemma IZR_pow k : (0 <= k)%Z -> bpow radix2 k = IZR (2 ^ k).
Proof. intros H. rewrite <- IZR_Zpower by auto. reflexivity. Qed.

(** Large numbers are integers. *)
Lemma large_int x : format x -> IZR (2 ^ (prec - 1)) <= Rabs x -> x = IZR (Zfloor x).
Proof.
  intros H L. destruct (FLT_format_generic radix2 emin prec x H) as [[m e] Ex Hm He]. cbn [Fnum Fexp] in *.
  assert (Hs : x = IZR (Ztrunc (scaled_mantissa radix2 fexp x)) * bpow radix2 (cexp radix2 fexp x)) by exact H.
  assert (C : (0 <= cexp radix2 fexp x)%Z).
  { unfold cexp, FLT_exp. assert ((prec <= mag radix2 x)%Z); [|lia]. apply mag_ge_bpow. rewrite IZR_pow by lia. exact L. }
  rewrite IZR_pow in Hs by auto. rewrite <- mult_IZR in Hs. rewrite Hs at 2. rewrite Zfloor_IZR. exact Hs.
Qed.

Lemma frac_big x : format x -> 1 <= Rabs x -> format (x - IZR (Zfloor x)).
Proof.
  intros H X1. pose proof (Zfloor_lb x) as F1. pose proof (Zfloor_ub x) as F2. set (k := Zfloor x) in *.
  destruct (FLT_format_generic radix2 emin prec x H) as [[m e] Ex Hm He]. unfold F2R in Ex. cbn [Fnum Fexp] in *.
  destruct (Z_le_gt_dec 0 e) as [G | G].
  - assert (E : x = IZR (m * 2 ^ e)) by (rewrite mult_IZR, <- IZR_pow by auto; exact Ex).
    assert (Ek : k = (m * 2 ^ e)%Z) by (subst k; rewrite E; apply Zfloor_IZR). rewrite Ek, E.
    replace (IZR _ - IZR _) with 0 by ring. apply generic_format_0.
  - assert (E : x - IZR k = IZR (m - k * 2 ^ (- e)) * bpow radix2 e).
    { rewrite minus_IZR, mult_IZR, <- (IZR_pow (- e)) by lia. rewrite Rmult_minus_distr_r, Rmult_assoc, <- bpow_plus.
      replace (- e + e)%Z with 0%Z by lia. cbn [bpow]. rewrite Ex. ring. }
    rewrite E. apply format_scaled; auto. eapply Z.le_lt_trans; [|exact Hm].
    apply le_IZR. rewrite !abs_IZR. apply Rmult_le_reg_r with (bpow radix2 e); [apply bpow_gt_0|].
    rewrite <- (Rabs_pos_eq (bpow radix2 e)) at 1 2 by apply bpow_ge_0. rewrite <- !Rabs_mult, <- E, <- Ex. rewrite Rabs_pos_eq; lra.
Qed.

(** x - floor x is exact, unless -1/2 < x < 0. *)
Lemma frac_exact x : format x -> Rabs x < IZR (2 ^ (prec - 1)) -> (0 <= x \/ x <= - / 2) -> format (x - IZR (Zfloor x)).
Proof.
  intros H L D. pose proof (Zfloor_lb x) as F1. pose proof (Zfloor_ub x) as F2.
  destruct (Rlt_le_dec x 1) as [X1 | X1]; [destruct (Rlt_le_dec (-1) x) as [X2 | X2]|].
  - destruct D as [D | D].
    + rewrite (Zfloor_imp 0) by (cbn; lra). replace (x - 0) with x by ring. exact H.
    + rewrite (Zfloor_imp (-1)) by (cbn; lra). replace (x - IZR (-1)) with (1 - - x) by (cbn; ring).
      apply sterbenz; try typeclasses eauto; [apply (format_int 1); pose proof pow_split; pose proof pow_ge; cbn; lia | apply generic_format_opp; auto | lra].
  - apply frac_big; auto. rewrite Rabs_left1; lra.
  - apply frac_big; auto. rewrite Rabs_pos_eq; lra.
Qed.

Lemma floor_half n : Zfloor (IZR n / 2) = (n / 2)%Z.
Proof.
  apply Zfloor_imp. pose proof (Z.div_mod n 2 ltac:(lia)) as D. pose proof (Z.mod_pos_bound n 2 ltac:(lia)) as B.
  assert (E : IZR n = 2 * IZR (n / 2) + IZR (n mod 2)) by (rewrite <- mult_IZR, <- plus_IZR; f_equal; lia).
  rewrite plus_IZR. assert (0 <= IZR (n mod 2) <= 1) by (split; apply IZR_le; lia). lra.
Qed.

Lemma gt_spec a b : gtT (floats emin prec) a b = true <-> b < a.
Proof. cbn [floats gtT]. destruct (Rlt_bool_spec b a); split; intros; try discriminate; auto; lra. Qed.

Theorem emulation_rounds x : format x -> exists n, roundEvenEmulation (floats emin prec) x = IZR n /\ roundedR x n.
Proof.
  intros Hx. unfold roundEvenEmulation. cbn [floats T cst half floorT subT addT mulT gtT eqT]. cbv zeta.
  pose proof (Zfloor_lb x) as F1. pose proof (Zfloor_ub x) as F2.
  destruct (Rlt_le_dec (Rabs x) (IZR (2 ^ (prec - 1)))) as [L | L].
  2:{ pose proof (large_int x Hx L) as E. set (f := Zfloor x) in *. exists f. replace (x - IZR f) with 0 by (rewrite E; ring).
      rewrite (rnd_id 0) by apply generic_format_0. rewrite Req_bool_false by lra. rewrite Rlt_bool_false by lra. split; auto.
      split; replace (x - IZR f) with 0 by (rewrite E; ring); rewrite Rabs_R0; lra. }
  set (f := Zfloor x) in *.
  assert (Hf : (- 2 ^ (prec - 1) <= f < 2 ^ (prec - 1))%Z).
  { apply Rabs_lt_inv in L. split.
    - assert (- 2 ^ (prec - 1) - 1 < f)%Z; [|lia]. apply lt_IZR. rewrite minus_IZR, opp_IZR. lra.
    - apply lt_IZR. lra. }
  pose proof pow_split as Ps. pose proof pow_ge as Pg.
  assert (R1 : rn (IZR f + 1) = IZR (f + 1)) by (rewrite <- plus_IZR; apply rnd_id, format_int; lia).
  assert (R2 : rn (/ 2 * IZR f) = IZR f / 2) by (replace (/ 2 * IZR f) with (IZR f / 2) by field; apply rnd_id, format_half_int; lia).
  pose proof (Z.div_mod f 2 ltac:(lia)) as D. pose proof (Z.mod_pos_bound f 2 ltac:(lia)) as B.
  assert (R3 : rn (IZR (f / 2) * 2) = IZR (f / 2 * 2)) by (rewrite <- mult_IZR; apply rnd_id, format_int; lia).
  assert (R4 : rn (IZR f - IZR (f / 2 * 2)) = IZR (f mod 2)) by (rewrite <- minus_IZR; replace (f - f / 2 * 2)%Z with (f mod 2)%Z by lia; apply rnd_id, format_int; lia).
  rewrite R1, R2, floor_half, R3, R4.
  assert (O : Req_bool (IZR (f mod 2)) 1 = Z.odd f).
  { rewrite Zodd_mod. destruct (Req_bool_spec (IZR (f mod 2)) 1) as [E | E].
    - apply eq_IZR in E. rewrite E. reflexivity.
    - symmetry. apply not_true_iff_false. intros X. apply Zeq_is_eq_bool in X. apply E. now rewrite X. }
  rewrite O. clear O R1 R2 R3 R4.
  destruct (Rlt_le_dec x 0) as [X0 | X0]; [destruct (Rlt_le_dec (- / 2) x) as [X2 | X2]|].
  - (* -1/2 < x < 0 *)
    assert (Ef : f = (-1)%Z) by (apply Zfloor_imp; cbn; lra). rewrite Ef in *. clear Ef.
    assert (Hr : / 2 <= rn (x - IZR (-1))).
    { rewrite <- (rnd_id (/ 2)). apply round_le; try typeclasses eauto. cbn; lra. replace (/ 2) with (IZR 1 / 2) by (cbn; field). apply format_half_int. cbn; lia. }
    exists 0%Z. split; [|split; [rewrite Rminus_0_r; rewrite Rabs_left1; lra | intros _; reflexivity]].
    destruct (Req_bool_spec (rn (x - IZR (-1))) (/ 2)) as [E | E]; [reflexivity|]. rewrite Rlt_bool_true by lra. reflexivity.
  - rewrite (rnd_id (x - IZR f)) by (apply frac_exact; auto). apply exact_case; auto.
  - rewrite (rnd_id (x - IZR f)) by (apply frac_exact; auto). apply exact_case; auto.
Qed.
End Float.

Lemma roundedR_mono x x' n n' : x <= x' -> roundedR x n -> roundedR x' n' -> (n <= n')%Z.
Proof.
  intros L [H1 H2] [H1' H2']. destruct (Z_le_gt_dec n n') as [|G]; auto. exfalso.
  apply Rabs_le_inv in H1. apply Rabs_le_inv in H1'.
  assert (G1 : IZR n' + 1 <= IZR n) by (rewrite <- (plus_IZR n' 1); apply IZR_le; lia).
  assert (E : x = IZR n - / 2) by lra. assert (E' : x' = IZR n' + / 2) by lra.
  assert (V : Z.even n = true) by (apply H2; rewrite Rabs_left1; lra).
  assert (V' : Z.even n' = true) by (apply H2'; rewrite Rabs_pos_eq; lra).
  assert (N : n = (n' + 1)%Z) by (apply eq_IZR; rewrite plus_IZR; lra). subst n.
  rewrite Z.even_add, V' in V. discriminate.
Qed.

Lemma clip_IZR a lo hi : (lo <= hi)%Z -> Rmin (Rmax (IZR a) (IZR lo)) (IZR hi) = IZR (saturate lo hi a).
Proof.
  intros H. unfold saturate. destruct (Z_le_gt_dec lo a) as [A | A].
  - rewrite Rmax_left by (apply IZR_le; lia). destruct (Z_le_gt_dec a hi).
    + rewrite Rmin_left by (apply IZR_le; lia). f_equal. lia.
    + rewrite Rmin_right by (apply IZR_le; lia). f_equal. lia.
  - rewrite Rmax_right by (apply IZR_le; lia). rewrite Rmin_left by (apply IZR_le; lia). f_equal. lia.
Qed.

Lemma quantizeFloat_ok emin prec (u : bool) scale zp x : (9 < prec)%Z -> (emin <= -1)%Z ->
  (match zp with Some z => -128 <= z <= 255 | None => True end)%Z ->
  exists n, roundedR (rnd emin prec (x / scale)) n /\
    quantizeFloat emin prec false u scale zp x =
    saturate (if u then 0 else -128) (if u then 255 else 127) (n + match zp with Some z => z | None => 0%Z end).
Proof.
  intros Hp He Hz. assert (P1 : (1 < prec)%Z) by lia. assert (Pg : Prec_gt_0 prec) by (red; lia).
  destruct (emulation_rounds emin prec P1 He (rnd emin prec (x / scale))) as (n & En & Rn).
  { apply generic_format_round; typeclasses eauto. }
  exists n. split; auto. unfold quantizeFloat. cbv zeta. rewrite En. cbn [floats addT cst].
  assert (P9 : (2 ^ 9 <= 2 ^ prec)%Z) by (apply Z.pow_le_mono_r; lia). change (2 ^ 9)%Z with 512%Z in P9.
  set (lo := (if u then 0 else -128)%Z). set (hi := (if u then 255 else 127)%Z).
  assert (Eq : (if u then 255 else 127) = IZR hi /\ (if u then 0 else -128) = IZR lo) by (destruct u; auto). destruct Eq as [-> ->].
  assert (Hlh : (lo <= hi)%Z) by (subst lo hi; destruct u; lia).
  assert (C : forall a, Ztrunc (IZR a) = a) by apply Ztrunc_IZR.
  destruct zp as [z|]; [|rewrite clip_IZR, C by auto; f_equal; lia].
  rewrite <- plus_IZR. set (a := (n + z)%Z).
  set (M := (2 ^ prec - 1)%Z). assert (HM : (511 <= M /\ M < 2 ^ prec)%Z) by lia. clearbody M.
  destruct (Z_lt_le_dec a (- M)) as [A | A]; [|destruct (Z_lt_le_dec (M) a) as [B | B]].
  - (* far below *)
    assert (X : rnd emin prec (IZR a) <= IZR (- M)).
    { rewrite <- (rnd_id emin prec (IZR (- M))); [apply round_le; try typeclasses eauto; apply IZR_le; lia|]. apply format_int; auto; lia. }
    assert (Y : IZR (- M) <= IZR lo) by (apply IZR_le; subst lo; destruct u; lia).
    rewrite Rmax_right by lra. rewrite Rmin_left by (apply IZR_le; auto). rewrite C. unfold saturate. subst lo hi; destruct u; lia.
  - assert (X : IZR (M) <= rnd emin prec (IZR a)).
    { rewrite <- (rnd_id emin prec (IZR (M))) at 1; [apply round_le; try typeclasses eauto; apply IZR_le; lia|]. apply format_int; auto; lia. }
    assert (Y : IZR hi <= IZR (M)) by (apply IZR_le; subst hi; destruct u; lia).
    assert (Y' : IZR lo <= IZR hi) by (apply IZR_le; auto).
    rewrite Rmax_left by lra. rewrite Rmin_right by lra. rewrite C. unfold saturate. subst lo hi; destruct u; lia.
  - rewrite (rnd_id emin prec (IZR a)) by (apply format_int; auto; lia). rewrite clip_IZR, C by auto. reflexivity.
Qed.
