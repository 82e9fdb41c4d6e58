(** Lemmas for the rewriting of Pow and of the recurrent operations. *)
From Coq Require Import List ZArith Bool Lia SpecFloat.
From Verif Require Import Util TensorSpec TensorLemmas ShapeOpsModel ShapeOpsSpec BroadcastSpec BroadcastProofs RnnSpec ShapeRewriteModel PowRnnSpec PowRnnModel.
Import ListNotations.
Open Scope Z_scope.

Lemma prod_one s : okshape s -> prodZ s = 1 -> Forall (eq 1) s.
Proof.
  induction s as [|d r IH]; intros O E; constructor; inversion O as [|? ? Hd Hr]; subst; rewrite prodZ_cons in E.
  - destruct (Z.eq_dec d 1); auto. assert (d = 0 \/ d = 1 \/ 1 < d) as [-> | [-> | H]] by lia; [lia|lia|]. exfalso. assert (0 < prodZ r \/ prodZ r <= 0) as [K | K] by lia; nia.
  - apply IH; auto. assert (d = 0 \/ d = 1 \/ 1 < d) as [-> | [-> | H]] by lia; [lia|lia|]. exfalso. assert (0 < prodZ r \/ prodZ r <= 0) as [K | K] by lia; nia.
Qed.
Lemma broadcast_ones s e : Forall (eq 1) e -> (length e <= length s)%nat -> broadcast [s; e] s.
Proof.
  intros F L. split; [intros t [<- | [<- | []]]; lia|]. split; [exists s; split; [left|]; auto|].
  intros j Hj. cbn [map]. split; [left; auto|]. intros v [<- | [<- | []]]; [right; auto|]. left.
  unfold rdim. destruct (Nat.lt_ge_cases j (length (rev e))) as [H | H]; [|apply nth_overflow; auto].
  apply (@nth_In _ j (rev e) 1) in H. apply in_rev in H. rewrite Forall_forall in F. symmetry. apply F, H.
Qed.
Lemma broadcast_ones_unique s e z : Forall (eq 1) e -> (length e <= length s)%nat -> broadcast [s; e] z -> z = s.
Proof.
  intros F L B. pose proof (broadcast_ones s e F L) as C. destruct B as (B1 & (t & Bt & B2) & B3), C as (_ & _ & C3).
  assert (LL : length z = length s). { pose proof (B1 s (or_introl eq_refl)). destruct Bt as [<- | [<- | []]]; lia. }
  apply (list_ext_nth 1); auto. intros i Hi. rewrite <- (rdim_nth z i), <- (rdim_nth s i) by lia. rewrite LL. apply (bcast_unique (map (fun s0 => rdim s0 (length s - 1 - i)) [s; e])); [apply B3; lia | apply C3; lia].
Qed.
Lemma bindex_self s : forall idx, valid s idx -> bindex s idx = idx.
Proof.
  intros idx V. unfold bindex. assert (L : length idx = length s) by (clear - V; induction V; cbn; auto). rewrite L, Nat.sub_diag. cbn [skipn]. clear L.
  induction V as [|d i s idx H V IH]; [reflexivity|]. cbn [map2]. f_equal; auto. destruct (Z.eqb_spec d 1); lia.
Qed.
Lemma staticShape_ok t : forall s s', agrees t s -> staticShape t = Some s' -> s' = s.
Proof.
  induction t as [|d r IH]; intros s s' Ag E; inversion Ag as [|? d' ? s1 H1 H2]; subst; cbn in E; [congruence|].
  destruct d as [v|]; [|discriminate]. cbn in E. destruct (staticShape r) as [l|] eqn:El; [|discriminate]. injection E as <-. f_equal; [apply H1; auto | apply IH; auto].
Qed.

Lemma toInt64_ok v z : isIntegral v = true -> toInt64 v = Some z -> floatIs v z.
Proof.
  destruct v as [s|s| |s m e]; cbn [isIntegral toInt64 floatIs]; try discriminate; [congruence|]. intros I E.
  destruct (Z.leb_spec 0 e) as [P | P]; cbn [orb] in I.
  - rewrite Z.max_r, (Z.max_l 0 (- e)) by lia. change (2 ^ 0) with 1. destruct (_ && _) in E; [|discriminate]. apply (f_equal (fun o => match o with Some v => v | None => 0 end)) in E. rewrite <- E. destruct s; ring.
  - apply Z.eqb_eq in I. rewrite Z.max_l, (Z.max_r 0 (- e)) by lia. change (2 ^ 0) with 1. destruct (_ && _) in E; [|discriminate]. apply (f_equal (fun o => match o with Some v => v | None => 0 end)) in E. rewrite <- E.
    assert (0 < 2 ^ (- e)) by (apply Z.pow_pos_nonneg; lia). pose proof (Z.div_mod (Z.pos m) (2 ^ (- e)) ltac:(lia)) as D. rewrite I in D. destruct s; rewrite D at 1; ring.
Qed.
Lemma toInt64_defined v z : floatIs v z -> - 2 ^ 63 <= z < 2 ^ 63 -> isIntegral v = true /\ toInt64 v = Some z.
Proof.
  destruct v as [s|s| |s m e]; cbn [isIntegral toInt64 floatIs]; try contradiction; [intros -> _; auto|]. intros F R. destruct (Z.leb_spec 0 e) as [P | P]; cbn [orb].
  - rewrite Z.max_r, (Z.max_l 0 (- e)) in F by lia. change (2 ^ 0) with 1 in F. split; auto.
    assert (Q : (if s then - (Z.pos m * 2 ^ e) else Z.pos m * 2 ^ e) = z) by (destruct s; rewrite <- (Z.mul_1_r z), <- F; ring). rewrite Q.
    destruct (Z.leb_spec (- 2 ^ 63) z), (Z.ltb_spec z (2 ^ 63)); try lia. reflexivity.
  - rewrite Z.max_l, (Z.max_r 0 (- e)) in F by lia. change (2 ^ 0) with 1 in F. assert (0 < 2 ^ (- e)) by (apply Z.pow_pos_nonneg; lia).
    set (q := 2 ^ (- e)) in *. assert (M : Z.pos m = (if s then - z else z) * q) by (destruct s; rewrite ?Z.mul_opp_l, <- F; ring).
    rewrite M, Z.mod_mul, Z.div_mul by lia. split; [reflexivity|].
    assert (Q : (if s then - (if s then - z else z) else (if s then - z else z)) = z) by (destruct s; ring). rewrite Q.
    destruct (Z.leb_spec (- 2 ^ 63) z), (Z.ltb_spec z (2 ^ 63)); try lia. reflexivity.
Qed.

Section Pow.
Context {A : Type}.
Variables (one : A) (mul : A -> A -> A).
Hypothesis assoc : forall a b c, mul a (mul b c) = mul (mul a b) c.
Hypothesis unitl : forall a, mul one a = a.
Hypothesis unitr : forall a, mul a one = a.
Lemma power_S x n : power one mul x (S n) = mul x (power one mul x n).
Proof. reflexivity. Qed.
Lemma power_0 x : power one mul x 0 = one.
Proof. reflexivity. Qed.
Lemma power_add x n m : power one mul x (n + m) = mul (power one mul x n) (power one mul x m).
Proof. induction n as [|n IH]; [now rewrite power_0, unitl|]. cbn [Nat.add]. now rewrite !power_S, IH, assoc. Qed.
Lemma power_square x n : power one mul (mul x x) n = power one mul x (n + n).
Proof. induction n as [|n IH]; [reflexivity|]. cbn [Nat.add]. rewrite <- plus_n_Sm, !power_S, IH, assoc. reflexivity. Qed.
(** The loop multiplies what it has by the input to the power of what is left of the exponent. *)
Lemma powLoop_ok : forall fuel result input e, 0 < e -> e <= Z.of_nat fuel ->
  (forall r, result = Some r -> tShape r = tShape input) ->
  exists z, powLoop mul fuel result input e = Some z /\ tShape z = tShape input /\
    forall i, tAt z i = mul (match result with Some r => tAt r i | None => one end) (power one mul (tAt input i) (Z.to_nat e)).
Proof.
  induction fuel as [|fuel IH]; intros result input e He Hf Hr; [lia|]. cbn [powLoop].
  rewrite Z.shiftr_div_pow2 by lia. change (2 ^ 1) with 2. pose proof (Z.div_mod e 2 ltac:(lia)) as DM. pose proof (Zmod_odd e) as MO.
  set (res := if Z.odd e then match result with Some r => Some (mulTensors mul r input) | None => Some input end else result).
  assert (R1 : forall r, res = Some r -> tShape r = tShape input).
  { intros r E. unfold res in E. destruct (Z.odd e); [|auto]. destruct result as [r0|]; injection E as <-; cbn; auto. }
  assert (R2 : forall i, match res with Some r => tAt r i | None => one end = mul (match result with Some r => tAt r i | None => one end) (power one mul (tAt input i) (Z.to_nat (e mod 2)))).
  { intros i. unfold res. rewrite MO. destruct (Z.odd e); [change (Z.to_nat 1) with 1%nat|change (Z.to_nat 0) with 0%nat]; rewrite ?power_S, ?power_0;
      destruct result; cbn [tAt mulTensors]; rewrite ?unitr, ?unitl; auto. }
  destruct (Z.eqb_spec (e / 2) 0) as [E0 | N0].
  - assert (e = 1) as -> by (destruct (Z.odd e); lia). change (1 mod 2) with 1 in R2. unfold res in *. cbn [Z.odd] in *. destruct result as [r|]; eexists; split; try reflexivity; (split; [apply R1; reflexivity|]); intros i; exact (R2 i).
  - destruct (IH res (mulTensors mul input input) (e / 2)) as (z & E & S & V).
    + pose proof (Z.div_pos e 2). lia.
    + assert (e / 2 < e) by (apply Z.div_lt; lia). lia.
    + intros r E. cbn. auto.
    + exists z. split; auto. split; [exact S|]. intros i. rewrite V, R2. cbn [tAt mulTensors]. rewrite power_square, <- assoc, <- power_add. do 2 f_equal. pose proof (Z.div_pos e 2 ltac:(lia) ltac:(lia)). pose proof (Z.mod_pos_bound e 2 ltac:(lia)). lia.
Qed.
End Pow.

Lemma pullUsers_ok {Attr} (eqAttrs : Attr -> Attr -> bool) a : (forall x y, eqAttrs x y = true -> x = y) ->
  forall us first, pullUsers eqAttrs first us = Rewritten a -> (forall b, first = Some b -> b = a) /\ Forall (fun u => uTarget u = true /\ uAttrs u = a) us.
Proof.
  intros Heq. induction us as [|u r IH]; intros first E; cbn [pullUsers] in E.
  - destruct first; [|discriminate]. injection E as ->. split; [congruence | constructor].
  - destruct (uTarget u) eqn:Et; [|discriminate]. destruct (uSameType u); [|discriminate]. cbn [negb] in E. destruct first as [b|].
    + destruct (eqAttrs b (uAttrs u)) eqn:Eb; [|discriminate]. destruct (IH _ E) as [H1 H2]. split; auto. constructor; auto. split; auto. rewrite <- (Heq _ _ Eb). auto.
    + destruct (IH _ E) as [H1 H2]. split; [discriminate|]. constructor; auto.
Qed.
