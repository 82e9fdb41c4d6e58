(** Folding and running whole expressions, against their meaning. *)
From Coq Require Import ZArith List Bool Lia.
From Verif Require Import FoldSpec FoldModel FoldProofs.
Import ListNotations.
Open Scope Z_scope.

Lemma eqTy_eq : forall a b, eqTy a b = true -> a = b.
Proof.
  intros [|s w] [|s' w']; cbn; try discriminate; auto. intros H.
  apply andb_true_iff in H as [H1 H2]. apply eqb_prop in H1. apply Z.eqb_eq in H2.
  congruence.
Qed.
Lemma eqTy_refl : forall a, eqTy a a = true.
Proof. intros [|s w]; cbn; auto. rewrite eqb_reflx, Z.eqb_refl. reflexivity. Qed.

Lemma tyUn_ok : forall o t r, tyOK t -> tyUn o t = Some r -> tyOK r.
Proof.
  intros [] [|s w] r H E; cbn in *; try discriminate; injection E as <-;
    cbn; auto.
Qed.
Lemma tyBin_ok : forall o t r, tyOK t -> tyBin o t = Some r -> tyOK r.
Proof.
  intros [] [|s w] r H E; cbn in *; try discriminate; injection E as <-;
    cbn; auto.
Qed.

Lemma typeOf_ok : forall e t, wellFormed e -> typeOf e = Some t -> tyOK t.
Proof.
  induction e; intros t0 Hw Ht; cbn in *.
  - injection Ht as <-; apply Hw.
  - destruct (typeOf e); [|discriminate]. eapply tyUn_ok; eauto.
  - destruct (typeOf e1), (typeOf e2); try discriminate.
    destruct (eqTy e e0); [|discriminate]. eapply tyBin_ok; eauto. apply IHe1; tauto.
  - destruct (typeOf e); [|discriminate]. injection Ht as <-; tauto.
Qed.

Lemma b2z_01 : forall b, b2z b = 0 \/ b2z b = 1.
Proof. intros []; auto. Qed.

Lemma quot_wide_u : forall a b, 0 <= a < 2 ^ 64 -> 0 <= b -> b <> 0 ->
  0 <= Z.quot a b < 2 ^ 64.
Proof.
  intros a b Ha Hb Hn. split.
  - apply Z.quot_pos; lia.
  - rewrite Z.quot_div_nonneg by lia.
    pose proof (Z.div_le_upper_bound a b a ltac:(lia) ltac:(nia)). lia.
Qed.

(** C's truncating remainder, corrected as the code does, is the remainder
    with the sign of the divisor. *)
Lemma rem_fix : forall a b, b <> 0 ->
  (if negb (Z.rem a b =? 0) && xorb (a <? 0) (b <? 0) then Z.rem a b + b else Z.rem a b)
  = Z.modulo a b.
Proof.
  intros a b Hb.
  pose proof (Z.quot_rem' a b) as E.
  pose proof (Z.rem_bound_abs a b Hb) as B.
  assert (S : 0 <= a -> 0 <= Z.rem a b) by (intros; apply Z.rem_nonneg; auto).
  assert (S' : a <= 0 -> Z.rem a b <= 0) by (intros; apply Z.rem_nonpos; auto).
  destruct (Z.eqb_spec (Z.rem a b) 0) as [R|R]; cbn [negb andb].
  - rewrite R in *. apply (Z.mod_unique a b (Z.quot a b)); lia.
  - destruct (Z.ltb_spec a 0), (Z.ltb_spec b 0); cbn [xorb].
    + apply (Z.mod_unique a b (Z.quot a b)); lia.
    + apply (Z.mod_unique a b (Z.quot a b - 1)); lia.
    + apply (Z.mod_unique a b (Z.quot a b - 1)); lia.
    + apply (Z.mod_unique a b (Z.quot a b)); lia.
Qed.

Lemma if_min : forall a b, (if b <? a then b else a) = Z.min a b.
Proof. intros. destruct (Z.ltb_spec b a); lia. Qed.
Lemma if_max : forall a b, (if a <? b then b else a) = Z.max a b.
Proof. intros. destruct (Z.ltb_spec a b); lia. Qed.

Lemma foldBin_tracks : forall o t r a b v1 v2 v w,
  tyOK t -> tyBin o t = Some r -> tracks t a v1 -> tracks t b v2 ->
  (modularBin o = true \/ (inRange t v1 /\ inRange t v2)) ->
  idealBin o v1 v2 = Some v -> foldBin o t a b = Some w -> tracks r w v.
Proof.
  intros o t r a b v1 v2 v w Ht Hr Ta Tb Hs Hi Hf.
  destruct (modularBin o) eqn:Hm.
  - destruct o; try discriminate; destruct t as [|s wd]; try discriminate;
      cbn in Hr; injection Hr as <-; cbn in Hi; injection Hi as <-;
      destruct Ta as [Ra Ea], Tb as [Rb Eb]; destruct s; cbn [foldBin Wide] in *;
      try (apply i64_inv in Hf as [-> Hf]; split; [exact Hf|]);
      try (injection Hf as <-; match goal with |- tracks _ (u64 ?x) _ =>
             destruct (u64_ok x) as [U1 U2]; split; [exact U1|];
             eapply eqm_trans; [exact U2|] end);
      try (apply eqm_add; assumption); try (apply eqm_sub; assumption);
      try (apply eqm_mul; assumption);
      try (injection Hf as <-; split; cbn [Wide];
           [solve [apply land_signed; assumption | apply land_unsigned; assumption
                  |apply lor_signed; assumption | apply lor_unsigned; assumption]
           |solve [apply eqm_land; try assumption; lia
                  |apply eqm_lor; try assumption; lia]]).
  - destruct Hs as [Hs|[I1 I2]]; [congruence|].
    pose proof (tracks_fits t a v1 Ht Ta I1) as ->.
    pose proof (tracks_fits t b v2 Ht Tb I2) as ->.
    assert (G : w = v /\ Wide r w ->
                tracks r w v).
    { intros [-> G]. split; auto. destruct r; [reflexivity|apply eqm_refl]. }
    apply G. clear G. destruct Ta as [Ra _], Tb as [Rb _].
    destruct o; try discriminate; destruct t as [|[] wd]; try discriminate;
      cbn in Hr; injection Hr as <-; cbn [idealBin foldBin Wide] in *;
      try (injection Hi as <-; injection Hf as <-;
           solve [ split; [reflexivity | apply b2z_01]
                 | rewrite if_min; split; [reflexivity|lia]
                 | rewrite if_max; split; [reflexivity|lia]
                 | destruct Ra as [-> | ->], Rb as [-> | ->]; cbn; auto ]).
    + destruct (v2 =? 0); [discriminate|]. injection Hi as <-.
      apply i64_inv in Hf. exact Hf.
    + destruct (Z.eqb_spec v2 0); [discriminate|]. injection Hi as <-. injection Hf as <-.
      split; [reflexivity|]. apply quot_wide_u; lia.
    + destruct (Z.eqb_spec v2 0) as [|Hb]; [discriminate|]. injection Hi as <-.
      destruct ((v1 =? min64) && (v2 =? -1)); [discriminate|].
      rewrite <- (rem_fix v1 v2 Hb).
      destruct (negb (Z.rem v1 v2 =? 0) && xorb (v1 <? 0) (v2 <? 0)).
      * apply i64_inv in Hf. exact Hf.
      * injection Hf as <-. split; [reflexivity|].
        pose proof (Z.rem_bound_abs v1 v2 Hb). lia.
Qed.

Lemma foldUn_tracks : forall o t r a v1 w,
  tyOK t -> tyUn o t = Some r -> tracks t a v1 ->
  (modularUn o = true \/ inRange t v1) -> (o = Abs -> Z.abs v1 <= 2 ^ 53) ->
  foldUn o t a = Some w -> tracks r w (idealUn o v1).
Proof.
  intros o t r a v1 w Ht Hr Ta Hs Hab Hf.
  destruct (modularUn o) eqn:Hm.
  - destruct Ta as [Ra Ea].
    destruct o; try discriminate; destruct t as [|[] wd]; try discriminate;
      cbn in Hr; injection Hr as <-; cbn [foldUn idealUn Wide] in *;
      try (apply i64_inv in Hf as [-> Hf]; split; [exact Hf|]; apply eqm_opp; assumption);
      try (injection Hf as <-; match goal with |- tracks _ (u64 ?x) _ =>
             destruct (u64_ok x) as [U1 U2]; split; [exact U1|];
             eapply eqm_trans; [exact U2|];
             solve [apply eqm_opp; assumption | apply eqm_lnot; assumption] end).
    + injection Hf as <-. split; [|apply eqm_lnot; assumption].
      cbn [Wide]. unfold Z.lnot, Z.pred. lia.
    + injection Hf as <-. subst v1. destruct Ra as [-> | ->]; split; cbn; auto.
  - destruct Hs as [Hs|I1]; [congruence|].
    pose proof (tracks_fits t a v1 Ht Ta I1) as ->. destruct Ta as [Ra _].
    destruct o; try discriminate; destruct t as [|s wd]; try discriminate;
      cbn in Hr; injection Hr as <-; cbn [foldUn idealUn] in *.
    + rewrite toDouble_exact in Hf by (apply Hab; reflexivity).
      destruct s; cbn [Wide] in Ra.
      * apply i64_inv in Hf as [-> Hf]. split; [exact Hf|apply eqm_refl].
      * destruct (Z.ltb_spec (Z.abs v1) two64); [|discriminate]. injection Hf as <-.
        split; [|apply eqm_refl]. cbn [Wide]. unfold two64 in *. lia.
    + injection Hf as <-.
      replace (if v1 <? 0 then 0 else v1) with (Z.max 0 v1)
        by (destruct (Z.ltb_spec v1 0); lia).
      split; [|apply eqm_refl]. destruct s; cbn [Wide] in *; lia.
Qed.

Lemma foldCast_tracks : forall t0 t a v,
  tyOK t0 -> tyOK t -> tracks t0 a v ->
  ((match t with TInt _ w => w <=? bitsOfTy t0 | TBool => false end) = true \/ inRange t0 v) ->
  tracks t (foldCast t0 t a) (match t with TBool => wrap TBool v | TInt _ _ => v end).
Proof.
  intros t0 t a v H0 Ht Ta Hs. unfold foldCast.
  destruct (eqTy t0 t) eqn:E.
  { apply eqTy_eq in E as ->. destruct t as [|s w]; auto.
    destruct Ta as [Ra Ea]. cbn in Ra. subst v. split; [exact Ra|].
    destruct Ra as [-> | ->]; reflexivity. }
  destruct t as [|s w].
  - destruct Hs as [Hs|Hs]; [discriminate|].
    pose proof (tracks_fits t0 a v H0 Ta Hs) as ->. cbn [wrap].
    split; [|reflexivity]. cbn [Wide]. destruct (v =? 0); auto.
  - assert (Ra : Wide (TInt (negb (unsignedTy t0)) w) a /\ eqm 64 a v).
    { destruct Ta as [Ra Ea]. destruct t0 as [|[] w0]; cbn [unsignedTy negb Wide] in *; auto.
      subst v. split; [lia|apply eqm_refl]. }
    destruct Ra as [Ra Ea].
    destruct s; cbn [unsignedTy].
    + destruct (unsignedTy t0) eqn:U; cbn [eqb].
      * split.
        -- cbn [Wide]. unfold two64.
           pose proof (Z.mod_pos_bound (a + 2 ^ 63) (2 ^ 64) ltac:(lia)). lia.
        -- eapply eqm_trans; [|exact Ea].
           exact (wrap_eqm true 64 a W64).
      * split; auto.
    + destruct (unsignedTy t0) eqn:U; cbn [eqb].
      * split; auto.
      * destruct (u64_ok a) as [U1 U2]. split; [exact U1|].
        eapply eqm_trans; [exact U2|exact Ea].
Qed.

(** *** The unbounded value determines the meaning *)

Lemma wrapBin : forall o t r v1 v2 m,
  tyOK t -> tyBin o t = Some r ->
  (modularBin o = true \/ (inRange t v1 /\ inRange t v2)) ->
  elemBin o t (wrap t v1) (wrap t v2) = Some m ->
  exists v, idealBin o v1 v2 = Some v /\ m = wrap r v.
Proof.
  intros o t r v1 v2 m Ht Hr Hs Hm. unfold elemBin in Hm. rewrite Hr in Hm.
  destruct (modularBin o) eqn:Hmod.
  - destruct o; try discriminate; destruct t as [|s w]; try discriminate;
      cbn in Hr; injection Hr as <-; cbn [idealBin] in *; injection Hm as <-;
      eexists; (split; [reflexivity|]); apply wrap_resp;
      pose proof (wrap_eqm s w v1 Ht); pose proof (wrap_eqm s w v2 Ht);
      pose proof (widthOK_range w Ht);
      auto using eqm_add, eqm_sub, eqm_mul;
      solve [apply eqm_land; auto; lia | apply eqm_lor; auto; lia].
  - destruct Hs as [Hs|[I1 I2]]; [congruence|].
    rewrite (wrap_id t v1) in Hm by auto. rewrite (wrap_id t v2) in Hm by auto.
    destruct (idealBin o v1 v2) as [v|]; [|discriminate].
    injection Hm as <-. eauto.
Qed.

Lemma wrapUn : forall o t r v1 m,
  tyOK t -> tyUn o t = Some r -> (modularUn o = true \/ inRange t v1) ->
  (t = TBool -> inRange t v1) ->
  elemUn o t (wrap t v1) = Some m -> m = wrap r (idealUn o v1).
Proof.
  intros o t r v1 m Ht Hr Hs Hb Hm. unfold elemUn in Hm. rewrite Hr in Hm.
  injection Hm as <-.
  destruct (modularUn o) eqn:Hmod.
  - destruct o; try discriminate; destruct t as [|s w]; try discriminate;
      cbn in Hr; injection Hr as <-; cbn [idealUn].
    + apply wrap_resp, eqm_opp, wrap_eqm; auto.
    + apply wrap_resp, eqm_lnot, wrap_eqm; auto.
    + rewrite (wrap_id TBool v1) by auto. reflexivity.
  - destruct Hs as [Hs|I1]; [congruence|]. rewrite (wrap_id t v1) by auto. reflexivity.
Qed.

Lemma wrapCast : forall t0 t v,
  tyOK t0 -> tyOK t ->
  ((match t with TInt _ w => w <=? bitsOfTy t0 | TBool => false end) = true \/ inRange t0 v) ->
  wrap t (wrap t0 v) = wrap t (match t with TBool => wrap TBool v | TInt _ _ => v end).
Proof.
  intros t0 t v H0 Ht [Hn|Hr].
  - destruct t as [|s w]; [discriminate|]. apply Z.leb_le in Hn.
    destruct t0 as [|s0 w0]; cbn in Hn.
    + cbn in Ht. apply widthOK_range in Ht. lia.
    + apply wrap_resp. cbn in Ht, H0. apply (eqm_le w w0).
      * apply widthOK_range in Ht. lia.
      * apply wrap_eqm; auto.
  - rewrite (wrap_id t0) by auto. destruct t; auto.
    cbn [wrap]. destruct (v =? 0); reflexivity.
Qed.

(** Unbounded values of boolean expressions are booleans. *)
Lemma unbounded_bool : forall e v, wellFormed e -> typeOf e = Some TBool ->
  unbounded e = Some v -> inRange TBool v.
Proof.
  induction e; intros v0 Hw Ht Hu; cbn in Hw.
  - cbn in Ht, Hu. injection Ht as ->. injection Hu as <-. apply Hw.
  - cbn in Ht, Hu. destruct (typeOf e) as [t|] eqn:E; [|discriminate].
    destruct o, t as [|s w]; try discriminate.
    destruct (unbounded e) as [a|]; [|discriminate]. injection Hu as <-.
    pose proof (IHe a Hw eq_refl eq_refl) as [-> | ->]; cbn; auto.
  - cbn in Ht, Hu.
    destruct (typeOf e1) as [t|] eqn:E1; [|discriminate].
    destruct (typeOf e2) as [t2|] eqn:E2; [|discriminate].
    destruct (eqTy t t2) eqn:E; [|discriminate]. apply eqTy_eq in E as <-.
    destruct (unbounded e1) as [a|]; [|discriminate].
    destruct (unbounded e2) as [b|]; [|discriminate].
    destruct o, t as [|s w]; try discriminate; cbn in Hu; injection Hu as <-;
      try apply b2z_01;
      destruct Hw as [W1 W2];
      pose proof (IHe1 a W1 eq_refl eq_refl) as [-> | ->];
      pose proof (IHe2 b W2 eq_refl eq_refl) as [-> | ->]; cbn; auto.
  - cbn in Ht. destruct (typeOf e) eqn:E; [|discriminate]. injection Ht as ->.
    cbn in Hu. destruct (unbounded e); [|discriminate]. injection Hu as <-.
    destruct (z =? 0); cbn; auto.
Qed.

Lemma fits_inv : forall e t v, typeOf e = Some t -> unbounded e = Some v ->
  fits e -> inRange t v.
Proof. unfold fits; intros e t v -> ->; auto. Qed.

Lemma wrap_mode : forall t e v t0,
  typeOf e = Some t0 -> unbounded e = Some v ->
  (narrowing t e = true \/ fits e) ->
  ((match t with TInt _ w => w <=? bitsOfTy t0 | TBool => false end) = true \/ inRange t0 v).
Proof.
  intros t e v t0 Ht Hu [H|H].
  - left. unfold narrowing in H. rewrite Ht in H. destruct t; auto.
  - right. eapply fits_inv; eauto.
Qed.

Theorem meaning_unbounded : forall e t m,
  wellFormed e -> overflowSafe e -> typeOf e = Some t -> meaning e = Some m ->
  exists v, unbounded e = Some v /\ m = wrap t v.
Proof.
  induction e; intros t0 m Hw Hs Ht Hm; pose proof Hw as Hwf; cbn in Hw.
  - cbn in *. injection Ht as <-. injection Hm as <-. exists v. split; auto.
    symmetry. apply wrap_id; tauto.
  - cbn in Hs, Ht, Hm. destruct (typeOf e) as [t1|] eqn:E; [|discriminate].
    destruct (meaning e) as [a|]; [|discriminate].
    destruct Hs as (S1 & S2 & S3).
    destruct (IHe t1 a Hw S1 eq_refl eq_refl) as (v1 & U1 & ->).
    pose proof (typeOf_ok e t1 Hw E) as Hok.
    exists (idealUn o v1). cbn [unbounded]. rewrite U1. split; auto.
    apply (wrapUn o t1 t0 v1 m); auto.
    + destruct S2 as [S2|S2]; auto. right. eapply fits_inv; eauto.
    + intros ->. exact (unbounded_bool e v1 Hw E U1).
  - cbn in Hs, Ht, Hm.
    destruct (typeOf e1) as [t1|] eqn:E1; [|discriminate].
    destruct (typeOf e2) as [t2|] eqn:E2; [|discriminate].
    destruct (eqTy t1 t2) eqn:E; [|discriminate]. apply eqTy_eq in E as <-.
    destruct (meaning e1) as [a|]; [|discriminate].
    destruct (meaning e2) as [b|]; [|discriminate].
    destruct Hw as [W1 W2]. destruct Hs as (S1 & S2 & S3).
    destruct (IHe1 t1 a W1 S1 eq_refl eq_refl) as (v1 & U1 & ->).
    destruct (IHe2 t1 b W2 S2 eq_refl eq_refl) as (v2 & U2 & ->).
    cbn [unbounded]. rewrite U1, U2.
    apply (wrapBin o t1 t0 v1 v2 m); auto.
    + exact (typeOf_ok e1 t1 W1 E1).
    + destruct S3 as [S3|[S3 S4]]; auto. right.
      split; [exact (fits_inv e1 t1 v1 E1 U1 S3)|exact (fits_inv e2 t1 v2 E2 U2 S4)].
  - cbn in Hs, Ht, Hm. destruct (typeOf e) as [t1|] eqn:E; [|discriminate].
    injection Ht as <-. destruct (meaning e) as [a|]; [|discriminate]. injection Hm as <-.
    destruct Hw as [W1 W2]. destruct Hs as [S1 S2].
    destruct (IHe t1 a W2 S1 eq_refl eq_refl) as (v1 & U1 & ->).
    pose proof (typeOf_ok e t1 W2 E) as Hok.
    exists (match t with TBool => wrap TBool v1 | TInt _ _ => v1 end).
    split.
    + cbn [unbounded]. rewrite U1. destruct t; reflexivity.
    + apply wrapCast; auto. eapply wrap_mode; eauto.
Qed.

Theorem fold_tracks : forall e t v w,
  wellFormed e -> overflowSafe e -> typeOf e = Some t -> unbounded e = Some v ->
  foldWide e = Some w -> tracks t w v.
Proof.
  induction e; intros t0 v0 w Hw Hs Ht Hu Hf; pose proof Hw as Hwf; cbn in Hw.
  - cbn in *. injection Ht as <-. injection Hu as <-. injection Hf as <-.
    split; [apply inRange_Wide; tauto|]. destruct t; [reflexivity|apply eqm_refl].
  - cbn in Hs, Ht, Hu, Hf. destruct (typeOf e) as [t1|] eqn:E; [|discriminate].
    destruct (unbounded e) as [v1|] eqn:U; [|discriminate]. injection Hu as <-.
    destruct (foldWide e) as [a|]; [|discriminate].
    destruct Hs as (S1 & S2 & S3).
    apply (foldUn_tracks o t1 t0 a v1 w); auto.
    + exact (typeOf_ok e t1 Hw E).
    + destruct S2 as [S2|S2]; auto. right. eapply fits_inv; eauto.
    + intros Ho. destruct (S3 Ho) as (v' & Hv' & B).
      injection Hv' as <-. exact B.
  - cbn in Hs, Ht, Hu, Hf.
    destruct (typeOf e1) as [t1|] eqn:E1; [|discriminate].
    destruct (typeOf e2) as [t2|] eqn:E2; [|discriminate].
    destruct (eqTy t1 t2) eqn:E; [|discriminate]. apply eqTy_eq in E as <-.
    destruct (unbounded e1) as [v1|] eqn:U1; [|discriminate].
    destruct (unbounded e2) as [v2|] eqn:U2; [|discriminate].
    destruct (foldWide e1) as [a|]; [|discriminate].
    destruct (foldWide e2) as [b|]; [|discriminate].
    destruct Hw as [W1 W2]. destruct Hs as (S1 & S2 & S3).
    apply (foldBin_tracks o t1 t0 a b v1 v2 v0 w); auto.
    + exact (typeOf_ok e1 t1 W1 E1).
    + destruct S3 as [S3|[S3 S4]]; auto. right.
      split; [exact (fits_inv e1 t1 v1 E1 U1 S3)|exact (fits_inv e2 t1 v2 E2 U2 S4)].
  - cbn in Hs, Ht, Hf. destruct (typeOf e) as [t1|] eqn:E; [|discriminate].
    injection Ht as <-. destruct (foldWide e) as [a|]; [|discriminate]. injection Hf as <-.
    destruct Hw as [W1 W2]. destruct Hs as [S1 S2].
    cbn [unbounded] in Hu.
    destruct (unbounded e) as [v1|] eqn:U; [|destruct t; discriminate].
    assert (v0 = match t with TBool => wrap TBool v1 | TInt _ _ => v1 end) as ->
      by (destruct t; congruence).
    apply foldCast_tracks; auto.
    + exact (typeOf_ok e t1 W2 E).
    + eapply wrap_mode; eauto.
Qed.

(** *** The generated code computes the meaning *)

Definition holdsPat (t : ety) (p m : Z) : Prop := inRange t m /\ p = pat (bitsOfTy t) m.

Lemma pat_bool : forall m, inRange TBool m -> pat 1 m = m.
Proof. intros m [-> | ->]; reflexivity. Qed.

Lemma slt_pat : forall w a b, widthOK w -> inRange (TInt true w) a -> inRange (TInt true w) b ->
  slt w (pat w a) (pat w b) = (a <? b).
Proof. intros. unfold slt. rewrite !sint_pat by auto. reflexivity. Qed.

Lemma pat_inj : forall s w a b, widthOK w -> inRange (TInt s w) a -> inRange (TInt s w) b ->
  (pat w a =? pat w b) = (a =? b).
Proof.
  intros s w a b Hw Ha Hb. destruct (Z.eqb_spec a b) as [->|N].
  - apply Z.eqb_refl.
  - apply Z.eqb_neq. intros E. apply N. apply (inRange_eqm s w); auto.
Qed.

Lemma zero_in : forall s w, widthOK w -> inRange (TInt s w) 0.
Proof.
  intros s w Hw. apply widthOK_range in Hw. pose proof (pow2_pos w ltac:(lia)).
  pose proof (pow2_pos (w - 1) ltac:(lia)). destruct s; cbn [inRange]; lia.
Qed.

Lemma pat_0 : forall w, widthOK w -> pat w 0 = 0.
Proof. intros. unfold pat. apply Z.mod_0_l. apply widthOK_range in H. pose proof (pow2_pos w). lia. Qed.

Lemma pat_eq0 : forall s w a, widthOK w -> inRange (TInt s w) a -> (pat w a =? 0) = (a =? 0).
Proof.
  intros s w a Hw Ha. rewrite <- (pat_0 w Hw) at 1.
  apply (pat_inj s); auto using zero_in.
Qed.

Lemma slt_pat0 : forall w a, widthOK w -> inRange (TInt true w) a ->
  slt w (pat w a) 0 = (a <? 0).
Proof. intros. rewrite <- (pat_0 w) at 1 by auto. apply slt_pat; auto using zero_in. Qed.
Lemma slt_0pat : forall w a, widthOK w -> inRange (TInt true w) a ->
  slt w 0 (pat w a) = (0 <? a).
Proof. intros. rewrite <- (pat_0 w) at 1 by auto. apply slt_pat; auto using zero_in. Qed.

Lemma pat_wrap : forall s w v, widthOK w -> pat w (wrap (TInt s w) v) = pat w v.
Proof. intros. apply pat_eqm, wrap_eqm; auto. Qed.

Lemma pat_idem : forall w v, widthOK w -> eqm w (pat w v) v.
Proof. intros w v H. apply eqm_mod. apply widthOK_range in H. lia. Qed.

Lemma rem_in : forall w a b, widthOK w -> b <> 0 ->
  inRange (TInt true w) a -> inRange (TInt true w) b -> inRange (TInt true w) (Z.rem a b).
Proof.
  intros w a b Hw Hb Ha Hb'. pose proof (Z.rem_bound_abs a b Hb).
  cbn [inRange] in *. lia.
Qed.

Lemma lowerBin_ok : forall o t r p q a b x,
  tyOK t -> tyBin o t = Some r -> holdsPat t p a -> holdsPat t q b ->
  lowerBin o t p q = Some x ->
  exists m, elemBin o t a b = Some m /\ holdsPat r x m.
Proof.
  intros o t r p q a b x Ht Hr [Ia ->] [Ib ->] Hl. unfold elemBin. rewrite Hr.
  assert (C : forall x v, tyBin o t = Some r -> x = pat (bitsOfTy r) (wrap r v) ->
     exists m, Some (wrap r v) = Some m /\ holdsPat r x m).
  { intros x0 v _ ->. eexists; split; [reflexivity|]. split; [|reflexivity].
    apply wrap_range. eapply tyBin_ok; eauto. }
  assert (B : forall x b0, r = TBool -> x = b2z b0 ->
     exists m, Some (wrap r (b2z b0)) = Some m /\ holdsPat r x m).
  { intros x0 b0 -> ->. exists (b2z b0). split; [destruct b0; reflexivity|].
    split; [apply b2z_01|destruct b0; reflexivity]. }
  destruct t as [|s w].
  - (* booleans *)
    destruct Ia as [-> | ->], Ib as [-> | ->], o; try discriminate; cbn in *;
      injection Hr as <-; injection Hl as <-; cbn; (eexists; split; [reflexivity|]);
      (split; [cbn; auto|reflexivity]).
  - destruct s; [|destruct o; discriminate]. cbn in Ht.
    pose proof (widthOK_range w Ht) as Hw.
    assert (M : forall x v, r = TInt true w -> eqm w x v -> 0 <= x < 2 ^ w ->
       exists m, Some (wrap r v) = Some m /\ holdsPat r x m).
    { intros x0 v -> Hx Hb. apply C; auto. cbn [bitsOfTy].
      rewrite pat_wrap by auto. rewrite <- (pat_eqm w x0 v Hx). unfold pat.
      symmetry. apply Z.mod_small; auto. }
    assert (P : forall v, 0 <= pat w v < 2 ^ w)
      by (intros; apply Z.mod_pos_bound, pow2_pos; lia).
    destruct o; try discriminate; cbn [tyBin] in Hr; injection Hr as <-;
      cbn [lowerBin idealBin bitsOfTy] in *.
    + injection Hl as <-. apply M; auto. eapply eqm_trans; [apply pat_idem; auto|].
      apply eqm_add; apply pat_idem; auto.
    + injection Hl as <-. apply M; auto. eapply eqm_trans; [apply pat_idem; auto|].
      apply eqm_sub; apply pat_idem; auto.
    + injection Hl as <-. apply M; auto. eapply eqm_trans; [apply pat_idem; auto|].
      apply eqm_mul; apply pat_idem; auto.
    + unfold divsi in Hl. rewrite (pat_eq0 true w b) in Hl by auto.
      destruct (b =? 0); [discriminate|].
      destruct ((pat w a =? 2 ^ (w - 1)) && (pat w b =? 2 ^ w - 1)); [discriminate|].
      injection Hl as <-. rewrite !sint_pat by auto. apply M; auto. apply pat_idem; auto.
    + unfold lowerMod, remsi in Hl. rewrite (pat_eq0 true w b) in Hl by auto.
      destruct (Z.eqb_spec b 0) as [|Hb]; [discriminate|].
      destruct ((pat w a =? 2 ^ (w - 1)) && (pat w b =? 2 ^ w - 1)); [discriminate|].
      rewrite !sint_pat in Hl by auto.
      rewrite (pat_eq0 true w (Z.rem a b)) in Hl by (auto using rem_in).
      rewrite !slt_pat0 in Hl by auto.
      injection Hl as <-. rewrite <- (rem_fix a b Hb).
      destruct (negb (Z.rem a b =? 0) && xorb (a <? 0) (b <? 0)).
      * apply M; auto. eapply eqm_trans; [apply pat_idem; auto|].
        apply eqm_add; apply pat_idem; auto.
      * apply M; auto. apply pat_idem; auto.
    + injection Hl as <-. rewrite slt_pat by auto. rewrite <- if_min.
      destruct (b <? a); apply M; auto using pat_idem.
    + injection Hl as <-. rewrite slt_pat by auto. rewrite <- if_max.
      destruct (a <? b); apply M; auto using pat_idem.
    + injection Hl as <-. unfold pat. rewrite land_mod by lia.
      apply M; auto. apply eqm_mod; lia. apply P.
    + injection Hl as <-. unfold pat. rewrite lor_mod by lia.
      apply M; auto. apply eqm_mod; lia. apply P.
    + injection Hl as <-. rewrite (pat_inj true w) by auto. apply B; auto.
    + injection Hl as <-. rewrite slt_pat by auto. apply B; auto.
    + injection Hl as <-. rewrite slt_pat by auto. apply B; auto.
    + injection Hl as <-. rewrite slt_pat by auto. rewrite <- Z.leb_antisym. apply B; auto.
    + injection Hl as <-. rewrite slt_pat by auto. rewrite <- Z.leb_antisym. apply B; auto.
Qed.

Lemma lowerUn_ok : forall o t r p a x,
  tyOK t -> tyUn o t = Some r -> holdsPat t p a -> lowerUn o t p = Some x ->
  exists m, elemUn o t a = Some m /\ holdsPat r x m.
Proof.
  intros o t r p a x Ht Hr [Ia ->] Hl. unfold elemUn. rewrite Hr.
  eexists; split; [reflexivity|]. split; [apply wrap_range; eapply tyUn_ok; eauto|].
  destruct t as [|s w].
  - destruct Ia as [-> | ->], o; try discriminate; cbn in *;
      injection Hr as <-; injection Hl as <-; reflexivity.
  - destruct s; [|destruct o; discriminate]. cbn in Ht.
    pose proof (widthOK_range w Ht) as Hw.
    destruct o; try discriminate; cbn [tyUn] in Hr; injection Hr as <-;
      cbn [lowerUn idealUn bitsOfTy] in *; injection Hl as <-; rewrite pat_wrap by auto.
    + apply pat_eqm, eqm_opp, pat_idem; auto.
    + unfold pat. apply lnot_mod. lia.
    + rewrite slt_pat0 by auto.
      destruct (Z.ltb_spec a 0).
      * rewrite Z.abs_neq by lia. apply pat_eqm, eqm_opp, pat_idem; auto.
      * rewrite Z.abs_eq by lia. reflexivity.
    + rewrite slt_0pat by auto.
      destruct (Z.ltb_spec 0 a).
      * rewrite Z.max_r by lia. reflexivity.
      * rewrite Z.max_l by lia. symmetry. apply pat_0; auto.
Qed.

Lemma pat_small : forall w m, 0 <= m < 2 ^ w -> pat w m = m.
Proof. intros. apply Z.mod_small; auto. Qed.

Lemma lowerCast_ok : forall t0 t p a,
  tyOK t0 -> tyOK t -> holdsPat t0 p a -> holdsPat t (lowerCast t0 t p) (wrap t a).
Proof.
  intros t0 t p a H0 Ht [Ia ->]. split; [apply wrap_range; auto|]. unfold lowerCast.
  destruct (eqTy t0 t) eqn:E.
  { apply eqTy_eq in E as ->. rewrite wrap_id; auto. }
  destruct t0 as [|s0 w0], t as [|s w]; cbn [bitsOfTy]; try discriminate.
  - rewrite pat_wrap by exact Ht. cbn in Ht. apply widthOK_range in Ht.
    pose proof (Z.pow_le_mono_r 2 8 w ltac:(lia) ltac:(lia)).
    rewrite (pat_small w a); [apply pat_bool; auto|]. destruct Ia; lia.
  - cbn in H0. rewrite (pat_eq0 s0 w0 a) by auto.
    cbn [wrap]. destruct s0, (a =? 0); reflexivity.
  - cbn in H0, Ht. pose proof (widthOK_range w Ht). pose proof (widthOK_range w0 H0).
    rewrite pat_wrap by auto.
    assert (N : w <= w0 -> pat w (pat w0 a) = pat w a).
    { intros. apply pat_eqm. apply (eqm_le w w0); [lia|]. apply pat_idem; auto. }
    destruct s0.
    + destruct (Z.ltb_spec w0 w); [|auto]. rewrite sint_pat by auto. reflexivity.
    + destruct (Z.ltb_spec w0 w); [|auto].
      cbn [inRange] in Ia. rewrite (pat_small w0) by auto.
      pose proof (Z.pow_le_mono_r 2 w0 w ltac:(lia) ltac:(lia)).
      symmetry. apply pat_small. lia.
Qed.

Theorem run_meaning : forall e t p,
  wellFormed e -> typeOf e = Some t -> run e = Some p ->
  exists m, meaning e = Some m /\ holdsPat t p m.
Proof.
  induction e; intros t0 p Hw Ht Hr; cbn in Hw.
  - cbn in *. injection Ht as <-. injection Hr as <-. exists v. split; auto.
    split; tauto.
  - cbn in Ht, Hr. cbn [meaning]. destruct (typeOf e) as [t1|] eqn:E; [|discriminate].
    destruct (run e) as [q|]; [|discriminate].
    destruct (IHe t1 q Hw eq_refl eq_refl) as (a & -> & Ha).
    eapply lowerUn_ok; eauto. eapply typeOf_ok; eauto.
  - cbn in Ht, Hr. cbn [meaning].
    destruct (typeOf e1) as [t1|] eqn:E1; [|discriminate].
    destruct (typeOf e2) as [t2|] eqn:E2; [|discriminate].
    destruct (eqTy t1 t2) eqn:E; [|discriminate]. apply eqTy_eq in E as <-.
    destruct (run e1) as [q1|]; [|discriminate].
    destruct (run e2) as [q2|]; [|discriminate]. destruct Hw as [W1 W2].
    destruct (IHe1 t1 q1 W1 eq_refl eq_refl) as (a & -> & Ha).
    destruct (IHe2 t1 q2 W2 eq_refl eq_refl) as (b & -> & Hb).
    eapply lowerBin_ok; eauto. eapply typeOf_ok; eauto.
  - cbn in Ht, Hr. cbn [meaning]. destruct (typeOf e) as [t1|] eqn:E; [|discriminate].
    injection Ht as <-. destruct (run e) as [q|]; [|discriminate]. injection Hr as <-.
    destruct Hw as [W1 W2].
    destruct (IHe t1 q W2 eq_refl eq_refl) as (a & -> & Ha).
    eexists; split; [reflexivity|]. apply lowerCast_ok; auto. eapply typeOf_ok; eauto.
Qed.

Lemma readElem_pat : forall t p m, tyOK t -> holdsPat t p m -> readElem t p = m.
Proof.
  intros [|[] w] p m Ht [I ->]; cbn [readElem bitsOfTy].
  - apply pat_bool; auto.
  - apply sint_pat; auto.
  - apply pat_small. exact I.
Qed.
