(** C37: folding integer constants gives what the compiled operators would
    compute. *)
From Coq Require Import ZArith List Bool Lia.
From Verif Require Import FoldSpec FoldModel FoldProofs FoldChain.
Import ListNotations.
Open Scope Z_scope.

Notation i8 := (TInt true 8).
Notation i32 := (TInt true 32).
Notation i64t := (TInt true 64).
Notation u8 := (TInt false 8).

(** Folding an expression of any depth gives its value in ONNX element
    arithmetic, when nothing that overflowed its element type reaches an
    operator that looks at magnitudes. *)
Theorem C37_fold_meaning : forall e c m,
  wellFormed e -> overflowSafe e ->
  folded e = Some c -> meaning e = Some m -> c = m.
Proof.
  intros e c m Hw Hs Hf Hm. unfold folded in Hf.
  destruct (typeOf e) as [t|] eqn:Ht; [|discriminate].
  destruct (foldWide e) as [w|] eqn:Hfw; [|discriminate]. injection Hf as <-.
  destruct (meaning_unbounded e t m Hw Hs Ht Hm) as (v & Hu & ->).
  pose proof (fold_tracks e t v w Hw Hs Ht Hu Hfw) as [R E].
  pose proof (typeOf_ok e t Hw Ht) as Hok. rewrite narrow_wrap by auto.
  destruct t as [|s wd]; [congruence|]. apply wrap_resp.
  cbn in Hok. apply widthOK_range in Hok. apply (eqm_le wd 64); auto. lia.
Qed.

(** The code generated for the expression computes its value. *)
Theorem C37_lowering : forall e r,
  wellFormed e -> computed e = Some r -> meaning e = Some r.
Proof.
  intros e r Hw Hc. unfold computed in Hc.
  destruct (typeOf e) as [t|] eqn:Ht; [|discriminate].
  destruct (run e) as [p|] eqn:Hr; [|discriminate]. injection Hc as <-.
  destruct (run_meaning e t p Hw Ht Hr) as (m & -> & Hp). f_equal. symmetry.
  apply readElem_pat; auto. eapply typeOf_ok; eauto.
Qed.

Lemma pat_min : forall w a, widthOK w -> inRange (TInt true w) a ->
  (pat w a =? 2 ^ (w - 1)) = (a =? - 2 ^ (w - 1)).
Proof.
  intros w a Hw Ha. pose proof (widthOK_range w Hw).
  pose proof (half_pow w ltac:(lia)). pose proof (pow2_pos (w - 1) ltac:(lia)).
  replace (2 ^ (w - 1)) with (pat w (- 2 ^ (w - 1))) at 1.
  - apply (pat_inj true); auto. cbn [inRange]. lia.
  - unfold pat. rewrite <- (Z_mod_plus_full _ 1), Z.mod_small by lia. lia.
Qed.
Lemma pat_m1 : forall w a, widthOK w -> inRange (TInt true w) a ->
  (pat w a =? 2 ^ w - 1) = (a =? -1).
Proof.
  intros w a Hw Ha. pose proof (widthOK_range w Hw).
  pose proof (half_pow w ltac:(lia)). pose proof (pow2_pos (w - 1) ltac:(lia)).
  replace (2 ^ w - 1) with (pat w (-1)) at 1.
  - apply (pat_inj true); auto. cbn [inRange]. lia.
  - unfold pat. rewrite <- (Z_mod_plus_full _ 1), Z.mod_small by lia. lia.
Qed.

(** ... and it does compute a value whenever the operators define one. *)
Theorem C37_lowering_defined : forall e m,
  wellFormed e -> runnable e -> typeOf e <> None -> meaning e = Some m ->
  computed e = Some m.
Proof.
  assert (D : forall e t m, wellFormed e -> runnable e -> typeOf e = Some t ->
     meaning e = Some m -> exists p, run e = Some p).
  { induction e; intros t0 m Hw Hr Ht Hm; cbn in Hw.
    - eexists; reflexivity.
    - cbn in Hr, Ht, Hm. cbn [run].
      destruct (typeOf e) as [t1|] eqn:E; [|discriminate].
      destruct (meaning e) as [a|] eqn:Ma; [|discriminate].
      destruct Hr as [R1 R2]. destruct (IHe t1 a Hw R1 eq_refl eq_refl) as [p ->].
      destruct o, t1 as [|[] w]; cbn in Ht |- *; try discriminate; eauto;
        exfalso; exact (R2 w eq_refl).
    - cbn in Hr, Ht, Hm. cbn [run].
      destruct (typeOf e1) as [t1|] eqn:E1; [|discriminate].
      destruct (typeOf e2) as [t2|] eqn:E2; [|discriminate].
      destruct (eqTy t1 t2) eqn:E; [|discriminate]. apply eqTy_eq in E as <-.
      destruct (meaning e1) as [a|] eqn:Ma; [|discriminate].
      destruct (meaning e2) as [b|] eqn:Mb; [|discriminate].
      destruct Hw as [W1 W2]. destruct Hr as (R1 & R2 & R3 & R4).
      destruct (IHe1 t1 a W1 R1 eq_refl eq_refl) as [p Hp].
      destruct (IHe2 t1 b W2 R2 eq_refl eq_refl) as [q Hq]. rewrite Hp, Hq.
      destruct t1 as [|[] w];
        [ destruct o; cbn in Ht |- *; try discriminate; eauto
        | | exfalso; exact (R3 w eq_refl) ].
      pose proof (typeOf_ok e1 _ W1 E1) as Hok. cbn in Hok.
      destruct (run_meaning e1 _ p W1 E1 Hp) as (a' & Ha' & Ia & ->).
      destruct (run_meaning e2 _ q W2 E2 Hq) as (b' & Hb' & Ib & ->).
      rewrite Ma in Ha'. injection Ha' as <-. rewrite Mb in Hb'. injection Hb' as <-.
      unfold elemBin in Hm. rewrite Ht in Hm.
      assert (T : (o = Div \/ o = Mod) -> b <> 0 ->
                  (pat w b =? 0) = false /\
                  (pat w a =? 2 ^ (w - 1)) && (pat w b =? 2 ^ w - 1) = false).
      { intros Ho Hb. rewrite (pat_eq0 true w b) by auto.
        rewrite pat_min, pat_m1 by auto. split; [apply Z.eqb_neq; auto|].
        destruct (Z.eqb_spec a (- 2 ^ (w - 1))); [|reflexivity].
        destruct (Z.eqb_spec b (-1)); [|reflexivity].
        exfalso. apply (R4 Ho w eq_refl). split; congruence. }
      destruct o; cbn in Ht; try discriminate;
        try (cbn [lowerBin bitsOfTy]; eexists; reflexivity).
      + cbn [lowerBin bitsOfTy idealBin] in *. unfold divsi.
        destruct (Z.eqb_spec b 0) as [|Hb]; [destruct (tyBin Div (TInt true w)); discriminate|].
        destruct (T (or_introl eq_refl) Hb) as [-> ->]. eauto.
      + cbn [lowerBin bitsOfTy idealBin] in *. unfold lowerMod, remsi.
        destruct (Z.eqb_spec b 0) as [|Hb]; [destruct (tyBin Mod (TInt true w)); discriminate|].
        destruct (T (or_intror eq_refl) Hb) as [-> ->]. eauto.
    - cbn in Hr, Ht, Hm. cbn [run].
      destruct (typeOf e) as [t1|] eqn:E; [|discriminate].
      destruct (meaning e) as [a|] eqn:Ma; [|discriminate].
      destruct Hw as [W1 W2].
      destruct (IHe t1 a W2 Hr eq_refl eq_refl) as [p ->]. eauto. }
  intros e m Hw Hr Ht Hm. destruct (typeOf e) as [t|] eqn:E; [|congruence].
  destruct (D e t m Hw Hr E Hm) as [p Hp].
  assert (Hc : computed e = Some (readElem t p)) by (unfold computed; rewrite E, Hp; reflexivity).
  pose proof (C37_lowering e _ Hw Hc). congruence.
Qed.

(** Folding and running agree. *)
Theorem C37_fold_run : forall e c r,
  wellFormed e -> overflowSafe e ->
  folded e = Some c -> computed e = Some r -> c = r.
Proof.
  intros e c r Hw Hs Hf Hc. eapply C37_fold_meaning; eauto.
  apply C37_lowering; auto.
Qed.

(** Chains of Add, Sub, Mul, Neg and bitwise operators are right whether or
    not they overflow. *)
Theorem C37_modular_chain : forall e c r,
  wellFormed e -> modular e -> folded e = Some c -> computed e = Some r -> c = r.
Proof.
  intros e c r Hw Hm. apply C37_fold_run; auto. clear -Hm.
  induction e; cbn in *; auto.
  - destruct Hm as [H1 H2]. split; [auto|]. split; [auto|].
    intros ->. discriminate.
  - tauto.
  - tauto.
Qed.

(** A single operator on two constants. *)
Theorem C37_single : forall o t a b c m,
  tyOK t -> inRange t a -> inRange t b ->
  folded (Bin o (Lit t a) (Lit t b)) = Some c -> elemBin o t a b = Some m -> c = m.
Proof.
  intros o t a b c m Ht Ha Hb Hf Hm.
  apply (C37_fold_meaning (Bin o (Lit t a) (Lit t b))); auto; cbn; auto.
Qed.

(** ... and on 8-, 16- and 32-bit types the fold always goes through, except
    for Mod by zero and Mod on an unsigned type. *)
Theorem C37_single_defined : forall o s w a b m,
  widthOK w -> w <= 32 -> inRange (TInt s w) a -> inRange (TInt s w) b ->
  (o = Mod -> s = true) -> elemBin o (TInt s w) a b = Some m ->
  folded (Bin o (Lit (TInt s w) a) (Lit (TInt s w) b)) = Some m.
Proof.
  intros o s w a b m Hw H32 Ha Hb Hu Hm.
  destruct (folded (Bin o (Lit (TInt s w) a) (Lit (TInt s w) b))) as [c|] eqn:E.
  { f_equal. exact (C37_single o (TInt s w) a b c m Hw Ha Hb E Hm). }
  exfalso. unfold folded in E. cbn [typeOf foldWide] in E. rewrite eqTy_refl in E.
  assert (B : - 2 ^ 32 < a < 2 ^ 32 /\ - 2 ^ 32 < b < 2 ^ 32).
  { pose proof (widthOK_range w Hw).
    pose proof (Z.pow_le_mono_r 2 w 32 ltac:(lia) ltac:(lia)).
    pose proof (Z.pow_le_mono_r 2 (w - 1) 31 ltac:(lia) ltac:(lia)).
    destruct s; cbn [inRange] in *; lia. }
  assert (S : s = true -> Z.abs a <= 2147483648 /\ Z.abs b <= 2147483648).
  { intros ->. pose proof (widthOK_range w Hw).
    pose proof (Z.pow_le_mono_r 2 (w - 1) 31 ltac:(lia) ltac:(lia)).
    cbn [inRange] in *. lia. }
  assert (I : forall v, -9223372036854775808 < v < 9223372036854775808 -> i64 v = Some v).
  { intros v Hv. unfold i64, min64, max64. change (2 ^ 63) with 9223372036854775808.
    change (- (9223372036854775808)) with (-9223372036854775808).
    replace (-9223372036854775808 <=? v) with true by (symmetry; apply Z.leb_le; lia).
    replace (v <=? 9223372036854775808 - 1) with true by (symmetry; apply Z.leb_le; lia). reflexivity. }
  change (2 ^ 32) with 4294967296 in B. destruct B as [Ba Bb].
  unfold elemBin in Hm.
  destruct o, s; cbn [tyBin idealBin foldBin] in *; try discriminate;
    try (rewrite I in E; [discriminate|]); try lia; try nia.
  - destruct (Z.eqb_spec b 0); [discriminate|]. rewrite I in E; [discriminate|].
    pose proof (Z.quot_abs a b n). 
    assert (Z.abs (Z.quot a b) <= Z.abs a).
    { rewrite <- H. apply Z.quot_le_upper_bound; nia. }
    lia.
  - destruct (Z.eqb_spec b 0); discriminate.
  - destruct (Z.eqb_spec b 0); [discriminate|].
    replace (a =? min64) with false in E
      by (symmetry; apply Z.eqb_neq; unfold min64; change (2 ^ 63) with 9223372036854775808; lia).
    cbn [andb] in E. pose proof (Z.rem_bound_abs a b n).
    destruct (negb (Z.rem a b =? 0) && xorb (a <? 0) (b <? 0)); [|discriminate].
    rewrite I in E; [discriminate|lia].
  - discriminate (Hu eq_refl).
Qed.

(** Expressions over 64-bit integers and booleans: every fold that returns is
    right, overflow or not (Abs aside). *)
Lemma fold64 : forall e t m w,
  wellFormed e -> only64 e -> typeOf e = Some t -> meaning e = Some m ->
  foldWide e = Some w ->
  w = m /\ inRange t m /\ match t with TBool => True | TInt _ w => w = 64 end.
Proof.
  induction e; intros t0 m w Hw Ho Ht Hm Hf; cbn in Hw.
  - cbn in *. injection Ht as <-. injection Hm as <-. injection Hf as <-. tauto.
  - cbn in Ho, Ht, Hm, Hf. destruct (typeOf e) as [t1|] eqn:E; [|discriminate].
    destruct (meaning e) as [a|]; [|discriminate].
    destruct (foldWide e) as [a'|]; [|discriminate].
    destruct Ho as [Ho Hab].
    destruct (IHe t1 a a' Hw Ho eq_refl eq_refl eq_refl) as (-> & Ia & H64).
    pose proof (typeOf_ok e t1 Hw E) as Hok.
    assert (T : tracks t1 a a).
    { split; [apply inRange_Wide; auto|]. destruct t1; [reflexivity|apply eqm_refl]. }
    pose proof (foldUn_tracks o t1 t0 a a w Hok Ht T (or_intror Ia)
                  (fun H => False_ind _ (Hab H)) Hf) as [R EQ].
    unfold elemUn in Hm. rewrite Ht in Hm. injection Hm as <-.
    pose proof (tyUn_ok o t1 t0 Hok Ht) as Hok0.
    assert (H0 : match t0 with TBool => True | TInt _ w => w = 64 end).
    { destruct o, t1 as [|s1 w1]; cbn in Ht; try discriminate; injection Ht as <-; auto. }
    split; [|split; [apply wrap_range; auto|exact H0]].
    destruct t0 as [|s wd].
    + subst w. symmetry. apply wrap_id; [exact Logic.I|]. exact R.
    + subst wd. apply (inRange_eqm s 64); auto using W64.
      * apply (wrap_range (TInt s 64)); auto.
      * eapply eqm_trans; [exact EQ|]. apply eqm_sym, wrap_eqm, W64.
  - cbn in Ho, Ht, Hm, Hf.
    destruct (typeOf e1) as [t1|] eqn:E1; [|discriminate].
    destruct (typeOf e2) as [t2|] eqn:E2; [|discriminate].
    destruct (eqTy t1 t2) eqn:E; [|discriminate]. apply eqTy_eq in E as <-.
    destruct (meaning e1) as [a|]; [|discriminate].
    destruct (meaning e2) as [b|]; [|discriminate].
    destruct (foldWide e1) as [a'|]; [|discriminate].
    destruct (foldWide e2) as [b'|]; [|discriminate].
    destruct Hw as [W1 W2]. destruct Ho as [O1 O2].
    destruct (IHe1 t1 a a' W1 O1 eq_refl eq_refl eq_refl) as (-> & Ia & H64).
    destruct (IHe2 t1 b b' W2 O2 eq_refl eq_refl eq_refl) as (-> & Ib & _).
    pose proof (typeOf_ok e1 t1 W1 E1) as Hok.
    assert (T : forall x, inRange t1 x -> tracks t1 x x).
    { split; [apply inRange_Wide; auto|]. destruct t1; [reflexivity|apply eqm_refl]. }
    unfold elemBin in Hm. rewrite Ht in Hm.
    destruct (idealBin o a b) as [v|] eqn:Hi; [|discriminate]. injection Hm as <-.
    pose proof (foldBin_tracks o t1 t0 a b a b v w Hok Ht (T a Ia) (T b Ib)
                  (or_intror (conj Ia Ib)) Hi Hf) as [R EQ].
    pose proof (tyBin_ok o t1 t0 Hok Ht) as Hok0.
    assert (H0 : match t0 with TBool => True | TInt _ w => w = 64 end).
    { destruct o, t1 as [|s1 w1]; cbn in Ht; try discriminate; injection Ht as <-; auto. }
    split; [|split; [apply wrap_range; auto|exact H0]].
    destruct t0 as [|s wd].
    + subst w. symmetry. apply wrap_id; [exact Logic.I|]. exact R.
    + subst wd. apply (inRange_eqm s 64); auto using W64.
      * apply (wrap_range (TInt s 64)); auto.
      * eapply eqm_trans; [exact EQ|]. apply eqm_sym, wrap_eqm, W64.
  - cbn in Ho, Ht, Hm, Hf. destruct (typeOf e) as [t1|] eqn:E; [|discriminate].
    injection Ht as <-. destruct (meaning e) as [a|]; [|discriminate]. injection Hm as <-.
    destruct (foldWide e) as [a'|]; [|discriminate]. injection Hf as <-.
    destruct Hw as [W1 W2]. destruct Ho as [O1 O2].
    destruct (IHe t1 a a' W2 O2 eq_refl eq_refl eq_refl) as (-> & Ia & H64).
    pose proof (typeOf_ok e t1 W2 E) as Hok.
    assert (T : tracks t1 a a).
    { split; [apply inRange_Wide; auto|]. destruct t1; [reflexivity|apply eqm_refl]. }
    pose proof (foldCast_tracks t1 t a a Hok W1 T (or_intror Ia)) as [R EQ].
    split; [|split; [apply wrap_range; auto|exact O1]].
    destruct t as [|s wd]; [exact EQ|]. subst wd.
    apply (inRange_eqm s 64); auto using W64.
    * apply (wrap_range (TInt s 64)); auto.
    * eapply eqm_trans; [exact EQ|]. apply eqm_sym, wrap_eqm, W64.
Qed.

Theorem C37_sixty_four : forall e c r,
  wellFormed e -> only64 e -> folded e = Some c -> computed e = Some r -> c = r.
Proof.
  intros e c r Hw Ho Hf Hc. pose proof (C37_lowering e r Hw Hc) as Hm.
  unfold folded in Hf. destruct (typeOf e) as [t|] eqn:Ht; [|discriminate].
  destruct (foldWide e) as [w|] eqn:Hfw; [|discriminate]. injection Hf as <-.
  destruct (fold64 e t r w Hw Ho Ht Hm Hfw) as (-> & I & _).
  pose proof (typeOf_ok e t Hw Ht). rewrite narrow_wrap by auto. apply wrap_id; auto.
Qed.

(** Clip with both bounds, or on an unsigned type with any bounds: the folded
    constant is x clipped to the bounds. *)
Theorem C37_clip : forall s w x lo hi,
  widthOK w -> inRange (TInt s w) x ->
  (forall l, lo = Some l -> inRange (TInt s w) l) ->
  (forall h, hi = Some h -> inRange (TInt s w) h) ->
  (s = false \/ (lo <> None /\ hi <> None)) ->
  folded (clipExpr (TInt s w) x lo hi) = Some (clipped x lo hi).
Proof.
  intros s w x lo hi Hw Hx Hl Hh Hs.
  assert (Il : inRange (TInt s w) (clipMin (TInt s w) lo)).
  { destruct lo; cbn [clipMin]; auto. apply (narrow_range (TInt s w)); auto. }
  assert (Ih : inRange (TInt s w) (clipMax (TInt s w) hi)).
  { destruct hi; cbn [clipMax]; auto. apply (narrow_range (TInt s w)); auto. }
  unfold folded, clipExpr. cbn [typeOf foldWide foldBin].
  rewrite !eqTy_refl. cbn [tyBin]. rewrite eqTy_refl. cbn [foldBin].
  rewrite if_max, if_min. f_equal.
  rewrite narrow_wrap by exact Hw.
  assert (V : Z.min (Z.max x (clipMin (TInt s w) lo)) (clipMax (TInt s w) hi) = clipped x lo hi).
  { unfold clipped. destruct lo as [l|], hi as [h|]; cbn [clipMin clipMax]; auto.
    - destruct Hs as [->|[_ N]]; [|congruence].
      pose proof (Hl l eq_refl) as L. cbn [narrow inRange bitsOfTy] in *.
      pose proof (widthOK_range w Hw). pose proof (pow2_pos w ltac:(lia)).
      rewrite Z.mod_small by lia. lia.
    - destruct Hs as [->|[N _]]; [|congruence].
      cbn [narrow inRange] in *. rewrite Z.mod_0_l by lia. lia.
    - destruct Hs as [->|[N _]]; [|congruence].
      cbn [narrow inRange bitsOfTy] in *.
      pose proof (widthOK_range w Hw). pose proof (pow2_pos w ltac:(lia)).
      rewrite Z.mod_0_l by lia. rewrite Z.mod_small by lia. lia. }
  rewrite V. apply wrap_id; [exact Hw|]. rewrite <- V.
  destruct s; cbn [inRange] in *; lia.
Qed.

(** The generated code for Clip, with any bounds given or missing. *)
Theorem C37_clip_lowering : forall w x lo hi,
  widthOK w -> inRange (TInt true w) x ->
  (forall l, lo = Some l -> inRange (TInt true w) l) ->
  (forall h, hi = Some h -> inRange (TInt true w) h) ->
  runClip (TInt true w) x lo hi = Some (clipped x lo hi).
Proof.
  intros w x lo hi Hw Hx Hl Hh. unfold runClip, clipped. f_equal.
  assert (L : exists y, match lo with Some l => if slt w (pat w l) (pat w x) then pat w x else pat w l
                   | None => pat w x end = pat w y
              /\ y = match lo with Some l => Z.max x l | None => x end
              /\ inRange (TInt true w) y).
  { destruct lo as [l|].
    - specialize (Hl l eq_refl). exists (Z.max x l). rewrite slt_pat by auto.
      split; [|split; [reflexivity|]].
      + destruct (Z.ltb_spec l x); f_equal; lia.
      + cbn [inRange] in *. lia.
    - exists x. auto. }
  destruct L as (y & -> & <- & Iy).
  destruct hi as [h|].
  - specialize (Hh h eq_refl). rewrite slt_pat by auto.
    destruct (Z.ltb_spec h y); rewrite sint_pat by auto; lia.
  - apply sint_pat; auto.
Qed.

(** *** What does not hold *)

(** An overflow hidden inside a chain reaches a division, a comparison or a
    widening cast: 8-bit (100 + 100) / 2 folds to 100, the program computes
    -28; an int32 300 cast to int8 and back folds to 300, the program
    computes 44. *)
Theorem C37_overflow_refuted :
  exists e1 e2 e3 : expr,
    wellFormed e1 /\ wellFormed e2 /\ wellFormed e3 /\
    (folded e1 = Some 100 /\ computed e1 = Some (-28)) /\
    (folded e2 = Some 300 /\ computed e2 = Some 44) /\
    (folded e3 = Some 1 /\ computed e3 = Some 0).
Proof.
  exists (Bin Div (Bin Add (Lit i8 100) (Lit i8 100)) (Lit i8 2)),
         (Cast i32 (Cast i8 (Lit i32 300))),
         (Cast TBool (Bin Add (Lit i8 (-128)) (Lit i8 (-128)))).
  cbn; unfold widthOK; repeat split; auto 6; lia.
Qed.

(** Abs goes through double: the folded value of a 64-bit constant beyond
    2^53 is rounded. *)
Theorem C37_abs_refuted :
  exists v, inRange i64t v /\
    folded (Un Abs (Lit i64t v)) = Some (2 ^ 53) /\
    computed (Un Abs (Lit i64t v)) = Some (2 ^ 53 + 1).
Proof.
  exists (2 ^ 53 + 1). split; [cbn; lia|].
  split; vm_compute; reflexivity.
Qed.

(** Clip on a signed type with a missing bound folds with 0 as the smallest
    and -1 as the largest value. *)
Theorem C37_clip_refuted :
  (exists x hi, inRange i32 x /\ inRange i32 hi /\
     folded (clipExpr i32 x None (Some hi)) = Some 0 /\
     runClip i32 x None (Some hi) = Some x /\ x = -5) /\
  (exists x lo, inRange i32 x /\ inRange i32 lo /\
     folded (clipExpr i32 x (Some lo) None) = Some (-1) /\
     runClip i32 x (Some lo) None = Some x /\ x = 7).
Proof.
  split; [exists (-5), 10|exists 7, 0]; cbn [inRange]; repeat split;
    try lia; vm_compute; reflexivity.
Qed.

(** Mod: the compiler's own division traps on a zero divisor and on the
    smallest int64 by -1, whose remainder is 0; unsigned Mod reaches
    llvm_unreachable; the fmod attribute is ignored by folding and by the
    generated code. *)
Theorem C37_mod_refuted :
  (forall a, folded (Bin Mod (Lit i32 a) (Lit i32 0)) = None) /\
  (folded (Bin Mod (Lit i64t (- 2 ^ 63)) (Lit i64t (-1))) = None /\
   elemBin Mod i64t (- 2 ^ 63) (-1) = Some 0) /\
  (folded (Bin Mod (Lit u8 7) (Lit u8 3)) = None /\ elemBin Mod u8 7 3 = Some 1) /\
  (folded (Bin Mod (Lit i32 (-7)) (Lit i32 3)) = Some 2 /\
   computed (Bin Mod (Lit i32 (-7)) (Lit i32 3)) = Some 2 /\ Z.rem (-7) 3 = -1).
Proof. repeat split. Qed.

(** 64-bit overflow while folding is undefined behaviour in the compiler,
    while the generated code wraps around. *)
Theorem C37_int64_overflow_refuted :
  exists a b, inRange i64t a /\ inRange i64t b /\
    folded (Bin Add (Lit i64t a) (Lit i64t b)) = None /\
    computed (Bin Add (Lit i64t a) (Lit i64t b)) = Some (- 2 ^ 63).
Proof.
  exists (2 ^ 63 - 1), 1. cbn [inRange]. repeat split; try lia; vm_compute; reflexivity.
Qed.

(** *** Non-vacuity *)

Example C37_fold_run_example :
  let e := Bin Div (Bin Add (Bin Mul (Lit i8 (-7)) (Lit i8 9)) (Lit i8 20)) (Lit i8 3) in
  wellFormed e /\ overflowSafe e /\ folded e = Some (-14) /\ computed e = Some (-14).
Proof.
  cbn; unfold widthOK, fits; cbn. repeat split; auto; lia.
Qed.

Example C37_cast_example :
  let e := Cast u8 (Un Neg (Cast i32 (Lit i8 (-100)))) in
  wellFormed e /\ overflowSafe e /\ folded e = Some 100 /\ computed e = Some 100.
Proof.
  cbn; unfold widthOK, fits; cbn. repeat split; auto 6; try lia; discriminate.
Qed.

Example C37_modular_example :
  let e := Bin Sub (Bin Mul (Lit i8 100) (Lit i8 100)) (Un BitNot (Lit i8 77)) in
  wellFormed e /\ modular e /\ folded e = Some 94 /\ computed e = Some 94.
Proof. cbn; unfold widthOK. repeat split; auto; lia. Qed.

Example C37_sixty_four_example :
  let u := TInt false 64 in
  let e := Cast i64t (Bin Div (Bin Add (Lit u (2 ^ 63)) (Lit u (2 ^ 63 + 9))) (Lit u 2)) in
  wellFormed e /\ only64 e /\ folded e = Some 4 /\ meaning e = Some 4.
Proof. cbn -[Z.pow]. unfold widthOK. repeat split; auto; try lia; vm_compute; reflexivity. Qed.

Print Assumptions C37_fold_meaning.
Print Assumptions C37_fold_run.
Print Assumptions C37_lowering.
Print Assumptions C37_lowering_defined.
Print Assumptions C37_modular_chain.
Print Assumptions C37_single.
Print Assumptions C37_single_defined.
Print Assumptions C37_sixty_four.
Print Assumptions C37_clip.
Print Assumptions C37_clip_lowering.

Example C37_lowering_defined_example :
  let e := Bin Mod (Cast i32 (Lit u8 200)) (Un Neg (Lit i32 7)) in
  wellFormed e /\ runnable e /\ meaning e = Some (-3) /\ computed e = Some (-3).
Proof.
  cbn. unfold widthOK. repeat split; auto; try lia; try discriminate.
  intros _ w E [H _]. injection E as <-. vm_compute in H. discriminate.
Qed.
