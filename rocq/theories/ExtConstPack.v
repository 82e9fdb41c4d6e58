(** Lemmas on packing constants into a file and on the emitted constructor. *)
From Coq Require Import String List ZArith Bool Lia Permutation.
From Verif Require Import Util ExtConstModel ExtConstSpec ExtConstProofs.
Import ListNotations.
Open Scope Z_scope.
Open Scope list_scope.

Lemma padSize_nonneg t a : 0 <= t -> 0 <= padSize t a.
Proof.
  intros Ht. unfold padSize. destruct (Z.ltb_spec 0 a); cbn; [|lia].
  destruct (Z.eqb_spec (t mod a) 0); cbn; [lia|].
  pose proof (Z.div_mod t a ltac:(lia)). pose proof (Z.mod_pos_bound t a ltac:(lia)). nia.
Qed.
Lemma padSize_aligned t a : 0 < a -> (t + padSize t a) mod a = 0.
Proof.
  intros Ha. unfold padSize. destruct (Z.ltb_spec 0 a); cbn; [|lia].
  destruct (Z.eqb_spec (t mod a) 0); cbn.
  - now rewrite Z.add_0_r.
  - replace (t + ((t / a + 1) * a - t)) with ((t / a + 1) * a) by lia. apply Z.mod_mul; lia.
Qed.

Definition lenZ {A} (l : list A) : Z := Z.of_nat (length l).

(** The layout of the entries written so far. *)
Definition laidOut (base : nat) (out : list Z) (total : Z) (offs : list (konst * Z)) : Prop :=
  forall k o, In (k, o) offs ->
    0 <= o /\ o + lenZ (kRaw k) <= total /\ (0 < alignOf k -> o mod alignOf k = 0)
    /\ firstn (length (kRaw k)) (skipn (base + Z.to_nat o) out) = kRaw k.
Definition separated (offs : list (konst * Z)) : Prop :=
  forall i j x y, (i < j)%nat -> nth_error offs i = Some x -> nth_error offs j = Some y ->
    snd x + lenZ (kRaw (fst x)) <= snd y.

Lemma firstn_skipn_app {A} (l m : list A) n a : (a + n <= length l)%nat ->
  firstn n (skipn a (l ++ m)) = firstn n (skipn a l).
Proof.
  intros H. rewrite skipn_app, firstn_app, skipn_length.
  replace (n - (length l - a))%nat with 0%nat by lia. now rewrite firstn_O, app_nil_r.
Qed.

Lemma write_fold ks : forall base total out offs total' out' offs',
  0 <= total -> Z.of_nat (length out) = Z.of_nat base + total ->
  laidOut base out total offs -> separated offs ->
  fold_left (fun st k => writeConst k st) ks (total, out, offs) = (total', out', offs') ->
  0 <= total' /\ Z.of_nat (length out') = Z.of_nat base + total' /\ laidOut base out' total' offs'
  /\ separated offs' /\ map fst offs' = map fst offs ++ ks /\ firstn base out' = firstn base out.
Proof.
  induction ks as [|k ks IH]; intros base total out offs total' out' offs' Ht Hlen Hl Hsep E; cbn [fold_left] in E.
  - injection E as <- <- <-. rewrite app_nil_r. auto 10.
  - unfold writeConst at 2 in E.
    pose proof (padSize_nonneg total (alignOf k) Ht) as Hp.
    set (pads := padSize total (alignOf k)) in *.
    assert (Hlo : length ((out ++ repeat 0 (Z.to_nat pads)) ++ kRaw k) = (base + Z.to_nat (total + pads + lenZ (kRaw k)))%nat).
    { rewrite !app_length, repeat_length. unfold lenZ. lia. }
    apply (IH base) in E.
    + destruct E as (H1 & H2 & H3 & H4 & H5 & H6).
      split; [auto|]. split; [auto|]. split; [auto|]. split; [auto|]. split.
      * rewrite H5, map_app. cbn. now rewrite <- app_assoc.
      * rewrite H6. rewrite <- app_assoc, firstn_app.
        replace (base - length out)%nat with 0%nat by lia. now rewrite firstn_O, app_nil_r.
    + lia.
    + rewrite Hlo. unfold lenZ. lia.
    + intros k' o' Hin. apply in_app_iff in Hin. destruct Hin as [Hin|[Hin|[]]].
      * destruct (Hl k' o' Hin) as (A1 & A2 & A3 & A4). split; [auto|]. split; [unfold lenZ in *; lia|]. split; [auto|].
        rewrite <- app_assoc, firstn_skipn_app; auto. unfold lenZ in *. lia.
      * injection Hin as <- <-. split; [lia|]. split; [unfold lenZ; lia|]. split.
        -- intros Ha. apply padSize_aligned; auto.
        -- replace (base + Z.to_nat (total + pads))%nat with (length (out ++ repeat 0 (Z.to_nat pads)))
             by (rewrite app_length, repeat_length; lia).
           rewrite skipn_app, Nat.sub_diag, skipn_all. cbn. now rewrite firstn_all.
    + intros i j x y Hij Hi Hj.
      assert (Hjl : (j < length (offs ++ [(k, (total + pads)%Z)]))%nat) by (apply nth_error_Some; congruence).
      rewrite app_length in Hjl; cbn in Hjl.
      rewrite nth_error_app1 in Hi by lia.
      destruct (Nat.eq_dec j (length offs)) as [->|].
      * rewrite nth_error_snoc in Hj. injection Hj as <-. cbn. apply nth_error_In in Hi. destruct x as [kx ox].
        destruct (Hl kx ox Hi) as (_ & A & _). cbn. lia.
      * rewrite nth_error_app1 in Hj by lia. exact (Hsep i j x y Hij Hi Hj).
Qed.

Lemma extract_spec single thr module sorted old p :
  extractConstantsToFile single thr module sorted old = Some p ->
  0 < pSize p /\ Z.of_nat (length (pFile p)) = lenZ old + pSize p /\ laidOut (length old) (pFile p) (pSize p) (pOffsets p)
  /\ separated (pOffsets p) /\ map fst (pOffsets p) = rev sorted
  /\ firstn (length old) (pFile p) = old
  /\ thr < sumZ (map (fun k => Z.of_nat (length (kRaw k))) (filter (ofInterest single) module)).
Proof.
  unfold extractConstantsToFile. destruct (Z.leb_spec (sumZ (map (fun k => Z.of_nat (length (kRaw k))) (filter (ofInterest single) module))) thr) as [|Hthr]; [discriminate|].
  destruct (fold_left _ _ _) as [[size out] offs] eqn:E.
  destruct (Z.eqb_spec size 0) as [|Hne]; [discriminate|]. intros H; injection H as <-. cbn [pFile pSize pOffsets].
  apply (write_fold (rev sorted) (length old)) in E.
  - destruct E as (H1 & H2 & H3 & H4 & H5 & H6).
    split; [lia|]. split; [auto|]. split; [auto|]. split; [auto|]. split; [auto|]. split; [|auto].
    rewrite H6. apply firstn_all.
  - lia.
  - lia.
  - intros k o [].
  - intros i j x y _ Hi. destruct i; discriminate.
Qed.

(** ** The constructor *)
Lemma getAddrs_heap offs : forall g s, heap (getAddrs offs g s) = heap s.
Proof.
  induction offs as [|o offs IH]; intros g s; cbn; auto. rewrite IH. 
  destruct (slot s g); auto.
Qed.
Lemma getAddrs_low offs : forall g s c, (c < g)%nat -> slot (getAddrs offs g s) c = slot s c.
Proof.
  induction offs as [|o offs IH]; intros g s c Hc; cbn; auto. rewrite IH by lia.
  destruct (slot s g); auto. apply slot_other; lia.
Qed.
Lemma getAddrs_slot offs : forall g s i o, (0 < g)%nat -> nth_error offs i = Some o -> slot s (g + i) = PNull ->
  slot (getAddrs offs g s) (g + i) = ptrAdd (slot s 0) o.
Proof.
  induction offs as [|o offs IH]; intros g s i o' Hg Hi Hn; [destruct i; discriminate|].
  destruct i as [|i]; cbn [getAddrs].
  - injection Hi as <-. rewrite Nat.add_0_r in *. rewrite getAddrs_low by lia.
    cbn. rewrite Hn. apply slot_same.
  - assert (E0 : slot (omGetExternalConstantAddr s (Some g) (Some 0%nat) o) 0 = slot s 0).
    { cbn. destruct (slot s g); auto. apply slot_other; lia. }
    assert (E1 : slot (omGetExternalConstantAddr s (Some g) (Some 0%nat) o) (S g + i) = PNull).
    { replace (S g + i)%nat with (g + S i)%nat by lia. cbn. destruct (slot s g); auto. rewrite slot_other by lia. auto. }
    replace (g + S i)%nat with (S g + i)%nat by lia. rewrite (IH (S g) _ i o'); auto. now rewrite E0.
Qed.
