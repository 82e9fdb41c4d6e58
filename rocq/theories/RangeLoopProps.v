(** Theorems C67: the loop emitted for Range. ONNX: the output has
    max(ceil((limit - start) / delta), 0) elements, and element [i] is start + i * delta. *)
From Coq Require Import List ZArith Lia Bool Arith.
From Flocq Require Import Core BinarySingleNaN.
From Verif Require Import Util TensorSpec TensorLemmas LoopModel LoopProofs RangeLoopModel CompressProofs.
Import ListNotations.
Open Scope Z_scope.

(** [start] with [delta] added [k] times. *)
Fixpoint plusTimes {T} (add : T -> T -> T) (start delta : T) (k : nat) : T :=
  match k with O => start | S k' => add (plusTimes add start delta k') delta end.

Lemma fill_ok {T} (add : T -> T -> T) start delta n :
  exists out, rangeFill add start delta n = Some out /\ mShape out = [n] /\ forall k, 0 <= k < n -> mAt out [k] = Some (plusTimes add start delta (Z.to_nat k)).
Proof.
  unfold rangeFill. rewrite store_ok by (apply valid_cons; split; [lia|constructor]). cbn [obind].
  set (acc0 := Mem _ _). match goal with |- context [iterate [n] ?f _] => set (body := f) end. unfold iterate. rewrite indices_one, foldM_map. unfold zrange.
  assert (G : forall p, (p <= Z.to_nat n)%nat -> exists acc m, foldM (fun k st => body [k] st) (zseq 0 p) (acc0, alloc [n]) = Some (acc, m) /\
    mShape acc = [1] /\ mAt acc [0] = Some (plusTimes add start delta p) /\ mShape m = [n] /\
    forall k, 0 <= k < Z.of_nat p -> mAt m [k] = Some (plusTimes add start delta (Z.to_nat k))).
  { induction p as [|p IH]; intros HP.
    - exists acc0, (alloc [n]). split; [reflexivity|]. split; [reflexivity|]. split; [reflexivity|]. split; [reflexivity|]. intros; lia.
    - destruct IH as (acc & m & F & A1 & A2 & M1 & M2); [lia|].
      assert (zseq 0 (S p) = zseq 0 p ++ zseq (0 + Z.of_nat p) 1) as -> by (rewrite <- zseq_app; f_equal; lia). rewrite foldM_app, F. cbn [obind zseq foldM].
      unfold body at 1. cbn [fst snd]. assert (V0 : valid [1] [0]) by (apply valid_cons; split; [lia|constructor]).
      rewrite load_ok by (rewrite A1; exact V0). rewrite A2. cbn [obind].
      rewrite store_ok by (rewrite M1; apply valid_cons; split; [lia|constructor]). cbn [obind]. rewrite store_ok by (rewrite A1; exact V0). cbn [obind].
      eexists _, _. split; [reflexivity|]. cbn [mShape mAt]. split; [auto|]. split; [reflexivity|]. split; [auto|]. intros k K.
      destruct (Z.eq_dec k (Z.of_nat p)) as [->|N].
      + rewrite ieqb_refl. now rewrite Nat2Z.id.
      + rewrite ieqb_neq by (intros Q; injection Q as Q; lia). apply M2. lia. }
  destruct (G (Z.to_nat n) (le_n _)) as (acc & m & F & _ & _ & M1 & M2). rewrite F. cbn [obind snd]. exists m. split; auto. split; auto. intros k K. apply M2. lia.
Qed.

(** The values of a signed integer type of [w] bits. *)
Definition fits (w v : Z) : Prop := - 2 ^ (w - 1) <= v < 2 ^ (w - 1).
Lemma sint_fits w v : 1 <= w -> fits w v -> sint w v = v.
Proof.
  unfold fits, sint. intros W H. assert (E : 2 ^ w = 2 * 2 ^ (w - 1)) by (rewrite <- Z.pow_succ_r by lia; f_equal; lia). rewrite Z.mod_small by lia. lia.
Qed.
Lemma between start limit delta k : delta <> 0 -> 0 <= k < - ((- (limit - start)) / delta) -> (start <= start + k * delta < limit) \/ (limit < start + k * delta <= start).
Proof.
  intros N K. pose proof (Z.div_mod (- (limit - start)) delta N) as E. destruct (Z.lt_trichotomy delta 0) as [D|[D|D]]; [|lia|].
  - pose proof (Z.mod_neg_bound (- (limit - start)) delta D). right. nia.
  - pose proof (Z.mod_pos_bound (- (limit - start)) delta D). left. nia.
Qed.
(** Any representable range with at least zero elements, computed at run time or (for
    constants) at compile time. *)
Theorem C67_integer w isConstant start limit delta : let count := - ((- (limit - start)) / delta) in
  (w = 16 \/ w = 32 \/ w = 64) -> fits w start -> fits w limit -> fits w delta -> delta <> 0 ->
  fits w (limit - start) -> fits w count -> (0 <= count \/ isConstant = true) ->
  exists out, rangeLoopInt w isConstant start limit delta = Some out /\ mShape out = [Z.max count 0] /\
    forall k, 0 <= k < Z.max count 0 -> mAt out [k] = Some (start + k * delta).
Proof.
  intros count W FS FL FD N FR FC HC. unfold rangeLoopInt.
  assert ((w =? 16) || (w =? 32) || (w =? 64) = true) as -> by (destruct W as [->|[->| ->]]; reflexivity).
  assert (W1 : 1 <= w) by lia. rewrite sint_fits by auto. unfold rangeShapeInt, ceildivsi. destruct (Z.eqb_spec delta 0); [lia|]. fold count.
  assert ((if isConstant then Some (Z.max count 0) else (let q := count in if q <? 2 ^ (w - 1) then Some q else None)) = Some (Z.max count 0)) as E.
  { destruct isConstant; auto. cbv zeta. destruct HC as [HC|HC]; [|discriminate]. unfold fits in FC. destruct (Z.ltb_spec count (2 ^ (w - 1))); [|lia]. f_equal. lia. }
  cbv zeta in E |- *. rewrite E. cbn [obind]. clear E.
  destruct (fill_ok (fun a b => sint w (a + b)) start delta (Z.max count 0)) as (out & E & S1 & A). exists out. split; auto. split; auto. intros k K. rewrite A by auto. f_equal.
  assert (G : forall p, Z.of_nat p < Z.max count 0 -> plusTimes (fun a b => sint w (a + b)) start delta p = start + Z.of_nat p * delta).
  { induction p as [|p IH]; intros HP; [cbn; lia|]. cbn [plusTimes]. rewrite IH by lia. replace (start + Z.of_nat p * delta + delta) with (start + Z.of_nat (S p) * delta) by lia.
    apply sint_fits; auto. pose proof (between start limit delta (Z.of_nat (S p)) N). fold count in H. unfold fits in *. lia. }
  rewrite G by lia. f_equal. lia.
Qed.
(** For floating-point numbers each element is its predecessor plus [delta]. *)
Theorem C67_float start limit delta n : ceilToUint64 (div32 (sub32 limit start) delta) = Some n ->
  exists out, rangeLoopFloat start limit delta = Some out /\ mShape out = [n] /\ forall k, 0 <= k < n -> mAt out [k] = Some (plusTimes add32 start delta (Z.to_nat k)).
Proof. intros E. unfold rangeLoopFloat. rewrite E. cbn [obind]. apply fill_ok. Qed.
(** With a limit on the wrong side of [start] the output should be empty. At run time it
    gets a negative dimension. *)
Theorem C67_empty_refuted : exists out, rangeLoopInt 32 false 5 3 1 = Some out /\ mShape out = [-2].
Proof. eexists. split; [vm_compute; reflexivity|]. reflexivity. Qed.
(** When limit - start does not fit the type, the count is wrong: 16-bit integers from
    -32768 to 32767 by 32767. ONNX asks for three elements. *)
Theorem C67_overflow_refuted : exists out, rangeLoopInt 16 false (-32768) 32767 32767 = Some out /\ mShape out = [0] /\ - ((- (32767 - -32768)) / 32767) = 3.
Proof. eexists. split; [vm_compute; reflexivity|]. split; reflexivity. Qed.
(** Adding [delta] again and again is not start + i * delta rounded: from 0 to 1 by 0.1,
    element 8 differs. *)
Theorem C67_rounding_refuted : exists out delta v, delta = div32 (ofInt32 1) (ofInt32 10) /\
  rangeLoopFloat (ofInt32 0) (ofInt32 1) delta = Some out /\ mAt out [8] = Some v /\ B2SF v <> B2SF (add32 (ofInt32 0) (mul32 (ofInt32 8) delta)).
Proof.
  destruct (C67_float (ofInt32 0) (ofInt32 1) (div32 (ofInt32 1) (ofInt32 10)) 10) as (out & E & _ & A); [vm_compute; reflexivity|].
  exists out, (div32 (ofInt32 1) (ofInt32 10)), (plusTimes add32 (ofInt32 0) (div32 (ofInt32 1) (ofInt32 10)) 8).
  split; [reflexivity|]. split; [exact E|]. split; [apply (A 8); lia|]. vm_compute. discriminate.
Qed.
Example C67_run : option_map (fun m => (mShape m, map (mAt m) (indices (mShape m)))) (rangeLoopInt 16 false 10 (-3) (-5)) = Some ([3], map Some [10; 5; 0]).
Proof. vm_compute. reflexivity. Qed.
Example C67_nonvacuous : fits 16 10 /\ fits 16 (-3 - 10) /\ - ((- (-3 - 10)) / -5) = 3.
Proof. unfold fits. cbn. split; [lia|]. split; [lia|reflexivity]. Qed.
Print Assumptions C67_integer.
Print Assumptions C67_float.
