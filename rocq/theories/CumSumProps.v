(** Theorems C54: CumSum computes cumulative sums. *)
From Coq Require Import List ZArith Lia Bool.
From Verif Require Import Util TensorSpec TensorLemmas LoopModel LoopProofs CumSumSpec CumSumModel CumSumProofs.
Import ListNotations.
Open Scope Z_scope.

(** For every shape, every axis (negative ones count from the end), both flags, and every
    commutative addition: unless the axis has exactly one element and the compiler knows
    it, the emitted loops never read out of bounds or unwritten memory and leave the
    cumulative sum in every cell of the result. *)
Theorem C54_cumsum {T} (add : T -> T -> T) zero literal exclusive reverse axis (x : mem T) xv a :
  summable add zero ->
  let rank := Z.of_nat (length (mShape x)) in
  - rank <= axis < rank ->
  a = Z.to_nat (axis mod rank) ->
  (forall i, valid (mShape x) i -> mAt x i = Some (xv i)) ->
  ~ (literal = true /\ nth a (mShape x) 0 = 1) ->
  exists res, cumSum add zero literal exclusive reverse axis x = Some res /\ mShape res = mShape x /\
    forall i, valid (mShape x) i -> mAt res i = Some (cumsum_elem add zero exclusive reverse (mShape x) a xv i).
Proof.
  intros M rank R A Hx N.
  assert (RP : 0 < rank) by lia.
  assert (CA : cumAxis rank axis = Z.of_nat a).
  { pose proof (Z.mod_pos_bound axis rank RP). unfold cumAxis. subst a. rewrite Z2Nat.id by lia. destruct (Z.ltb_spec axis 0).
    - apply Z.mod_unique with (-1); lia.
    - symmetry. apply Z.mod_small. lia. }
  assert (Ha : (a < length (mShape x))%nat). { pose proof (Z.mod_pos_bound axis rank RP). subst a. unfold rank in *. lia. }
  unfold cumSum. fold rank. rewrite CA.
  destruct (cumInit_ok zero x xv a Ha Hx exclusive reverse) as (buf & E & Bs & Bv). rewrite E. cbn [obind].
  pose proof (axisSize_ok (mShape x) a 0 (-1) Ha) as AS. cbn [Z.add] in AS. rewrite AS.
  set (n := nth a (mShape x) 0) in *.
  assert (HB : holds add zero x xv a exclusive reverse 1 buf).
  { split; [exact Bs|]. intros i H. rewrite Bv by auto. f_equal. symmetry. apply part_one; auto. now apply (nthi x a Ha). }
  destruct (cumSteps_ok add zero M x xv a Ha exclusive reverse (numberOfStep literal n) buf (alloc (mShape x)) HB eq_refl) as (b & res & E' & _ & G & Z0).
  rewrite E'. cbn [obind snd]. exists res. split; [reflexivity|].
  destruct (Z.le_gt_cases (numberOfStep literal n) 0) as [S|S].
  - (* no step: the axis is empty *)
    rewrite (Z0 S). split; [reflexivity|]. intros i H. pose proof (nthi x a Ha i H) as Ni. fold n in Ni.
    unfold numberOfStep in S. destruct literal; [|pose proof (Z.log2_nonneg n); lia].
    destruct (Z.le_gt_cases n 1); [exfalso; apply N; split; [reflexivity|lia]|]. pose proof (Z.log2_up_pos n). lia.
  - specialize (G S) as [Gs Gv]. split; [exact Gs|]. intros i H. rewrite Gv by auto. f_equal. apply part_full; auto. fold n.
    pose proof (nthi x a Ha i H) as Ni. fold n in Ni. unfold numberOfStep in *. destruct literal.
    + destruct (Z.le_gt_cases n 1); [lia|]. apply Z.log2_up_spec. lia.
    + pose proof (Z.log2_spec n ltac:(lia)). unfold Z.succ in *. lia.
Qed.

(** Addition of machine words (modulo 2^w), what the emitted integer adds compute, meets
    the hypothesis on addition. *)
Definition word (w : Z) := { z : Z | (z mod 2 ^ w =? z) = true }.
Definition mkword w z : word w := exist _ (z mod 2 ^ w) (proj2 (Z.eqb_eq _ _) (Zmod_mod z (2 ^ w))).
Definition wadd w (a b : word w) : word w := mkword w (proj1_sig a + proj1_sig b).
Lemma word_eq w (a b : word w) : proj1_sig a = proj1_sig b -> a = b.
Proof. destruct a as [a Ea], b as [b Eb]. cbn. intros <-. f_equal. apply Eqdep_dec.UIP_dec. decide equality. Qed.
Example C54_words_summable w : summable (wadd w) (mkword w 0).
Proof.
  split; intros; apply word_eq; cbn [proj1_sig wadd mkword].
  - rewrite Zplus_mod_idemp_r, Zplus_mod_idemp_l. f_equal. lia.
  - f_equal. lia.
  - rewrite Zplus_mod_idemp_r, Z.add_0_r. destruct a as [a E]. cbn [proj1_sig]. now apply Z.eqb_eq.
Qed.
Example C54_integers_summable : summable Z.add 0.
Proof. split; intros; lia. Qed.
(** A 2 x 3 tensor, summed along its last axis backwards and without the element itself. *)
Example C54_run : let x := Mem [2; 3] (fun i => match i with [r; c] => Some (10 * r + c + 1) | _ => None end) in
  option_map (fun m => map (mAt m) (indices [2; 3])) (cumSum Z.add 0 true true true (-1) x) =
  Some (map Some [5; 3; 0; 25; 13; 0]).
Proof. vm_compute. reflexivity. Qed.

(** With an axis whose size 1 the compiler knows, no step runs and nothing is ever
    written to the result: its cells hold whatever the allocation left there. *)
Theorem C54_axis_of_size_one_refuted {T} (add : T -> T -> T) zero (v : T) :
  let x := Mem [1] (fun _ => Some v) in
  valid (mShape x) [0] /\
  exists res, cumSum add zero true false false 0 x = Some res /\ mAt res [0] = None /\
    cumsum_elem add zero false false (mShape x) 0 (fun _ => v) [0] = add v zero.
Proof.
  split; [repeat constructor; lia|]. eexists. split; [reflexivity|]. split; reflexivity.
Qed.

Print Assumptions C54_cumsum.
Print Assumptions C54_axis_of_size_one_refuted.
