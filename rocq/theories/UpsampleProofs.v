From Coq Require Import List ZArith Lia Bool Arith.
From Verif Require Import Util TensorSpec TensorLemmas ShapeOpsCopies LoopModel LoopProofs CumSumProofs GatherLoopProofs CopyLoopSpec CopyLoopModel CopyLoopProofs UpsampleSpec UpsampleModel.
Import ListNotations.
Open Scope Z_scope.

Lemma fits_verify rank strides pads : fits rank strides pads <-> upVerify rank strides pads = true.
Proof.
  unfold fits, upVerify. rewrite !andb_true_iff, Nat.leb_le. destruct strides as [l|], pads as [p|]; rewrite ?Nat.eqb_eq, ?forallb_forall, ?Forall_forall.
  - split.
    + intros ([H1 H2] & k & H3 & H4 & H5). subst k. repeat split; try lia. intros x Hx. apply Z.ltb_lt; auto.
    + intros ((H1 & H2) & H3). repeat split; [lia | intros x Hx; apply Z.ltb_lt; auto|]. exists (length l). repeat split; lia.
  - split; [intros ([H1 H2] & _); repeat split; auto; intros x Hx; apply Z.ltb_lt; auto | intros ((H1 & H2) & _); repeat split; auto; intros x Hx; apply Z.ltb_lt; auto].
  - split.
    + intros (_ & k & H3 & H4 & _). assert (length p / 2 = k)%nat by (rewrite H3, Nat.mul_comm; apply Nat.div_mul; lia). repeat split; lia.
    + intros ((H1 & _) & H3). split; [auto|]. exists (length p / 2)%nat. repeat split; auto.
  - split; auto.
Qed.

Section Attrs.
Variables (rank : nat) (strides pads : option (list Z)).
Hypothesis HF : fits rank strides pads.
Notation k := (upK rank strides pads).
Notation sv := (orDefault strides (repeat 1 k)).
Notation pv := (orDefault pads (repeat 0 (2 * k))).

Lemma attrs r : (r < rank)%nat ->
  (if (r <? rank - k)%nat then 1 else nth (r - (rank - k)) sv 1) = strideAt rank strides r /\
  (if (r <? rank - k)%nat then 0 else nth (r - (rank - k)) pv 0) = beginAt rank pads r /\
  (if (r <? rank - k)%nat then 0 else nth (k + (r - (rank - k))) pv 0) = endAt rank pads r.
Proof.
  intros Hr. destruct HF as [FS FP]. unfold strideAt, beginAt, endAt.
  assert (D : forall a : Z, (if (r <? rank - k)%nat then a else a) = a) by (intros; destruct (_ <? _)%nat; auto).
  assert (D2 : forall p : list Z, (exists k0, length p = 2 * k0 /\ k0 <= rank)%nat -> (length p = 2 * (length p / 2))%nat) by (intros p (k0 & E & _); rewrite E at 2; rewrite (Nat.mul_comm 2 k0), Nat.div_mul; auto).
  assert (N : (r <? rank)%nat = true) by now apply Nat.ltb_lt.
  destruct strides as [[|x l]|], pads as [[|y p]|]; unfold upK, orDefault in *; try change (length (@nil Z)) with 0%nat in *; try change (0 / 2)%nat with 0%nat in *; rewrite ?Nat.sub_0_r, ?N; cbn [Nat.eqb] in *; rewrite ?nth_repeat.
  - destruct (_ <? _)%nat; repeat split; reflexivity.
  - exfalso. destruct FP as (k0 & E & _ & ->). cbn [length] in E. lia.
  - destruct (_ <? _)%nat; repeat split; reflexivity.
  - exfalso. destruct FP as (k0 & E & _ & ->). cbn [length] in E. lia.
  - destruct FP as (k0 & E & _ & ->). replace (length (y :: p) / 2)%nat with (length (x :: l)) by (rewrite E, Nat.mul_comm, Nat.div_mul; auto). cbn [length Nat.eqb]. repeat split; reflexivity.
  - cbn [length Nat.eqb]. split; [reflexivity|]. split; destruct (_ <? _)%nat; reflexivity.
  - destruct (_ <? _)%nat; repeat split; reflexivity.
  - destruct FP as (k0 & E & K & _). specialize (D2 (y :: p) ltac:(eauto)). destruct (Nat.eqb_spec (length (y :: p) / 2) 0) as [Z0|NZ]; [rewrite Z0 in D2; cbn [length] in D2; lia|].
    destruct (Nat.eqb_spec (length (y :: p) / 2) 0) as [Z0|_]; [lia|]. rewrite ?nth_repeat. split; [destruct (_ <? _)%nat; reflexivity|]. split; reflexivity.
  - destruct (_ <? _)%nat; repeat split; reflexivity.
Qed.
Lemma stride_pos r : (r < rank)%nat -> 0 < strideAt rank strides r.
Proof.
  intros Hr. destruct HF as [FS _]. unfold strideAt. destruct strides as [l|]; [|lia]. destruct FS as [L F]. destruct (Nat.ltb_spec r (rank - length l)); [lia|].
  apply (proj1 (Forall_forall _ _) F). apply nth_In. lia.
Qed.
End Attrs.

Lemma upShape_ok strides pads s : fits (length s) strides pads -> upsampledShape strides pads s (upShape strides pads s).
Proof.
  intros HF. unfold upsampledShape, upShape. split; [now rewrite map_length, seq_length|]. intros r Hr. rewrite nth_map_seq by auto. cbn zeta.
  destruct (attrs _ _ _ HF r Hr) as (<- & <- & <-). destruct (_ <? _)%nat; lia.
Qed.

Section Up.
Context {T : Type}.
Lemma upsample_ok (zero : T) strides pads X x : let s := mShape X in fits (length s) strides pads -> Forall (fun d => 0 < d) s ->
  (forall r, (r < length s)%nat -> 0 <= beginAt (length s) pads r /\ 0 <= endAt (length s) pads r) ->
  (forall i, valid s i -> mAt X i = Some (x i)) ->
  exists out, upsampleAndPad zero strides pads X = Some out /\ isUpsampled zero strides pads s x (mShape out) (mAt out).
Proof.
  intros s HF HD HP HX. unfold upsampleAndPad. fold s. rewrite (proj1 (fits_verify _ _ _) HF). cbn [negb].
  pose proof (upShape_ok strides pads s HF) as [SL SN].
  assert (DP : forall r, (r < length s)%nat -> 0 < nth r s 0) by (intros r Hr; apply (proj1 (Forall_forall _ _) HD), nth_In; auto).
  assert (G : forall r x, (r < length s)%nat -> 0 <= x < nth r s 0 -> 0 <= x * strideAt (length s) strides r + beginAt (length s) pads r < nth r (upShape strides pads s) 0).
  { intros r y Hr By. rewrite SN by auto. pose proof (stride_pos _ _ _ HF r Hr). destruct (HP r Hr). nia. }
  destruct (existsb _ _) eqn:EX.
  { exfalso. apply existsb_exists in EX as (d & I & N). apply (In_nth _ _ 0) in I as (r & Hr & <-). rewrite SL in Hr. apply Z.ltb_lt in N. pose proof (G r 0 Hr ltac:(pose proof (DP r Hr); lia)). lia. }
  cbn zeta. set (k := upK (length s) strides pads).
  set (g := fun inputLoopInd : list Z => map (fun i => if (i <? length s - k)%nat then nth i inputLoopInd 0 else
      nth i inputLoopInd 0 * nth (i - (length s - k)) (orDefault strides (repeat 1 k)) 1 + nth (i - (length s - k)) (orDefault pads (repeat 0 (2 * k))) 0) (seq 0 (length s))).
  assert (GN : forall i r, (r < length s)%nat -> nth r (g i) 0 = nth r i 0 * strideAt (length s) strides r + beginAt (length s) pads r).
  { intros i r Hr. unfold g. rewrite nth_map_seq by auto. destruct (attrs _ _ _ HF r Hr) as (<- & <- & _). unfold k. destruct (_ <? _)%nat; lia. }
  assert (GL : forall i, length (g i) = length s) by (intros; unfold g; now rewrite map_length, seq_length).
  assert (M : forall i o, valid s i -> (placed strides pads i o <-> o = g i)).
  { intros i o V. apply valid_length in V. unfold placed. rewrite <- V. split.
    - intros [L N]. apply nth_ext with (d := 0) (d' := 0); [rewrite GL; lia|]. intros r Hr. rewrite GN by lia. apply N. lia.
    - intros ->. split; [apply GL|]. intros r Hr. now apply GN. }
  destruct (iterate_stores s g (fun i => load X i) (Mem (upShape strides pads s) (fun _ => Some zero))) as (out & E & S1 & A & B).
  - intros i V. split; [|exists (x i); rewrite load_ok by auto; auto]. cbn [mShape]. apply valid_nth_iff; [rewrite GL; exact SL|]. rewrite SL. intros r Hr. rewrite GN by auto. apply G; auto. now apply nth_valid.
  - intros i j Vi Vj EE. apply nth_ext with (d := 0) (d' := 0); [apply valid_length in Vi, Vj; lia|]. intros r Hr. pose proof (valid_length _ _ Vi).
    apply (f_equal (fun l => nth r l 0)) in EE. rewrite !GN in EE by lia. pose proof (stride_pos _ _ _ HF r ltac:(lia)). nia.
  - exists out. split; [exact E|]. split; [rewrite S1; split; assumption|]. split.
    + intros i o V H. apply M in H; auto. subst o. rewrite A, load_ok by auto. auto.
    + intros o _ H. rewrite B; [reflexivity|]. intros i V E'. apply (H i V). apply M; auto.
Qed.

Lemma nth_fullPads rank p r : let k := (length p / 2)%nat in (length p = 2 * k)%nat -> (k <= rank)%nat -> (r < rank)%nat ->
  nth r (fullPads rank p) 0 = beginAt rank (Some p) r /\ nth (r + rank) (fullPads rank p) 0 = endAt rank (Some p) r.
Proof.
  intros k E K Hr. unfold fullPads, beginAt, endAt. fold k.
  assert (LF : length (firstn k p) = k) by (rewrite firstn_length; lia).
  assert (NF : forall j, (j < k)%nat -> nth j (firstn k p) 0 = nth j p 0) by (intros j Hj; rewrite <- (firstn_skipn k p) at 2; rewrite app_nth1; auto; lia).
  assert (NS : forall j, nth j (skipn k p) 0 = nth (k + j) p 0) by (intros j; rewrite <- (firstn_skipn k p) at 2; rewrite app_nth2 by lia; f_equal; lia).
  split.
  - destruct (Nat.ltb_spec r (rank - k)).
    + rewrite app_nth1 by (rewrite repeat_length; lia). apply nth_repeat.
    + rewrite app_nth2, repeat_length by (rewrite repeat_length; lia). rewrite app_nth1 by lia. apply NF. lia.
  - rewrite app_nth2, repeat_length by (rewrite repeat_length; lia). rewrite app_nth2, LF by lia. destruct (Nat.ltb_spec r (rank - k)).
    + rewrite app_nth1 by (rewrite repeat_length; lia). apply nth_repeat.
    + rewrite app_nth2, repeat_length by (rewrite repeat_length; lia). rewrite NS. f_equal. lia.
Qed.
Lemma ones rank strides r : allOnes strides = true -> strideAt rank strides r = 1.
Proof.
  unfold allOnes, strideAt. destruct strides as [l|]; auto. intros H. destruct (_ <? _)%nat; auto. rewrite forallb_forall in H.
  destruct (nth_in_or_default (r - (rank - length l)) l 1) as [I | ->]; auto. apply H in I. now apply Z.eqb_eq in I.
Qed.
Lemma zeros rank pads r : allZeros pads = true -> beginAt rank pads r = 0 /\ endAt rank pads r = 0.
Proof.
  unfold allZeros, beginAt, endAt. destruct pads as [l|]; auto. intros H. cbn zeta. destruct (_ <? _)%nat; auto. rewrite forallb_forall in H.
  assert (Z0 : forall n, nth n l 0 = 0) by (intros n; destruct (nth_in_or_default n l 0) as [I | ->]; auto; apply H in I; now apply Z.eqb_eq in I). now rewrite !Z0.
Qed.
Lemma canonical_ok (zero : T) strides pads X x r : let s := mShape X in fits (length s) strides pads ->
  (forall r, (r < length s)%nat -> 0 <= beginAt (length s) pads r /\ 0 <= endAt (length s) pads r) ->
  (forall i, valid s i -> mAt X i = Some (x i)) ->
  upCanonical zero strides pads X = Some r -> exists out, r = Some out /\ isUpsampled zero strides pads s x (mShape out) (mAt out).
Proof.
  intros s HF HP HX. unfold upCanonical. destruct (allOnes strides) eqn:AO; [|discriminate]. destruct (allZeros pads) eqn:AZ.
  - intros [= <-]. exists X. split; [reflexivity|]. split; [|split].
    + fold s. split; [reflexivity|]. intros q Hq. rewrite (ones _ _ _ AO). destruct (zeros (length s) pads q AZ) as [-> ->]. lia.
    + intros i o V [L N]. replace o with i; [auto|]. apply nth_ext with (d := 0) (d' := 0); [lia|]. intros q Hq. rewrite (N q Hq), (ones _ _ _ AO), (proj1 (zeros _ pads q AZ)). lia.
    + intros o V H. exfalso. apply (H o V). split; [reflexivity|]. intros q Hq. rewrite (ones _ _ _ AO), (proj1 (zeros _ pads q AZ)). lia.
  - destruct pads as [p|]; [|discriminate]. intros [= <-]. fold s. destruct HF as [_ (k & E & K & _)].
    assert (EK : (length p / 2 = k)%nat) by (rewrite E, Nat.mul_comm, Nat.div_mul; auto).
    assert (NP : forall q, (q < length s)%nat -> nth q (fullPads (length s) p) 0 = beginAt (length s) (Some p) q /\ nth (q + length s) (fullPads (length s) p) 0 = endAt (length s) (Some p) q) by (intros q Hq; apply nth_fullPads; auto; lia).
    destruct (pad_constant_ok (fullPads (length s) p) zero X x HX) as (out & EO & SO & A & B).
    { intros q Hq. destruct (Nat.lt_ge_cases q (length s)) as [Q|Q]; [rewrite (proj1 (NP q Q)); now apply HP|]. fold s in Hq. replace q with ((q - length s) + length s)%nat by lia. rewrite (proj2 (NP (q - length s)%nat ltac:(lia))). apply HP. lia. }
    fold s in SO, A, B. assert (PM : forall i o, valid s i -> (placed strides (Some p) i o <-> moved (fullPads (length s) p) i o)).
    { intros i o V. apply valid_length in V. unfold placed, moved. rewrite <- V. split; intros [L N]; (split; [exact L|]); intros q Hq; rewrite (N q Hq), (ones _ _ _ AO), (proj1 (NP q Hq)); lia. }
    exists out. split; [exact EO|]. split; [|split].
    + rewrite SO. split; [apply padShape_length|]. intros q Hq. rewrite padShape_nth by auto. destruct (NP q Hq) as [-> ->]. rewrite (ones _ _ _ AO). lia.
    + intros i o V P. apply (A i o V). now apply PM.
    + intros o _ H. apply B. intros i V P. apply (H i V). now apply PM.
Qed.
End Up.
