From Coq Require Import List ZArith Bool Lia Arith.
From Verif Require Import Util ControlSpec FloatDivModel FloatDivProofs FloatDiv32Model FloatDiv32Proofs LoopTripSpec LoopTripModel.
Import ListNotations.
Open Scope Z_scope.

(** ** Running a loop *)
Lemma onnx_loop_fun {V} m (b : loopBody V) i c vs f r : onnx_loop m b i c vs f r -> forall f' r', onnx_loop m b i c vs f' r' -> f = f' /\ r = r'.
Proof.
  induction 1 as [i c vs H|i vs vs' row final rows L C S R IH]; intros f' r' H'.
  - inversion H' as [| ? ? ? ? ? ? L' C' S' R']; subst; auto. destruct H as [E|(n & -> & G)]; [discriminate|]. specialize (L' n eq_refl). lia.
  - inversion H' as [? ? ? H| ? ? ? ? ? ? L' C' S' R']; subst.
    + destruct H as [E|(n & -> & G)]; [discriminate|]. specialize (L n eq_refl). lia.
    + rewrite C in C'. rewrite S in S'. injection C' as <-. injection S' as <-. destruct (IH _ _ R') as [-> ->]. auto.
Qed.
Lemma runs_fun env p f r f' r' : runs env p f r -> runs env p f' r' -> f = f' /\ r = r'.
Proof.
  intros (m & c & vs & E & R) (m' & c' & vs' & E' & R'). rewrite E in E'. injection E' as <- <- E'.
  assert (vs = vs') as <-. { clear - E'. revert vs' E'. induction vs; intros [|y l] H; try discriminate; auto. injection H as <- H. f_equal; auto. }
  eapply onnx_loop_fun; eauto.
Qed.
Fixpoint loopExec {V} (fuel : nat) (m : Z) (b : loopBody V) (i : Z) (c : bool) (vs : list V) : option (list V * list (list V)) :=
  if negb c || (m <=? i) then Some (vs, []) else
  match fuel with
  | O => None
  | S k => match values (i, true) vs (bCarried b), values (i, true) vs (bScan b) with
           | Some vs', Some row => match loopExec k m b (i + 1) (match bCond b with Some f => f (i, true) vs | None => true end) vs' with
                                   | Some (f, r) => Some (f, row :: r) | None => None end
           | _, _ => None
           end
  end.
Lemma loopExec_ok {V} m (b : loopBody V) : forall fuel i c vs f r, loopExec fuel m b i c vs = Some (f, r) -> onnx_loop (Some m) b i c vs f r.
Proof.
  induction fuel as [|k IH]; intros i c vs f r; cbn [loopExec]; destruct (negb c || (m <=? i)) eqn:E; try discriminate.
  1, 2: intros H; injection H as <- <-; apply loop_stop; apply orb_true_iff in E; destruct E as [E|E]; [left; now apply negb_true_iff|right; exists m; split; auto; now apply Z.leb_le].
  apply orb_false_iff in E. destruct E as [E1 E2]. apply negb_false_iff in E1. apply Z.leb_gt in E2. subst c.
  destruct (values _ _ (bCarried b)) eqn:C; [|discriminate]. destruct (values _ _ (bScan b)) eqn:S; [|discriminate].
  destruct (loopExec k m b _ _ _) as [[f' r']|] eqn:X; [|discriminate]. intros H; injection H as <- <-.
  eapply loop_step; eauto. intros n H. injection H as <-. auto.
Qed.
Fixpoint allSome (l : list (option Z)) : option (list Z) :=
  match l with [] => Some [] | Some x :: r => option_map (cons x) (allSome r) | None :: _ => None end.
Lemma allSome_ok l : forall vs, allSome l = Some vs -> l = map Some vs.
Proof.
  induction l as [|[x|] l IH]; intros vs; cbn [allSome]; try discriminate; [intros H; now injection H as <-|].
  destruct (allSome l); [|discriminate]. cbn [option_map]. intros H. injection H as <-. cbn [map]. f_equal. auto.
Qed.
Definition exec (fuel : nat) (env : nat -> Z) (p : loop) : option (list Z * list (list Z)) :=
  let outs := outers env [] (defs p) in
  match allSome (map (fun v => nth v outs None) (operands p)) with
  | Some (m :: c :: vs) => loopExec fuel m (bodyOf outs p (length vs)) 0 (negb (c =? 0)) vs
  | _ => None
  end.
Lemma exec_runs fuel env p f r : exec fuel env p = Some (f, r) -> runs env p f r.
Proof.
  unfold exec. destruct (allSome _) as [[|m [|c vs]]|] eqn:A; try discriminate. intros H. exists m, c, vs. split; [now apply allSome_ok|].
  eapply loopExec_ok; eauto.
Qed.

(** ** Outer values and the body *)
Lemma outers_app env ds : forall acc, exists l, outers env acc ds = acc ++ l /\ length l = length ds.
Proof.
  induction ds as [|d r IH]; intros acc; cbn [outers]; [exists []; split; auto; now rewrite app_nil_r|].
  destruct (IH (acc ++ [match d with OConst z => Some z | OInput => Some (env (length acc)) | OTrip m ub lb step => tripVal acc m ub lb step end])) as (l & E & L).
  rewrite E, <- app_assoc. eexists. split; [reflexivity|]. cbn. lia.
Qed.
Lemma outers_snoc env d ds : forall acc, outers env acc (ds ++ [d]) = outers env acc ds ++
  [match d with OConst z => Some z | OInput => Some (env (length (outers env acc ds))) | OTrip m ub lb step => tripVal (outers env acc ds) m ub lb step end].
Proof. induction ds as [|e r IH]; intros acc; cbn [outers app]; auto. Qed.
Lemma outers_length env ds acc : length (outers env acc ds) = (length acc + length ds)%nat.
Proof. destruct (outers_app env ds acc) as (l & -> & L). rewrite app_length. lia. Qed.
Lemma outers_const env ds : forall acc v z, nth_error ds v = Some (OConst z) -> nth (length acc + v) (outers env acc ds) None = Some z.
Proof.
  induction ds as [|d r IH]; intros acc [|v] z; try discriminate; cbn [nth_error outers].
  - intros H. injection H as ->. destruct (outers_app env r (acc ++ [Some z])) as (l & -> & _). rewrite <- app_assoc, app_nth2 by lia. now replace (length acc + 0 - length acc)%nat with 0%nat by lia.
  - intros H. specialize (IH (acc ++ [match d with OConst z => Some z | OInput => Some (env (length acc)) | OTrip m ub lb step => tripVal acc m ub lb step end]) v z H).
    rewrite app_length in IH. cbn [length] in IH. now replace (length acc + S v)%nat with (length acc + 1 + v)%nat by lia.
Qed.
Lemma outerConst_ok env p v z : outerConst p v = Some z -> nth v (outers env [] (defs p)) None = Some z.
Proof. unfold outerConst. destruct (nth_error (defs p) v) as [[]|] eqn:E; try discriminate. intros H. injection H as <-. now apply (outers_const env _ []). Qed.

Lemma bodyRun_length outs args ops : forall rs, length (fold_left (fun rs o => rs ++ [opVal outs args rs o]) ops rs) = (length rs + length ops)%nat.
Proof. induction ops as [|o r IH]; intros rs; cbn [fold_left length]; [lia|]. rewrite IH, app_length. cbn. lia. Qed.
Lemma bodyRun_prefix outs args ops : forall rs, exists l, fold_left (fun rs o => rs ++ [opVal outs args rs o]) ops rs = rs ++ l.
Proof. induction ops as [|o r IH]; intros rs; cbn [fold_left]; [exists []; now rewrite app_nil_r|]. destruct (IH (rs ++ [opVal outs args rs o])) as (l & ->). rewrite <- app_assoc. eauto. Qed.
Lemma bodyRun_go outs args ops : forall rs n o, nth_error ops n = Some o ->
  let all := fold_left (fun rs o => rs ++ [opVal outs args rs o]) ops rs in nth (length rs + n) all 0 = opVal outs args (firstn (length rs + n) all) o.
Proof.
  induction ops as [|o' r IH]; intros rs [|n] o; try discriminate; cbn [nth_error fold_left].
  - intros H. injection H as ->. cbv zeta. destruct (bodyRun_prefix outs args r (rs ++ [opVal outs args rs o])) as (l & ->). rewrite <- app_assoc, app_nth2 by lia.
    rewrite firstn_app. replace (length rs + 0 - length rs)%nat with 0%nat by lia. cbn. rewrite app_nil_r, Nat.add_0_r, firstn_all. auto.
  - intros H. specialize (IH (rs ++ [opVal outs args rs o']) n o H). rewrite app_length in IH. cbn [length] in IH.
    now replace (length rs + S n)%nat with (length rs + 1 + n)%nat by lia.
Qed.
Lemma bodyRun_at outs args ops n o : nth_error ops n = Some o -> nth n (bodyRun outs args ops) 0 = opVal outs args (firstn n (bodyRun outs args ops)) o.
Proof. apply (bodyRun_go outs args ops []). Qed.

Lemma nth_firstn {A} (d : A) : forall n l k, (k < n)%nat -> nth k (firstn n l) d = nth k l d.
Proof. induction n as [|n IH]; intros [|x l] [|k] H; cbn; auto; try lia. apply IH. lia. Qed.
Lemma bodyVal_firstn outs args rs nd n v : okVal nd n v -> bodyVal outs args (firstn n rs) v = bodyVal outs args rs v.
Proof. destruct v; cbn [okVal bodyVal]; auto. intros. now apply nth_firstn. Qed.

(** A new value outside changes nothing. *)
Lemma bodyVal_outs outs x args rs no v : okVal (length outs) no v -> bodyVal (outs ++ [x]) args rs v = bodyVal outs args rs v.
Proof. destruct v; cbn [okVal bodyVal]; auto. intros. now rewrite app_nth1. Qed.
Lemma opVal_outs outs x args rs no o : okOp (length outs) no o -> opVal (outs ++ [x]) args rs o = opVal outs args rs o.
Proof.
  destruct o as [|w a b|a b|f l]; cbn [okOp opVal]; auto.
  - intros []. now rewrite !(bodyVal_outs outs x args rs no).
  - intros []. now rewrite !(bodyVal_outs outs x args rs no).
  - intros F. f_equal. apply map_ext_in. intros v I. eapply bodyVal_outs. apply (proj1 (Forall_forall _ _) F); auto.
Qed.
Lemma bodyRun_outs_go outs x args ops : (forall n o, nth_error ops n = Some o -> exists no, okOp (length outs) no o) -> forall rs,
  fold_left (fun rs o => rs ++ [opVal (outs ++ [x]) args rs o]) ops rs = fold_left (fun rs o => rs ++ [opVal outs args rs o]) ops rs.
Proof.
  induction ops as [|o r IH]; intros H rs; cbn [fold_left]; auto.
  destruct (H 0%nat o eq_refl) as (no & K). rewrite (opVal_outs outs x args rs no) by auto. apply IH. intros n o' E. apply (H (S n) o' E).
Qed.
Lemma bodyRun_outs outs x args ops : (forall n o, nth_error ops n = Some o -> exists no, okOp (length outs) no o) -> bodyRun (outs ++ [x]) args ops = bodyRun outs args ops.
Proof. intros H. now apply bodyRun_outs_go. Qed.

(** ** Two loops that make the same iterations *)
Section Same.
Context {V : Type}.
Variables (b b' : loopBody V) (f f' : Z * bool -> list V -> bool) (D M N : Z) (inv : Z -> list V -> Prop).
Hypothesis Hf : bCond b = Some f.
Hypothesis Hf' : bCond b' = Some f'.
Hypothesis True' : forall i vs, f' (i, true) vs = true.
Hypothesis SameC : forall i vs, values (i, true) vs (bCarried b') = values (i, true) vs (bCarried b).
Hypothesis SameS : forall i vs, values (i, true) vs (bScan b') = values (i, true) vs (bScan b).
Hypothesis HN : N = Z.min M D.
Hypothesis Step : forall i vs vs', 0 <= i < D -> inv i vs -> values (i, true) vs (bCarried b) = Some vs' -> inv (i + 1) vs' /\ f (i, true) vs = (i + 1 <? D).

Lemma same_runs_go : forall k i c vs F R, D - i = Z.of_nat k -> 0 <= i < D -> inv i vs -> onnx_loop (Some M) b i c vs F R <-> onnx_loop (Some N) b' i c vs F R.
Proof using All.
  induction k as [|k IH]; intros i c vs F R K B I; [lia|]. split; intros H.
  - inversion H as [? ? ? G|? ? ? ? ? ? G C S X]; subst.
    + apply loop_stop. destruct G as [->|(n & E & G)]; auto. injection E as <-. right. exists (Z.min M D). split; auto. lia.
    + eapply loop_step; [|now rewrite SameC; apply C|now rewrite SameS; apply S|].
      * intros n E. injection E as <-. specialize (G M eq_refl). lia.
      * rewrite Hf', True'. rewrite Hf in X. destruct (Step i vs vs' B I C) as [I' E]. rewrite E in X.
        destruct (Z.ltb_spec (i + 1) D).
        -- apply IH; auto; lia.
        -- inversion X as [? ? ? G'|]; subst. apply loop_stop. right. exists (Z.min M D). split; auto. lia.
  - inversion H as [? ? ? G|? ? ? ? ? ? G C S X]; subst.
    + apply loop_stop. destruct G as [->|(n & E & G)]; auto. injection E as <-. right. exists M. split; auto. lia.
    + rewrite SameC in C. rewrite SameS in S. eapply loop_step; [|apply C|apply S|].
      * intros n E. injection E as <-. specialize (G _ eq_refl). lia.
      * rewrite Hf. rewrite Hf', True' in X. destruct (Step i vs vs' B I C) as [I' E]. rewrite E.
        destruct (Z.ltb_spec (i + 1) D).
        -- apply IH; auto; lia.
        -- inversion X as [? ? ? G'|? ? ? ? ? ? G' C' S' X']; subst.
           ++ apply loop_stop. now left.
           ++ specialize (G' _ eq_refl). lia.
Qed.
Lemma same_runs c vs F R : 1 <= D -> inv 0 vs -> onnx_loop (Some M) b 0 c vs F R <-> onnx_loop (Some N) b' 0 c vs F R.
Proof using All. intros. apply (same_runs_go (Z.to_nat D)); auto; lia. Qed.
End Same.

Lemma values_fresh {V I A} (i : I) (vs : list V) (g : A -> I -> list V -> V) l : values i vs (map (fun y => Fresh (g y)) l) = Some (map (fun y => g y i vs) l).
Proof. induction l as [|y l IH]; cbn [map values value]; auto. now rewrite IH. Qed.

Lemma wrapTo_id w z : 1 <= w -> - 2 ^ (w - 1) <= z < 2 ^ (w - 1) -> wrapTo w z = z.
Proof.
  intros W H. unfold wrapTo. assert (E : 2 ^ w = 2 * 2 ^ (w - 1)) by (rewrite <- Z.pow_succ_r by lia; f_equal; lia).
  rewrite Z.mod_small by lia. lia.
Qed.
(** The number of iterations of the counting loop. *)
Lemma ceil_lt l u s i : 0 < s -> (l + (i + 1) * s <? u) = (i + 1 <? - ((- (u - l)) / s)).
Proof.
  intros S. pose proof (Z.mul_div_le (- (u - l)) s S) as A. pose proof (Z.mul_succ_div_gt (- (u - l)) s S) as B.
  destruct (Z.ltb_spec (i + 1) (- ((- (u - l)) / s))); [apply Z.ltb_lt|apply Z.ltb_ge]; nia.
Qed.

(** ** The match *)
Lemma bval_eqb_eq a b : bval_eqb a b = true -> b = a.
Proof. destruct a, b; cbn [bval_eqb]; try discriminate; intros H; apply Nat.eqb_eq in H; now subst. Qed.
Lemma matchFor_inv p lb ub step w : matchFor p = Some (Some (lb, ub, step, w)) ->
  exists m z c a k ubv stepv yrest, nth_error (operands p) 0 = Some m /\ outerConst p m = Some z /\ yields p = Op c :: yrest /\
    nth_error (body p) c = Some (BLess (Op a) ubv) /\ nth_error (body p) a = Some (BAdd w (Arg k) stepv) /\
    yieldOfArg p k = Some (Op a) /\ nth_error (operands p) k = Some lb /\ bound p ubv = Some (Some ub) /\ bound p stepv = Some (Some step).
Proof.
  unfold matchFor. destruct (nth_error (operands p) 0) as [m|] eqn:M; [|discriminate]. cbn [obind].
  destruct (outerConst p m) as [z|] eqn:Z; [|discriminate].
  destruct (yields p) as [|y yrest] eqn:Y; [discriminate|]. cbn [nth_error obind]. destruct y as [|c|]; try discriminate.
  destruct (nth_error (body p) c) as [[| |[|a|] ubv|]|] eqn:C; try discriminate.
  destruct (nth_error (body p) a) as [[|w' counter stepv| |]|] eqn:A; try discriminate.
  destruct counter as [k| |]; [|discriminate|discriminate]. cbn [isUpdatedArgByValue].
  destruct (yieldOfArg p k) as [y|] eqn:K; [|discriminate]. cbn [obind]. destruct (bval_eqb (Op a) y) eqn:E; [|discriminate].
  assert (y = Op a) as -> by now apply bval_eqb_eq.
  destruct (bound p stepv) as [[st|]|] eqn:S; try discriminate. cbn [obind].
  destruct (nth_error (operands p) k) as [lb'|] eqn:L; [|discriminate]. cbn [obind].
  destruct (bound p ubv) as [[u|]|] eqn:U; try discriminate. cbn [obind]. intros H. injection H as <- <- <- <-.
  exists m, z, c, a, k, ubv, stepv, yrest. repeat split; auto.
Qed.

Definition argv (v : bval) (x : Z) (vs : list Z) : Prop := match v with Arg j => nth j (0 :: 0 :: vs) 0 = x | _ => True end.
Section Bound.
Variables (env : nat -> Z) (p : loop) (c : nat) (yrest : list bval).
Hypothesis Y : yields p = Op c :: yrest.
Let outs := outers env [] (defs p).
Variables (m cond : Z) (vs0 : list Z).
Hypothesis Ops : map (fun v => nth v outs None) (operands p) = map Some (m :: cond :: vs0).
Hypothesis Len : (length vs0 <= length yrest)%nat.

Lemma op_at j v : nth_error (operands p) (S (S j)) = Some v -> nth v outs None = Some (nth j vs0 0) /\ (j < length vs0)%nat.
Proof.
  intros H. assert (L : (S (S j) < length (operands p))%nat) by (apply nth_error_Some; congruence).
  apply (f_equal (fun l => nth_error l (S (S j)))) in Ops as E. rewrite nth_error_map, H in E. cbn [option_map map nth_error] in E. rewrite nth_error_map in E.
  destruct (nth_error vs0 j) as [z|] eqn:N; [|discriminate]. cbn [option_map] in E. injection E as E. split; [|apply nth_error_Some; congruence].
  rewrite E. f_equal. symmetry. now apply nth_error_nth.
Qed.
Definition next (i : Z) (vs : list Z) : list Z := map (fun y => yieldVal outs (body p) (i, true) vs y) (firstn (length vs0) yrest).
Lemma next_at i vs j y : (j < length vs0)%nat -> nth_error yrest j = Some y -> nth j (next i vs) 0 = yieldVal outs (body p) (i, true) vs y.
Proof.
  intros J E. unfold next. erewrite nth_indep by (rewrite map_length, firstn_length; apply Nat.min_glb_lt; lia).
  rewrite (map_nth _ _ (Arg 0)). f_equal. rewrite nth_firstn by auto. now apply nth_error_nth.
Qed.
Lemma bound_ok v x q : bound p v = Some (Some x) -> numVal outs x = Some q ->
  argv v q vs0 /\ (forall i vs, argv v q vs -> argv v q (next i vs)) /\
  (forall ic vs rs, argv v q vs -> (forall n, nth n rs 0 = nth n (bodyRun outs (argsOf ic vs) (body p)) 0) -> bodyVal outs (argsOf ic vs) rs v = q).
Proof.
  destruct v as [k|n|o]; cbn [bound argv isInvariantBlockArg].
  - unfold yieldOfArg. destruct k as [|[|j]]; [discriminate|rewrite Y; cbn [nth_error obind bval_eqb]; discriminate|].
    rewrite Y. cbn [nth_error]. destruct (nth_error yrest j) as [y|] eqn:N; [|discriminate]. cbn [obind].
    destruct (bval_eqb (Arg (S (S j))) y) eqn:E; [|discriminate]. assert (y = Arg (S (S j))) as -> by now apply bval_eqb_eq.
    change (match operands p with _ :: _ :: l0 => nth_error l0 j | _ => None end) with (nth_error (operands p) (S (S j))).
    destruct (nth_error (operands p) (S (S j))) as [o|] eqn:O; [|discriminate]. cbn [obind]. intros H. injection H as <-. cbn [numVal].
    destruct (op_at j o O) as [EQ J]. intros H. rewrite EQ in H. injection H as <-. cbn [nth]. split; auto. split.
    + intros i vs A. rewrite (next_at i vs j _ J N). unfold yieldVal, bodyVal, argsOf. cbn [nth fst snd]. exact A.
    + intros ic vs rs A _. exact A.
  - destruct (bodyConst p (Op n)) as [z|] eqn:E; [|discriminate]. intros H. injection H as <-. cbn [numVal]. intros H. injection H as <-. split; auto. split; auto.
    intros ic vs rs _ RS. cbn [bodyVal]. rewrite RS. cbn [bodyConst] in E. destruct (nth_error (body p) n) as [[]|] eqn:N; try discriminate. injection E as <-.
    now rewrite (bodyRun_at _ _ _ _ _ N).
  - destruct (bodyConst p (Outer o)) as [z|] eqn:E; [|discriminate]. intros H. injection H as <-. cbn [numVal]. intros H. injection H as <-. split; auto. split; auto.
    intros ic vs rs _ _. cbn [bodyVal]. cbn [bodyConst] in E. now rewrite (outerConst_ok env p o z E : nth o outs None = Some z).
Qed.
End Bound.

Lemma rewrite_ok env p p' lb ub step w l u s m mv d : let outs := outers env [] (defs p) in
  okLoop p -> matchFor p = Some (Some (lb, ub, step, w)) -> newTrip p lb ub step = Some (Some d) -> rewriteLoop p = Some (Some p') ->
  nth lb outs None = Some l -> numVal outs ub = Some u -> numVal outs step = Some s ->
  nth_error (operands p) 0 = Some m -> ~ In m (tl (operands p)) -> nth m outs None = Some mv ->
  1 <= w -> 0 < s -> l < u -> - 2 ^ (w - 1) <= l -> u - 1 + s < 2 ^ (w - 1) ->
  (match d with OConst z => Some z | OInput => Some (env (length outs)) | OTrip m ub lb step => tripVal outs m ub lb step end) = Some (Z.min mv (- ((- (u - l)) / s))) ->
  forall F R, runs env p F R <-> runs env p' F R.
Proof.
  intros outs OK MF NT RW VL VU VS M0 NI VM W S0 LU LW UW DV F R.
  destruct (matchFor_inv _ _ _ _ _ MF) as (m_ & z & c & a & k & ubv & stepv & yrest & M0' & MZ & Y & C & A & K & KL & UB & ST).
  rewrite M0 in M0'. injection M0' as <-.
  unfold rewriteLoop in RW. rewrite MF in RW. cbn [obind] in RW. rewrite NT in RW. cbn [obind] in RW. rewrite M0 in RW. cbn [obind] in RW. injection RW as RW.
  destruct OK as (OKo & OKb & OKy & OKl).
  destruct (operands p) as [|m' orest] eqn:O; [discriminate|]. cbn [nth_error] in M0. injection M0 as ->. cbn [tl] in NI.
  assert (OUT : outers env [] (defs p') = outs ++ [Some (Z.min mv (- ((- (u - l)) / s)))]) by (subst p'; cbn [defs]; rewrite outers_snoc; fold outs; now rewrite DV).
  assert (LO : length outs = length (defs p)) by (unfold outs; apply outers_length).
  assert (OP' : operands p' = length (defs p) :: orest).
  { subst p'. cbn [operands map]. rewrite Nat.eqb_refl. f_equal. rewrite <- (map_id orest) at 2. apply map_ext_in. intros v I. destruct (Nat.eqb_spec v m); [subst; tauto|auto]. }
  assert (REST : map (fun v => nth v (outs ++ [Some (Z.min mv (- ((- (u - l)) / s)))]) None) orest = map (fun v => nth v outs None) orest).
  { apply map_ext_in. intros v I. apply app_nth1. rewrite LO. inversion OKo as [|? ? H1 H2]; subst. apply (proj1 (Forall_forall _ _) H2); auto. }
  set (D := - ((- (u - l)) / s)) in *.
  assert (D1 : 1 <= D). { unfold D. pose proof (Z.mul_succ_div_gt (- (u - l)) s S0). pose proof (Z.mul_div_le (- (u - l)) s S0). nia. }
  (* the key fact, for the initial values *)
  assert (KEY : forall cond vs, map (fun v => nth v outs None) (operands p) = map Some (mv :: cond :: vs) ->
    onnx_loop (Some mv) (bodyOf outs p (length vs)) 0 (negb (cond =? 0)) vs F R <->
    onnx_loop (Some (Z.min mv D)) (bodyOf (outs ++ [Some (Z.min mv D)]) p' (length vs)) 0 (negb (cond =? 0)) vs F R).
  { intros cond vs0 E.
    assert (LV : length orest = S (length vs0)). { rewrite O in E. apply (f_equal (@length _)) in E. rewrite !map_length in E. cbn [length] in E. lia. }
    assert (LY : (length vs0 <= length yrest)%nat). { rewrite Y in OKl. cbn [length] in OKl. lia. }
    destruct (bound_ok env p c yrest Y mv cond vs0 E LY ubv ub u UB VU) as (U0 & UP & UV).
    destruct (bound_ok env p c yrest Y mv cond vs0 E LY stepv step s ST VS) as (S00 & SP & SV).
    assert (exists j, k = S (S j) /\ (j < length vs0)%nat /\ nth_error yrest j = Some (Op a) /\ nth j vs0 0 = l) as (j & -> & J & YJ & J0).
    { unfold yieldOfArg in K. destruct k as [|[|j]]; [discriminate| |].
      - rewrite Y in K. cbn [nth_error] in K. injection K as ->. rewrite C in A. discriminate.
      - rewrite Y in K. cbn [nth_error] in K. exists j. rewrite <- O in KL. destruct (op_at env p mv cond vs0 E j lb KL) as [X J]. fold outs in X. rewrite VL in X. injection X as X. auto. }
    eapply (same_runs (bodyOf outs p (length vs0)) (bodyOf (outs ++ [Some (Z.min mv D)]) p' (length vs0)) _ _ D mv (Z.min mv D)
      (fun i vs => nth j vs 0 = l + i * s /\ argv ubv u vs /\ argv stepv s vs)); try reflexivity; auto.
    - intros i vs. subst p'. cbn [bodyOf yields nth yieldVal bodyVal argsOf fst snd]. reflexivity.
    - intros i vs. unfold bodyOf. cbn [bCarried]. subst p'. cbn [yields body tl]. rewrite !values_fresh. f_equal. apply map_ext_in. intros y I. unfold yieldVal.
      rewrite bodyRun_outs by (intros n o H; exists n; rewrite LO; apply OKb; auto).
      apply (bodyVal_outs _ _ _ _ (length (body p))). rewrite LO. apply (proj1 (Forall_forall _ _) OKy). rewrite Y in I |- *. right. cbn [tl] in I.
      rewrite <- (firstn_skipn (length vs0) yrest). apply in_or_app. auto.
    - intros i vs. unfold bodyOf. cbn [bScan]. subst p'. cbn [yields body tl]. rewrite !values_fresh. f_equal. apply map_ext_in. intros y I. unfold yieldVal.
      rewrite bodyRun_outs by (intros n o H; exists n; rewrite LO; apply OKb; auto).
      apply (bodyVal_outs _ _ _ _ (length (body p))). rewrite LO. apply (proj1 (Forall_forall _ _) OKy). rewrite Y in I |- *. right. cbn [tl] in I.
      rewrite <- (firstn_skipn (length vs0) yrest). apply in_or_app. auto.
    - intros i vs vs' B (I1 & I2 & I3) V. unfold bodyOf in V. cbn [bCarried] in V. rewrite values_fresh, Y in V. cbn [tl] in V. injection V as V.
      assert (vs' = next env p yrest vs0 i vs) as -> by (symmetry; exact V). clear V.
      (* the operations *)
      set (args := argsOf (i, true) vs). set (rs := bodyRun outs args (body p)).
      pose proof (OKb _ _ A) as (OA1 & OA2). pose proof (OKb _ _ C) as (OC1 & OC2).
      assert (RA : nth a rs 0 = l + (i + 1) * s).
      { unfold rs. rewrite (bodyRun_at _ _ _ _ _ A). cbn [opVal]. fold rs. rewrite !(bodyVal_firstn _ _ _ _ _ _ OA1), !(bodyVal_firstn _ _ _ _ _ _ OA2).
        pose proof (SV (i, true) vs rs I3 ltac:(reflexivity)) as SVR. fold outs args in SVR. rewrite SVR. cbn [bodyVal]. unfold args, argsOf. cbn [nth fst snd]. rewrite I1.
        rewrite wrapTo_id; auto; [lia|]. pose proof (ceil_lt l u s (i - 1) S0) as X. replace (i - 1 + 1) with i in X by lia. fold D in X.
        assert (L1 : (i <? D) = true) by (apply Z.ltb_lt; lia). rewrite L1 in X. apply Z.ltb_lt in X. nia. }
      assert (RC : nth c rs 0 = if l + (i + 1) * s <? u then 1 else 0).
      { unfold rs. rewrite (bodyRun_at _ _ _ _ _ C). cbn [opVal]. fold rs. rewrite (bodyVal_firstn _ _ _ _ _ (Op a) OC1), (bodyVal_firstn _ _ _ _ _ _ OC2).
        pose proof (UV (i, true) vs rs I2 ltac:(reflexivity)) as UVR. fold outs args in UVR. rewrite UVR. cbn [bodyVal]. now rewrite RA. }
      split.
      + split; [|split; auto]. rewrite (next_at env p yrest vs0 LY i vs j (Op a) J YJ). unfold yieldVal. cbn [bodyVal]. fold args. fold outs. exact RA.
      + rewrite Y. cbn [nth]. unfold yieldVal. cbn [bodyVal]. fold args. fold outs. fold rs. rewrite RC, (ceil_lt l u s i S0). fold D. now destruct (i + 1 <? D).
    - split; [lia|]. auto. }
  unfold runs. cbv zeta. rewrite OUT, OP'. fold outs. cbn [map]. rewrite REST.
  assert (NL : nth (length (defs p)) (outs ++ [Some (Z.min mv D)]) None = Some (Z.min mv D)) by (rewrite app_nth2, LO, Nat.sub_diag by lia; reflexivity).
  rewrite NL. rewrite O in KEY |- *. cbn [map] in KEY |- *. rewrite VM in KEY |- *. split; intros (m1 & c1 & vs & E & X).
  - injection E as <- E. exists (Z.min mv D), c1, vs. split; [now rewrite E|]. apply KEY; auto. now rewrite E.
  - injection E as <- E. exists mv, c1, vs. split; [now rewrite E|]. apply KEY; auto. now rewrite E.
Qed.
