(** C73: a Loop that counts from a lower bound to an upper bound gives the same results after
    its trip count has been replaced by the number of iterations. *)
From Coq Require Import List ZArith Bool Lia Arith.
From Verif Require Import Util ControlSpec FloatDivModel FloatDivProofs FloatDiv32Model FloatDiv32Proofs LoopTripSpec LoopTripModel LoopTripProofs.
Import ListNotations.
Open Scope Z_scope.

(** The trip count is not also the initial value of a loop-carried value. *)
Definition tripOnly (p : loop) : Prop := forall m, nth_error (operands p) 0 = Some m -> ~ In m (tl (operands p)).
(** The counter, a signed integer of [w] bits, does not overflow. *)
Definition noOverflow (w l u s : Z) : Prop := 1 <= w /\ - 2 ^ (w - 1) <= l /\ u - 1 + s < 2 ^ (w - 1).

Lemma trip_facts p lb ub step w p' : matchFor p = Some (Some (lb, ub, step, w)) -> rewriteLoop p = Some (Some p') ->
  exists m mv d, nth_error (operands p) 0 = Some m /\ outerConst p m = Some mv /\ newTrip p lb ub step = Some (Some d).
Proof.
  intros MF RW. destruct (matchFor_inv _ _ _ _ _ MF) as (m & z & _ & _ & _ & _ & _ & _ & M & Z & _). exists m, z.
  unfold rewriteLoop in RW. rewrite MF in RW. cbn [obind] in RW. destruct (newTrip p lb ub step) as [[d|]|]; try discriminate. eauto.
Qed.
Lemma numConst_ok env p x z : numConst p x = Some z -> numVal (outers env [] (defs p)) x = Some z.
Proof. destruct x; cbn [numConst numVal]; auto. apply outerConst_ok. Qed.
Lemma int64_range_some z : - 2 ^ 63 <= z < 2 ^ 63 -> int64_range z = Some z.
Proof. intros [A B]. unfold int64_range. apply Z.leb_le in A. apply Z.ltb_lt in B. now rewrite A, B. Qed.
Lemma newTrip_const p lb ub step d l u s m mv : newTrip p lb ub step = Some (Some d) -> nth_error (operands p) 0 = Some m -> outerConst p m = Some mv ->
  outerConst p lb = Some l -> numConst p ub = Some u -> numConst p step = Some s -> u - l < 2 ^ 53 -> s <= 2 ^ 53 ->
  0 < s /\ l < u /\ d = OConst (Z.min mv (- ((- (u - l)) / s))).
Proof.
  unfold newTrip. intros NT M Z L U S B1 B2. rewrite M, L, U, S in NT. cbn [obind] in NT. destruct (Z.leb_spec s 0); [discriminate|]. destruct (Z.leb_spec u l); [discriminate|]. cbn [orb] in NT.
  rewrite int64_range_some in NT by lia. cbn [obind] in NT. rewrite lit_ceilDiv_correct in NT by lia. cbn [obind] in NT. rewrite Z in NT. cbn [obind] in NT.
  destruct (Z.leb_spec mv (- (- (u - l) / s))); [discriminate|]. injection NT as <-. rewrite Z.min_r by lia. auto.
Qed.

(** Bounds that are constants: the compiler computes the number of iterations. *)
Theorem C73_constants : forall env p p' lb ub step w l u s,
  okLoop p -> tripOnly p -> matchFor p = Some (Some (lb, ub, step, w)) -> rewriteLoop p = Some (Some p') ->
  outerConst p lb = Some l -> numConst p ub = Some u -> numConst p step = Some s ->
  noOverflow w l u s -> u - l < 2 ^ 53 -> s <= 2 ^ 53 ->
  forall final rows, runs env p final rows <-> runs env p' final rows.
Proof.
  intros env p p' lb ub step w l u s OK TO MF RW L U S (W & LW & UW) B1 B2 F R.
  destruct (trip_facts _ _ _ _ _ _ MF RW) as (m & mv & d & M & Z & NT).
  destruct (newTrip_const _ _ _ _ _ _ _ _ _ _ NT M Z L U S B1 B2) as (S0 & LU & ->).
  eapply rewrite_ok; eauto; try apply numConst_ok; try apply outerConst_ok; eauto.
Qed.

(** Bounds only known at run time: the emitted code computes the number of iterations. *)
Theorem C73_run_time : forall env p p' lb ub step w l u s,
  okLoop p -> tripOnly p -> matchFor p = Some (Some (lb, ub, step, w)) -> rewriteLoop p = Some (Some p') ->
  let outs := outers env [] (defs p) in
  nth lb outs None = Some l -> numVal outs ub = Some u -> numVal outs step = Some s ->
  0 < s -> l < u -> noOverflow w l u s -> u - l < 2 ^ 24 -> s <= 2 ^ 24 ->
  forall final rows, runs env p final rows <-> runs env p' final rows.
Proof.
  intros env p p' lb ub step w l u s OK TO MF RW outs L U S S0 LU (W & LW & UW) B1 B2 F R.
  destruct (trip_facts _ _ _ _ _ _ MF RW) as (m & mv & d & M & Z & NT).
  eapply rewrite_ok; eauto; try apply outerConst_ok; eauto. fold outs.
  destruct (outerConst p lb) as [l'|] eqn:CL, (numConst p ub) as [u'|] eqn:CU, (numConst p step) as [s'|] eqn:CS.
  1:{ pose proof (outerConst_ok env p _ _ CL) as X1. pose proof (numConst_ok env p _ _ CU) as X2. pose proof (numConst_ok env p _ _ CS) as X3. fold outs in X1, X2, X3.
      rewrite L in X1. rewrite U in X2. rewrite S in X3. injection X1 as <-. injection X2 as <-. injection X3 as <-.
      destruct (newTrip_const _ _ _ _ _ _ _ _ _ _ NT M Z CL CU CS ltac:(lia) ltac:(lia)) as (_ & _ & ->). reflexivity. }
  all: unfold newTrip in NT; rewrite M, CL, ?CU, ?CS in NT; cbn [obind] in NT; injection NT as <-.
  all: unfold tripVal; rewrite (outerConst_ok env p _ _ Z : nth m outs None = Some mv), L, U, S; cbn [obind].
  all: rewrite wrapTo_id by lia; rewrite ceilDiv32_correct by lia; reflexivity.
Qed.

(** Only one result. *)
Theorem C73_deterministic : forall env p f r f' r', runs env p f r -> runs env p f' r' -> f = f' /\ r = r'.
Proof. exact runs_fun. Qed.

(** ** Examples *)
(** for (k = lb; k < ub; k += step): carried values k, ub, an accumulator; a scan output. *)
Definition sumOf (l : list Z) : Z := fold_left Z.add l 0.
Definition counting (w m : Z) (lb ub : odef) (step : Z) : loop :=
  {| defs := [OConst m; OConst 1; lb; ub; OConst 5];
     operands := [0; 1; 2; 3; 4]%nat;
     body := [BConst step; BAdd w (Arg 2) (Op 0); BLess (Op 1) (Arg 3); BOther sumOf [Arg 0; Arg 4]];
     yields := [Op 2; Op 1; Arg 3; Op 3; Arg 2] |}.
Ltac oks := unfold okLoop; cbn [counting defs operands body yields length]; split; [repeat constructor|]; split; [|split; [repeat constructor; cbn; lia|cbn; lia]];
  intros n o H; repeat (destruct n as [|n]; [cbn in H; injection H as <-; cbn; repeat constructor; cbn; lia|]); destruct n; discriminate.
Definition count1 := counting 64 (2 ^ 63 - 1) (OConst (-100)) (OConst 7) 20.
Definition count1' := Eval vm_compute in match rewriteLoop count1 with Some (Some q) => q | _ => count1 end.
Example C73_nonvacuous : okLoop count1 /\ tripOnly count1 /\ matchFor count1 = Some (Some (2%nat, Fed 3, Cloned 20, 64)) /\ rewriteLoop count1 = Some (Some count1') /\
  nth 5 (defs count1') OInput = OConst 6 /\ noOverflow 64 (-100) 7 20 /\
  runs (fun _ => 0) count1 [20; 7; 20] [[-100]; [-80]; [-60]; [-40]; [-20]; [0]] /\ runs (fun _ => 0) count1' [20; 7; 20] [[-100]; [-80]; [-60]; [-40]; [-20]; [0]].
Proof.
  split; [unfold count1; oks|]. split; [intros m H; injection H as <-; cbn; intuition discriminate|]. split; [reflexivity|]. split; [vm_compute; reflexivity|]. split; [reflexivity|].
  split; [unfold noOverflow; lia|]. split; apply (exec_runs 10); vm_compute; reflexivity.
Qed.
Definition count2 := counting 32 1000 OInput OInput 3.
Definition env2 (n : nat) : Z := if Nat.eqb n 2 then 4 else 14.
Definition count2' := Eval vm_compute in match rewriteLoop count2 with Some (Some q) => q | _ => count2 end.
Example C73_run_time_nonvacuous : okLoop count2 /\ tripOnly count2 /\ rewriteLoop count2 = Some (Some count2') /\ nth 5 (defs count2') OInput = OTrip 0 (Fed 3) 2 (Cloned 3) /\
  nth 5 (outers env2 [] (defs count2')) None = Some 4 /\
  runs env2 count2 [16; 14; 11] [[4]; [7]; [10]; [13]] /\ runs env2 count2' [16; 14; 11] [[4]; [7]; [10]; [13]].
Proof.
  split; [unfold count2; oks|]. split; [intros m H; injection H as <-; cbn; intuition discriminate|]. split; [vm_compute; reflexivity|]. split; [reflexivity|].
  split; [vm_compute; reflexivity|]. split; apply (exec_runs 10); vm_compute; reflexivity.
Qed.

(** ** Refutations *)
Definition wrongly (env : nat -> Z) (why : Z -> Z -> Z -> Z -> Prop) (w l u s : Z) (lb ub : odef) (m : Z) : Prop :=
  why w l u s /\ exists p p', okLoop p /\ tripOnly p /\ p = counting w m lb ub s /\ rewriteLoop p = Some (Some p') /\ exists final rows, runs env p final rows /\ ~ runs env p' final rows.
Lemma wrongly_by env (why : Z -> Z -> Z -> Z -> Prop) w l u s lb ub m p' f r f' r' : why w l u s -> rewriteLoop (counting w m lb ub s) = Some (Some p') ->
  exec 20 env (counting w m lb ub s) = Some (f, r) -> exec 20 env p' = Some (f', r') -> length r <> length r' -> wrongly env why w l u s lb ub m.
Proof.
  intros Y RW E E' N. split; auto. exists (counting w m lb ub s), p'. split; [oks|]. split; [intros q H; injection H as <-; cbn; intuition discriminate|].
  split; auto. split; auto. exists f, r. split; [now apply (exec_runs 20)|]. intros X. apply exec_runs in E'. destruct (runs_fun _ _ _ _ _ _ X E') as [_ ->]. auto.
Qed.

(** A counter that overflows goes on in the original loop. *)
Theorem C73_overflow_refuted : exists env l u s m, wrongly env (fun w l u s => 0 < s /\ l < u < 2 ^ (w - 1) /\ ~ noOverflow w l u s) 8 l u s (OConst l) (OConst u) m.
Proof.
  exists (fun _ => 0), 100, 120, 50, 4. eapply wrongly_by; [unfold noOverflow; lia|vm_compute; reflexivity|vm_compute; reflexivity|vm_compute; reflexivity|cbn; lia].
Qed.
(** The number of iterations is computed in double: too large a range is rounded. *)
Theorem C73_double_refuted : exists env l u s m, wrongly env (fun w l u s => 0 < s /\ l < u /\ noOverflow w l u s) 64 l u s (OConst l) (OConst u) m.
Proof.
  exists (fun _ => 0), 0, (2 ^ 54 + 1), (2 ^ 53), 10. eapply wrongly_by; [unfold noOverflow; lia|vm_compute; reflexivity|vm_compute; reflexivity|vm_compute; reflexivity|cbn; lia].
Qed.
(** At run time it is computed in single precision. *)
Theorem C73_float_refuted : exists env l u s m, env 3%nat = u /\ wrongly env (fun w l u s => 0 < s /\ l < u < 2 ^ 25 /\ noOverflow w l u s) 64 l u s (OConst l) OInput m.
Proof.
  exists (fun _ => 2 ^ 24 + 1), 0, (2 ^ 24 + 1), (2 ^ 23), 10. split; [reflexivity|].
  eapply wrongly_by; [unfold noOverflow; lia|vm_compute; reflexivity|vm_compute; reflexivity|vm_compute; reflexivity|cbn; lia].
Qed.
(** Bounds that are equal at run time: the original loop makes one iteration, the new one none. *)
Theorem C73_empty_refuted : exists env l u s m, env 3%nat = u /\ wrongly env (fun w l u s => 0 < s /\ u = l /\ noOverflow w l u s) 64 l u s (OConst l) OInput m.
Proof.
  exists (fun _ => 7), 7, 7, 1, 10. split; [reflexivity|].
  eapply wrongly_by; [unfold noOverflow; lia|vm_compute; reflexivity|vm_compute; reflexivity|vm_compute; reflexivity|cbn; lia].
Qed.
(** A negative step with a bound only known at run time: the new loop makes no iteration. *)
Theorem C73_negative_step_refuted : exists env l u s m, env 3%nat = u /\ wrongly env (fun w l u s => s < 0 /\ l < u) 64 l u s (OConst l) OInput m.
Proof.
  exists (fun _ => 7), 0, 7, (-1), 10. split; [reflexivity|].
  eapply wrongly_by; [lia|vm_compute; reflexivity|vm_compute; reflexivity|vm_compute; reflexivity|cbn; lia].
Qed.
(** A trip count that is also an initial value (here the upper bound): that value changes too. *)
Theorem C73_shared_refuted : exists env p p' final rows, okLoop p /\ ~ tripOnly p /\ matchFor p = Some (Some (1%nat, Fed 0, Cloned 2, 64)) /\
  outerConst p 1 = Some 0 /\ outerConst p 0 = Some 10 /\ rewriteLoop p = Some (Some p') /\ runs env p final rows /\ ~ runs env p' final rows.
Proof.
  exists (fun _ => 0), {| defs := [OConst 10; OConst 0; OConst 1]; operands := [0; 2; 1; 0]%nat;
    body := [BConst 2; BAdd 64 (Arg 2) (Op 0); BLess (Op 1) (Arg 3)]; yields := [Op 2; Op 1; Arg 3] |}.
  eexists. exists [10; 10], [[]; []; []; []; []]. split; [|split; [intros T; apply (T 0%nat eq_refl); cbn; auto|]].
  - unfold okLoop. cbn [defs operands body yields length]. split; [repeat constructor|]. split; [|split; [repeat constructor; cbn; lia|cbn; lia]].
    intros n o H. repeat (destruct n as [|n]; [cbn in H; injection H as <-; cbn; repeat constructor; cbn; lia|]). destruct n; discriminate.
  - split; [reflexivity|]. split; [reflexivity|]. split; [reflexivity|]. split; [vm_compute; reflexivity|]. split; [apply (exec_runs 20); vm_compute; reflexivity|].
    intros X. assert (Y : exec 20 (fun _ => 0) {| defs := [OConst 10; OConst 0; OConst 1; OConst 5]; operands := [3; 2; 1; 3]%nat;
    body := [BConst 2; BAdd 64 (Arg 2) (Op 0); BLess (Op 1) (Arg 3)]; yields := [Arg 1; Op 1; Arg 3] |} = Some ([10; 5], [[]; []; []; []; []])) by (vm_compute; reflexivity).
    apply exec_runs in Y. destruct (runs_fun _ _ _ _ _ _ X Y) as [Z _]. discriminate.
Qed.
(** A body that stops on the number of iterations reads an operand at index -1. *)
Theorem C73_iteration_number_refuted : exists p final rows, okLoop p /\ runs (fun _ => 0) p final rows /\ rewriteLoop p = None.
Proof.
  exists {| defs := [OConst 10; OConst 1]; operands := [0; 1]%nat; body := [BConst 1; BAdd 64 (Arg 0) (Op 0); BConst 3; BLess (Op 1) (Op 2)]; yields := [Op 3] |}, [], [[]; []; []].
  split; [|split; [apply (exec_runs 20); vm_compute; reflexivity|reflexivity]].
  unfold okLoop. cbn [defs operands body yields length]. split; [repeat constructor|]. split; [|split; [repeat constructor; cbn; lia|cbn; lia]].
  intros n o H. repeat (destruct n as [|n]; [cbn in H; injection H as <-; cbn; repeat constructor; cbn; lia|]). destruct n; discriminate.
Qed.
Print Assumptions C73_constants.
Print Assumptions C73_run_time.
Print Assumptions C73_overflow_refuted.
