(** Theorems C61: the reduction loops without SIMD. *)
From Coq Require Import List ZArith Lia Bool Arith.
From Verif Require Import Util TensorSpec TensorLemmas LoopModel LoopProofs CopyLoopProofs ArgLoopModel ReduceLoopSpec ReduceLoopModel ReduceLoopProofs.
Import ListNotations.
Open Scope Z_scope.

(** [axes] are the values of the axes operand (none if it is absent). *)
Definition axesGiven (ax : axesArg) (axes : list Z) : Prop :=
  match ax with
  | AxNone => axes = []
  | AxLit l => axes = l
  | AxDyn _ m => mShape m = [Z.of_nat (length axes)] /\ forall k, 0 <= k < Z.of_nat (length axes) -> mAt m [k] = zget axes k
  end.
(** Excluded: an operand known to be empty that stands for all axes (unless the constant is
    used without keepdims), see the refutations; and run-time axes without keepdims, which
    the compiler rejects. *)
Definition supported (ax : axesArg) (axes : list Z) (keepdims noop : bool) : Prop :=
  match ax with
  | AxNone => True
  | AxLit _ => axes <> [] \/ noop = true \/ keepdims = false
  | AxDyn lengthKnown _ => if lengthKnown && (Z.of_nat (length axes) =? 0) then noop = true else keepdims = true
  end.
(** What the reduction of the elements [e] is; ReduceMean divides by their number. *)
Definition reduceAll {T} (op : T -> T -> T) (identity : T) (divideBy : option (T -> Z -> T)) (e : list T) : T :=
  match divideBy with None => fold_left op e identity | Some div => div (fold_left op e identity) (Z.of_nat (length e)) end.

(** The output has the ONNX shape and each element is the reduction of the right input
    elements, in row-major order (so floating-point sums are determined); no access is out
    of bounds. *)
Theorem C61_reduce {T} (op : T -> T -> T) identity divideBy (input : mem T) dv ty ax axes keepdims noop red : let s := mShape input in
  okshape s -> (forall i, valid s i -> mAt input i = Some (dv i)) -> typed ty s ->
  axesGiven ax axes -> Forall (fun x => - Z.of_nat (length s) <= x < Z.of_nat (length s)) axes -> supported ax axes keepdims noop ->
  describes red (length s) axes noop -> (divideBy = None \/ size (reduceDims red keepdims 1 s) <> 0) ->
  exists out, reduceLoop op identity divideBy ty ax keepdims noop input = Result out /\ mShape out = reduceDims red keepdims 1 s /\
    forall o, valid (reduceDims red keepdims 1 s) o -> mAt out o = Some (reduceAll op identity divideBy (reducedElements red keepdims s dv o)).
Proof.
  intros s OK HD HT HG HF HS D N. pose proof D as [LR HR]. unfold reduceLoop. fold s. rewrite <- LR in *. rewrite LR.
  assert (ST : forall low, map (fun i => existsb (Nat.eqb i) low) (seq 0 (length s)) = red ->
    exists out, reduceStatic op identity divideBy (length s) low (reducedType red keepdims ty) keepdims input = Result out /\ mShape out = reduceDims red keepdims 1 s /\
    forall o, valid (reduceDims red keepdims 1 s) o -> mAt out o = Some (reduceAll op identity divideBy (reducedElements red keepdims s dv o))).
  { intros low HL. destruct (reduceStatic_ok op identity divideBy input dv HD OK red keepdims low ty LR HT N HL) as (out & E & SH & R). exists out. split; auto. }
  rewrite LR in D, HF. destruct ax as [|l|lk m]; cbn [axesGiven supported lowerAxes] in *.
  - subst axes. cbn [inferAxes]. pose proof (describes_empty _ _ _ D) as ER. rewrite <- ER. apply ST. auto.
  - subst l. destruct (uniqueAxes_ok (length s) axes [] HF) as (low & E & _). rewrite E. destruct axes as [|x axes].
    + cbn [uniqueAxes] in E. injection E as <-. cbn [inferAxes]. pose proof (describes_empty _ _ _ D) as ER. rewrite <- ER. destruct noop.
      * apply ST. auto.
      * destruct HS as [HS|[HS|HS]]; try (now exfalso; auto); try discriminate. subst keepdims.
        assert (A : forall n (l : list Z) one k, length l = n -> reduceDims (map (fun i => existsb (Nat.eqb i) (seq 0 (length s))) (seq k n)) false one l = [] \/ (length s < k + n)%nat).
        { induction n as [|n IH]; intros l one k Ln; [left; reflexivity|]. destruct l as [|y l]; [discriminate|]. cbn [seq map reduceDims]. destruct (le_lt_dec (length s) k) as [H|H]; [right; lia|].
          replace (existsb (Nat.eqb k) (seq 0 (length s))) with true by (symmetry; apply existsb_exists; exists k; rewrite in_seq, Nat.eqb_refl; split; [lia|auto]). cbn [app]. destruct (IH l one (S k) ltac:(cbn in Ln; lia)); [left; auto|right; lia]. }
        assert (AN : forall (l : list Z) one, length l = length s -> reduceDims red false one l = []).
        { intros l one Ln. rewrite ER. destruct (A (length s) l one O Ln); auto. lia. }
        assert (ET : reducedType red false ty = []).
        { apply length_zero_iff_nil. rewrite (reducedType_length red false ty s 1 HT). now rewrite AN. }
        unfold reduceStatic. rewrite ET. cbn [staticOutShape length seq map]. unfold outLoopIVs. cbn [seq map].
        destruct (reduce_finish op identity divideBy input dv HD OK red false [] (fun _ => Some []) LR) as (res & E & SH & R).
        { now rewrite AN. }
        { rewrite AN in N by auto. exact N. }
        { intros i V. apply valid_length in V. fold s in V. now rewrite AN by lia. }
        exists res. fold s in E. split; [exact E|]. rewrite AN by auto. split; [exact SH|]. exact R.
    + cbn [inferAxes]. rewrite E. rewrite (describes_lit red (length s) (x :: axes) noop low D ltac:(discriminate) E HF). apply ST. exact (describes_lit red (length s) (x :: axes) noop low D ltac:(discriminate) E HF).
  - destruct HG as [SA HA]. rewrite SA. cbn [nth]. destruct (lk && (Z.of_nat (length axes) =? 0)) eqn:EK.
    + apply andb_true_iff in EK as [-> EZ]. apply Z.eqb_eq in EZ. destruct axes; [|discriminate]. subst noop. pose proof (describes_empty _ _ _ D) as ER. cbn [existsb] in ER.
      assert (ET : forall n k, reducedType (map (fun _ => false) (seq k n)) keepdims (repeat None n) = repeat (@None Z) n).
      { induction n as [|n IH]; intros k; cbn [seq map repeat reducedType app]; auto. now rewrite IH. }
      replace (if keepdims then length s else (length s - 0)%nat) with (length s) by (destruct keepdims; lia).
      assert (TN : typed (repeat None (length s)) s). { clear. induction s as [|d s0 IH]; cbn [length repeat]; constructor; auto. }
      destruct (reduceStatic_ok op identity divideBy input dv HD OK red keepdims [] (repeat None (length s)) LR TN N (eq_sym ER)) as (out & E & SH & R).
      fold s in E. rewrite ER, ET in E. exists out. split; [exact E|]. split; [exact SH|]. exact R.
    + subst keepdims. cbn [negb]. destruct (mask_ok (length s) lk noop m axes SA HA HF) as (mask & EM & SM & RM).
      { intros -> ->. discriminate. }
      rewrite EM. cbn [obind].
      assert (LD : forall r, (r < length s)%nat -> load mask [Z.of_nat r] = Some (nth r red false)).
      { intros r Hr. rewrite load_ok by (rewrite SM; apply valid_cons; split; [lia|constructor]). destruct (RM r Hr) as (b & -> & HB). f_equal. specialize (HR r ltac:(lia)). rewrite LR in HR. destruct b, (nth r red false); auto; intuition discriminate. }
      rewrite (omap_ok _ (fun i => if nth i red false then 1 else nth i s 0)).
      2:{ intros i Hi. apply in_seq in Hi. rewrite LD by lia. reflexivity. }
      cbn [obind]. rewrite <- (reduceDims_keep_seq red 1 s LR).
      destruct (reduce_finish op identity divideBy input dv HD OK red true (reduceDims red true 1 s)
        (fun l => omap (fun i => b <- load mask [Z.of_nat i] ;; Some (if b : bool then 0 else nth i l 0)) (seq 0 (length s))) LR eq_refl N) as (res & E & SH & R).
      { intros i V. apply valid_length in V. fold s in V. rewrite (omap_ok _ (fun r => if nth r red false then 0 else nth r i 0)).
        - rewrite (reduceDims_keep_seq red 0 i) by lia. now rewrite V.
        - intros r Hr. apply in_seq in Hr. rewrite LD by lia. reflexivity. }
      exists res. fold s in E. split; [exact E|]. split; [exact SH|]. exact R.
Qed.
(** A constant empty axes tensor with noop_with_empty_axes = 0 and keepdims = 1 means a
    reduction over all axes; shape inference allocates [1; 1] but the loops reduce nothing
    and write out of bounds. *)
Theorem C61_empty_axes_refuted : exists input : mem Z, mShape input = [2; 3] /\ (forall i, mAt input i = Some 1) /\
  describes [true; true] 2 [] false /\ reduceLoop Z.add 0 None [Some 2; Some 3] (AxLit []) true false input = Undefined.
Proof.
  exists (Mem [2; 3] (fun _ => Some 1)). split; [reflexivity|]. split; [reflexivity|]. split; [|vm_compute; reflexivity].
  split; auto. intros [|[|r]] Hr; cbn; unfold isReduced; try lia; intuition.
Qed.
(** The same with an empty run-time tensor of known length: the data is returned as is. *)
Theorem C61_empty_runtime_axes_refuted : exists (input : mem Z) out, mShape input = [2; 3] /\ (forall i, mAt input i = Some 1) /\
  describes [true; true] 2 [] false /\ reduceLoop Z.add 0 None [None; None] (AxDyn true (alloc [0])) true false input = Result out /\ mShape out = [2; 3] /\ reduceDims [true; true] true 1 [2; 3] = [1; 1].
Proof.
  exists (Mem [2; 3] (fun _ => Some 1)). eexists. split; [reflexivity|]. split; [reflexivity|]. split.
  - split; auto. intros [|[|r]] Hr; cbn; unfold isReduced; try lia; intuition.
  - split; [vm_compute; reflexivity|]. split; reflexivity.
Qed.
(** ReduceMean over an axis of an empty tensor with an empty output divides by zero, although
    there is nothing to compute. *)
Theorem C61_mean_of_empty_refuted : exists input : mem Z, mShape input = [0; 3] /\
  reduceDims [false; true] true 1 [0; 3] = [0; 1] /\ reduceLoop Z.add 0 (Some Z.quot) [None; Some 3] (AxLit [1]) true false input = Undefined.
Proof. exists (alloc [0; 3]). split; [reflexivity|]. split; [reflexivity|]. vm_compute. reflexivity. Qed.
Definition show {A} (o : outcome (mem A)) := match o with Result m => Some (mShape m, map (mAt m) (indices (mShape m))) | _ => None end.
Example C61_run_static : show (reduceLoop Z.add 0 (Some Z.quot) [Some 2; None; Some 2] (AxLit [-1; 0]) false false (Mem [2; 3; 2] (fun i => Some (100 * nth 0 i 0 + 10 * nth 1 i 0 + nth 2 i 0))))
  = Some ([3], map Some [50; 60; 70]).
Proof. vm_compute. reflexivity. Qed.
Example C61_run_dynamic : show (reduceLoop Z.max (-1000) None [Some 2; Some 3] (AxDyn false (Mem [1] (fun _ => Some (-1)))) true false (Mem [2; 3] (fun i => Some (10 * nth 0 i 0 - nth 1 i 0))))
  = Some ([2; 1], map Some [0; 10]).
Proof. vm_compute. reflexivity. Qed.
Print Assumptions C61_reduce.
Print Assumptions C61_empty_axes_refuted.
Print Assumptions C61_empty_runtime_axes_refuted.
Print Assumptions C61_mean_of_empty_refuted.
