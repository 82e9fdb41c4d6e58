(** Theorems C60: the loops emitted for ArgMin and ArgMax. *)
From Coq Require Import List ZArith Lia Bool Arith.
From Verif Require Import Util TensorSpec TensorLemmas LoopModel LoopProofs CumSumProofs GatherLoopSpec GatherLoopModel GatherLoopProofs CopyLoopProofs ArgLoopModel ArgLoopProofs.
Import ListNotations.
Open Scope Z_scope.

(** Specification. Reducing dimension [a] sets it to [one] or removes it. *)
Definition reduced (a : nat) (keepdims : bool) (one : Z) (l : list Z) : list Z :=
  if keepdims then upd a one l else firstn a l ++ skipn (S a) l.
(** [p] is the first (last) position in [0, d) with the least (greatest) value. *)
Definition isArg (kind : argKind) (last : bool) (value : Z -> Z) (d p : Z) : Prop :=
  0 <= p < d /\
  (forall q, 0 <= q < d -> match kind with ArgMin => value p <= value q | ArgMax => value q <= value p end) /\
  (forall q, 0 <= q < d -> value q = value p -> if last then q <= p else p <= q).

Lemma argShape_ok s a keep : (a < length s)%nat -> argShape s a keep = reduced a keep 1 s.
Proof.
  intros Ha. unfold argShape, reduced. destruct keep.
  - apply nth_ext with (d := 0) (d' := 0); [now rewrite map_length, seq_length, upd_length|]. intros r Hr. rewrite map_length, seq_length in Hr. rewrite nth_map_seq by lia.
    destruct (Nat.eqb_spec r a) as [->|N]; [now rewrite nth_upd_same by lia|]. rewrite nth_upd_other by auto. reflexivity.
  - apply nth_ext with (d := 0) (d' := 0); [rewrite map_length, seq_length, app_length, firstn_length, skipn_length; lia|]. intros r Hr. rewrite map_length, seq_length in Hr. rewrite nth_map_seq, drop_nth by lia. reflexivity.
Qed.

(** With select_last_index = 0 the output holds, for the slice along the axis through any
    input index [i], the first position of the least (greatest) value. [key] orders the
    element type: any type whose comparison is that of integers, so no NaN. *)
Theorem C60_arg {T} (key : T -> Z) kind a keepdims axis (data : mem T) dv : let s := mShape data in
  names_axis (length s) a axis -> (forall i, valid s i -> mAt data i = Some (dv i)) ->
  exists out, argLoop (fun x y => key x <? key y) kind false axis keepdims data = Some out /\ mShape out = reduced a keepdims 1 s /\
    forall i, valid s i -> exists p, mAt out (reduced a keepdims 0 i) = Some p /\ isArg kind false (fun q => key (dv (upd a q i))) (nth a s 0) p.
Proof.
  intros s HA HD. assert (Ha : (a < length s)%nat) by (destruct HA as [Ha _]; exact Ha).
  destruct (argLoop_ok key kind a keepdims data dv Ha HD axis false HA) as (out & E & SH & R). exists out. split; auto. split; [now rewrite SH, argShape_ok|].
  intros i V. destruct (R i V) as (p & Ep & B & L & F). exists p. split; [exact Ep|]. split; [exact B|]. split.
  - intros q Hq. specialize (L q Hq). destruct kind; lia.
  - intros q Hq EQ. destruct (Z.le_gt_cases p q) as [?|Hlt]; auto. specialize (F q ltac:(lia)). destruct kind; lia.
Qed.
(** select_last_index = 1 is ignored: for [1; 1] ArgMax still yields 0. *)
Theorem C60_select_last_index_refuted : exists (data : mem Z) dv out p, mShape data = [2] /\ (forall i, mAt data i = Some (dv i)) /\
  argLoop Z.ltb ArgMax true 0 true data = Some out /\ mAt out [0] = Some p /\ ~ isArg ArgMax true (fun q => dv [q]) 2 p.
Proof.
  exists (Mem [2] (fun _ => Some 1)), (fun _ => 1). eexists. exists 0. split; [reflexivity|]. split; [reflexivity|]. split; [vm_compute; reflexivity|]. split; [reflexivity|].
  intros (_ & _ & H). specialize (H 1 ltac:(lia) eq_refl). cbn in H. lia.
Qed.
Example C60_run : option_map (fun m => (mShape m, map (mAt m) (indices (mShape m))))
    (argLoop Z.ltb ArgMin false (-1) false (Mem [2; 3] (fun i => Some (nth (Z.to_nat (3 * nth 0 i 0 + nth 1 i 0)) [4; 2; 2; 5; 6; 1] 0))))
  = Some ([2], map Some [1; 2]).
Proof. vm_compute. reflexivity. Qed.
Print Assumptions C60_arg.
Print Assumptions C60_select_last_index_refuted.
