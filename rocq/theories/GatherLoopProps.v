(** Theorems C55: the loops emitted for Gather, GatherElements and GatherND. *)
From Coq Require Import List ZArith Lia Bool Arith.
From Verif Require Import Util TensorSpec TensorLemmas ShapeOpsCopies LoopModel LoopProofs GatherLoopSpec GatherLoopModel GatherLoopProofs.
Import ListNotations.
Open Scope Z_scope.

(** What is known at compile time about the index tensor is true. *)
Definition constants_true (consts : option (list Z)) (iv : index -> Z) (s : shape) : Prop :=
  forall l, consts = Some l -> forall j, valid s j -> In (iv j) l.
Lemma knows_of consts iv s : constants_true consts iv s -> knows consts iv s.
Proof. destruct consts as [l|]; [intros H; exact (H l eq_refl)|exact (fun _ => I)]. Qed.

(** Gather: out[ii, jj, kk] = data[ii, indices[jj], kk], with and without safe code, and
    whether or not the compiler knows the indices. *)
Theorem C55_gather {T} safe consts axis (data : mem T) (ind : mem Z) dv iv sI d sK :
  mShape data = sI ++ d :: sK -> names_axis (length (mShape data)) (length sI) axis ->
  (forall i, valid (mShape data) i -> mAt data i = Some (dv i)) -> (forall j, valid (mShape ind) j -> mAt ind j = Some (iv j)) ->
  constants_true consts iv (mShape ind) ->
  (forall j, valid (mShape ind) j -> legal d (iv j)) ->
  exists out, gatherLoop safe consts axis data ind = Some out /\ mShape out = sI ++ mShape ind ++ sK /\
    forall ii jj kk, valid sI ii -> valid (mShape ind) jj -> valid sK kk -> mAt out (ii ++ jj ++ kk) = Some (dv (ii ++ wrap d (iv jj) :: kk)).
Proof.
  intros HS HA HD HI HC HL. apply gather_ok with (d := d) (pos := wrap d); auto.
  intros j V. split; [eapply adjust_legal; eauto; now apply knows_of|apply wrap_bound; auto].
Qed.
(** With safe code any index values are harmless: illegal ones read the nearest position. *)
Theorem C55_gather_safe {T} consts axis (data : mem T) (ind : mem Z) dv iv sI d sK :
  mShape data = sI ++ d :: sK -> names_axis (length (mShape data)) (length sI) axis -> 0 < d ->
  (forall i, valid (mShape data) i -> mAt data i = Some (dv i)) -> (forall j, valid (mShape ind) j -> mAt ind j = Some (iv j)) ->
  constants_true consts iv (mShape ind) ->
  exists out, gatherLoop true consts axis data ind = Some out /\ mShape out = sI ++ mShape ind ++ sK /\
    forall ii jj kk, valid sI ii -> valid (mShape ind) jj -> valid sK kk -> mAt out (ii ++ jj ++ kk) = Some (dv (ii ++ clamp d (wrap d (iv jj)) :: kk)).
Proof.
  intros HS HA D HD HI HC. apply gather_ok with (d := d) (pos := fun v => clamp d (wrap d v)); auto.
  intros j V. split; [eapply adjust_safe; eauto; now apply knows_of|unfold clamp; lia].
Qed.
(** The warning printed for an illegal index says that it is replaced with zero; an index
    past the end is in fact replaced with the last position. *)
Theorem C55_safe_warning_refuted : exists (data : mem Z) (ind : mem Z) out,
  gatherLoop true None 0 data ind = Some out /\ mAt ind [0] = Some 7 /\ reportsReplacedByZero true 3 7 = true /\
  mAt data [0] = Some 10 /\ mAt out [0] = Some 30.
Proof.
  exists (Mem [3] (fun i => match i with [k] => Some (10 * (k + 1)) | _ => None end)), (Mem [1] (fun _ => Some 7)).
  eexists. split; [reflexivity|]. repeat split; reflexivity.
Qed.

(** GatherElements: out[i] = data[i with indices[i] at the axis]. *)
Theorem C55_gather_elements {T} safe consts axis (data : mem T) (ind : mem Z) dv iv a :
  names_axis (length (mShape data)) a axis ->
  length (mShape ind) = length (mShape data) -> (forall r, r <> a -> nth r (mShape ind) 0 <= nth r (mShape data) 0) ->
  (forall i, valid (mShape data) i -> mAt data i = Some (dv i)) -> (forall j, valid (mShape ind) j -> mAt ind j = Some (iv j)) ->
  constants_true consts iv (mShape ind) ->
  (forall j, valid (mShape ind) j -> legal (nth a (mShape data) 0) (iv j)) ->
  exists out, gatherElementsLoop safe consts axis data ind = Some out /\ mShape out = mShape ind /\
    forall i, valid (mShape ind) i -> mAt out i = Some (dv (upd a (wrap (nth a (mShape data) 0) (iv i)) i)).
Proof.
  intros HA L F HD HI HC HL. apply gatherElements_ok with (pos := wrap (nth a (mShape data) 0)); auto; [split; auto|].
  intros j V. split; [eapply adjust_legal; eauto; now apply knows_of|apply wrap_bound; auto].
Qed.
Theorem C55_gather_elements_safe {T} consts axis (data : mem T) (ind : mem Z) dv iv a :
  names_axis (length (mShape data)) a axis -> 0 < nth a (mShape data) 0 ->
  length (mShape ind) = length (mShape data) -> (forall r, r <> a -> nth r (mShape ind) 0 <= nth r (mShape data) 0) ->
  (forall i, valid (mShape data) i -> mAt data i = Some (dv i)) -> (forall j, valid (mShape ind) j -> mAt ind j = Some (iv j)) ->
  constants_true consts iv (mShape ind) ->
  exists out, gatherElementsLoop true consts axis data ind = Some out /\ mShape out = mShape ind /\
    forall i, valid (mShape ind) i -> mAt out i = Some (dv (upd a (clamp (nth a (mShape data) 0) (wrap (nth a (mShape data) 0) (iv i))) i)).
Proof.
  intros HA D L F HD HI HC. apply gatherElements_ok with (pos := fun v => clamp (nth a (mShape data) 0) (wrap (nth a (mShape data) 0) v)); auto; [split; auto|].
  intros j V. split; [eapply adjust_safe; eauto; now apply knows_of|unfold clamp; lia].
Qed.

(** GatherND: data[bb, XX, kk] and indices[bb, jj, x] share the batch dims [bb]; the output
    at [bb, jj, kk] is data at [bb], then the k index values at [bb, jj], then [kk]; when no
    index value is negative. *)
Theorem C55_gather_nd {T} (data : mem T) (ind : mem Z) dv iv sB sJ sX sK :
  let k := Z.of_nat (length sX) in
  1 <= k -> mShape data = sB ++ sX ++ sK -> mShape ind = sB ++ sJ ++ [k] ->
  okshape (mShape data) -> okshape (mShape ind) ->
  (forall i, valid (mShape data) i -> mAt data i = Some (dv i)) -> (forall j, valid (mShape ind) j -> mAt ind j = Some (iv j)) ->
  (forall bb jj x, valid sB bb -> valid sJ jj -> 0 <= x < k -> 0 <= iv (bb ++ jj ++ [x]) < nth (Z.to_nat x) sX 0) ->
  exists out, gatherNDLoop (length sB) data ind = Some out /\ mShape out = sB ++ sJ ++ sK /\
    forall bb jj kk, valid sB bb -> valid sJ jj -> valid sK kk ->
      mAt out (bb ++ jj ++ kk) = Some (dv (bb ++ map (fun x => iv (bb ++ jj ++ [x])) (zrange k) ++ kk)).
Proof.
  intros k Hk HS HI O1 O2 HD HV HL. rewrite HS in O1. rewrite HI in O2. unfold okshape in *. rewrite !Forall_app in O1, O2.
  destruct O1 as (O1 & _ & O4), O2 as (_ & O3 & _).
  apply gatherND_ok with (sX := sX); auto; [unfold k in Hk; lia|]. intros bb jj V1 V2. unfold tuple. fold k. apply valid_nth_iff.
  - rewrite map_length, zrange_length. unfold k. lia.
  - intros r Hr. rewrite nth_indep with (d' := iv (bb ++ jj ++ [0])) by (rewrite map_length, zrange_length; unfold k; lia).
    rewrite (map_nth (fun x => iv (bb ++ jj ++ [x]))). assert (E : nth r (zrange k) 0 = Z.of_nat r).
    { unfold zrange. apply nth_error_nth. rewrite zseq_nth by (unfold k; lia). f_equal. }
    rewrite E. specialize (HL bb jj (Z.of_nat r) V1 V2 ltac:(unfold k; lia)). rewrite Nat2Z.id in HL. exact HL.
Qed.
(** A negative index value, legal in ONNX and accepted by the verifier, is not corrected:
    the emitted code reads outside the data. *)
Theorem C55_gather_nd_negative_refuted : exists (data : mem Z) (ind : mem Z),
  mShape data = [3] /\ mShape ind = [1; 1] /\ (forall i, valid [3] i -> exists v, mAt data i = Some v) /\
  (forall j, valid [1; 1] j -> mAt ind j = Some (-1)) /\ legal 3 (-1) /\ gatherNDLoop 0 data ind = None.
Proof.
  exists (Mem [3] (fun i => Some (nth 0 i 0))), (Mem [1; 1] (fun _ => Some (-1))).
  split; [reflexivity|]. split; [reflexivity|]. split; [intros; eexists; reflexivity|]. split; [reflexivity|]. split; [unfold legal; lia|]. vm_compute. reflexivity.
Qed.

(** Concrete instances of the hypotheses. *)
Example C55_run : let data := Mem [2; 3] (fun i => match i with [r; c] => Some (10 * r + c) | _ => None end) in
  let ind := Mem [2] (fun j => match j with [0] => Some (-1) | _ => Some 0 end) in
  names_axis 2 1 (-1) /\ legal 3 (-1) /\
  option_map (fun m => map (mAt m) (indices [2; 2])) (gatherLoop false None (-1) data ind) = Some (map Some [2; 0; 12; 10]).
Proof. cbn zeta. split; [split; [lia|right; reflexivity]|]. split; [unfold legal; lia|]. vm_compute. reflexivity. Qed.
Example C55_run_nd : let data := Mem [2; 2; 2] (fun i => match i with [b; r; c] => Some (100 * b + 10 * r + c) | _ => None end) in
  let ind := Mem [2; 1; 1] (fun j => match j with [0; _; _] => Some 1 | _ => Some 0 end) in
  option_map (fun m => map (mAt m) (indices [2; 1; 2])) (gatherNDLoop 1 data ind) = Some (map Some [10; 11; 100; 101]).
Proof. vm_compute. reflexivity. Qed.
Print Assumptions C55_gather.
Print Assumptions C55_gather_nd.
