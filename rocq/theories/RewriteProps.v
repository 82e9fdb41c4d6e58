(** C38: rewrites that move, merge and remove constants keep the tensor an
    integer expression stands for. *)
From Coq Require Import ZArith List Bool Lia.
From Verif Require Import Util TensorSpec TensorLemmas BroadcastSpec FoldSpec FoldModel FoldProofs
  RewriteSpec RewriteModel RewriteProofs RewriteSteps.
Import ListNotations.
Open Scope Z_scope.

(** The functional broadcast of RewriteSpec is the one of the ONNX
    definition (BroadcastSpec). *)
Lemma zl_nth : forall a b s j, zipLong bsize a b = Some s ->
  bsize (nth j a 1) (nth j b 1) = Some (nth j s 1).
Proof.
  induction a as [|x a IH]; intros b s j H.
  - cbn in H. injection H as <-. destruct j; reflexivity.
  - destruct b as [|y b].
    + cbn in H. injection H as <-. rewrite bsize_comm. destruct j; reflexivity.
    + cbn in H. apply obind_some in H as (d & Hd & H). apply obind_some in H as (r & Hr & H). injection H as <-.
      destruct j; cbn; auto.
Qed.

Lemma zl_len : forall a b s, zipLong bsize a b = Some s -> length s = Nat.max (length a) (length b).
Proof.
  induction a as [|x a IH]; intros [|y b] s H; cbn in H; try (injection H as <-; reflexivity).
  apply obind_some in H as (d & Hd & H). apply obind_some in H as (r & Hr & H). injection H as <-.
  cbn. f_equal. auto.
Qed.

Lemma zl_ex : forall a b s, length s = Nat.max (length a) (length b) ->
  (forall j, (j < length s)%nat -> bsize (nth j a 1) (nth j b 1) = Some (nth j s 1)) ->
  zipLong bsize a b = Some s.
Proof.
  induction a as [|x a IH]; intros b s L H.
  - cbn in *. f_equal. apply nth_ext with (d := 1) (d' := 1); [lia|]. intros j Hj.
    specialize (H j ltac:(lia)). destruct j; cbn in H; congruence.
  - destruct b as [|y b].
    + cbn in *. f_equal. apply nth_ext with (d := 1) (d' := 1); [cbn; lia|]. intros j Hj.
      specialize (H j ltac:(cbn in *; lia)). rewrite bsize_comm in H. destruct j; cbn in H |- *; congruence.
    + destruct s as [|d s]; [cbn in L; lia|]. cbn in L |- *.
      pose proof (H 0%nat ltac:(cbn; lia)) as H0. cbn [nth] in H0. rewrite H0. cbn [obind].
      rewrite (IH b s); [reflexivity|lia|]. intros j Hj. apply (H (S j)). cbn; lia.
Qed.

Lemma bsize_bcast a b o : bsize a b = Some o <-> bcast_dim [a; b] o.
Proof.
  unfold bsize, bcast_dim. cbn [In]. split.
  - intros H. destruct (Z.eqb_spec a 1); [injection H as <-|destruct (Z.eqb_spec b 1); [injection H as <-|
      destruct (Z.eqb_spec a b); [injection H as <-|discriminate]]]; (split; [auto|]); intros v [<-|[<-|[]]]; auto.
  - intros [[<-|[<-|[]]] H].
    + assert (b = 1 \/ b = a) as Hb by auto.
      destruct (Z.eqb_spec a 1), (Z.eqb_spec b 1), (Z.eqb_spec a b); try (f_equal; lia); lia.
    + assert (a = 1 \/ a = b) as Ha by auto.
      destruct (Z.eqb_spec a 1), (Z.eqb_spec b 1), (Z.eqb_spec a b); try (f_equal; lia); lia.
Qed.

Theorem C38_broadcast_spec : forall s1 s2 o, bshape s1 s2 = Some o <-> broadcast [s1; s2] o.
Proof.
  intros s1 s2 o. unfold bshape, broadcast, rdim. split.
  - intros H. apply obind_some in H as (r & Hr & H). injection H as <-.
    pose proof (zl_len _ _ _ Hr) as L. rewrite !rev_length in L. rewrite rev_length, rev_involutive.
    split; [intros s [<-|[<-|[]]]; lia|]. split.
    + destruct (Nat.max_spec (length s1) (length s2)) as [[? E]|[? E]]; [exists s2|exists s1]; cbn; split; auto; lia.
    + intros j Hj. apply bsize_bcast. apply zl_nth. auto.
  - intros (L1 & (s & Hin & L) & H). rewrite (zl_ex (rev s1) (rev s2) (rev o)).
    + cbn. rewrite rev_involutive. reflexivity.
    + rewrite !rev_length. pose proof (L1 s1 ltac:(cbn; auto)). pose proof (L1 s2 ltac:(cbn; auto)).
      destruct Hin as [<-|[<-|[]]]; lia.
    + rewrite rev_length. intros j Hj. apply bsize_bcast. apply (H j Hj).
Qed.

(** For programs with static types, every history of rewrites, in any order
    and at any places, keeps the tensor. *)
Theorem C38_static : forall sg w bound env h e e',
  widthOK w -> inferred (TInt sg w) e -> allStatic e -> inputsOK (TInt sg w) env e ->
  Forall (fun r => modularPattern (snd r)) h ->
  rewrites (TInt sg w) bound h e = Some e' ->
  sameTensor (TInt sg w) env e e'.
Proof.
  intros sg w bound env h e e' W F S I M R.
  apply (keeps_rewrites sg w bound W env h); auto.
  apply (static_ranked sg w bound W h e env); auto.
Qed.

(** For all programs with inferred types, dynamic or even unranked, the same
    holds if neutral constants are only dropped from operations of ranked
    type. *)
Theorem C38_ranked : forall sg w bound env h e e',
  widthOK w -> inferred (TInt sg w) e -> inputsOK (TInt sg w) env e ->
  Forall (fun r => modularPattern (snd r)) h ->
  rankedRemovals (TInt sg w) bound h e ->
  rewrites (TInt sg w) bound h e = Some e' ->
  sameTensor (TInt sg w) env e e'.
Proof. intros sg w bound env h e e' W F I M Rk R. apply (keeps_rewrites sg w bound W env h); auto. Qed.

(** Moving and merging alone is safe for all of them. *)
Definition removes (p : pattern) : bool := match p with NeutralOnRhs _ => true | _ => false end.

Theorem C38_moving : forall sg w bound env h e e',
  widthOK w -> inferred (TInt sg w) e -> inputsOK (TInt sg w) env e ->
  Forall (fun r => modularPattern (snd r) /\ removes (snd r) = false) h ->
  rewrites (TInt sg w) bound h e = Some e' ->
  sameTensor (TInt sg w) env e e'.
Proof.
  intros sg w bound env h e e' W F I M R. apply (C38_ranked sg w bound env h); auto.
  - eapply Forall_impl; [|exact M]. intros r [H _]; exact H.
  - clear R F I. revert e. induction M as [|[path p] h [_ H] M IH]; intros e; cbn; auto.
    split; auto. destruct p; try discriminate H; exact Logic.I.
Qed.

(** After such a history the declared type of the result still describes the
    tensor, and no fact that was known about its type is lost. *)
Theorem C38_types : forall sg w bound env h e e' s,
  widthOK w -> inferred (TInt sg w) e -> inputsOK (TInt sg w) env e ->
  Forall (fun r => modularPattern (snd r)) h ->
  rankedRemovals (TInt sg w) bound h e ->
  rewrites (TInt sg w) bound h e = Some e' -> shapeOf env e' = Some s ->
  conforms (ann e') s /\ known e' = known e.
Proof.
  intros sg w bound env h e e' s W F I M Rk R S.
  destruct (keeps_rewrites sg w bound W env h e e' F I M Rk R) as (_ & Kn & F' & I').
  split; [|auto]. destruct (annOK sg w env e' F') as [->|A]; [exact Logic.I|].
  rewrite A. eapply known_conforms; eauto.
Qed.

(** *** What is not true *)

(** A nested operator that a rewrite creates in a program with dynamic
    dimensions has an unranked type, and so has an operator created around
    it: dropping a zero constant between two unranked values can drop a
    broadcast.  Here ((p + 5) + q) + (-[[0,0,0]]), all types inferred, with p
    and q of run-time shape 1x1. *)
Definition i32t := TInt true 32.
Definition dyn2 : sty := Some [None; None].
Definition lostBroadcast : texpr :=
  TBin Add
    (TBin Add (TBin Add (Var 0 dyn2) (Const [1; 1] [5]) dyn2) (Var 1 dyn2) dyn2)
    (TUn Neg (Const [1; 3] [0; 0; 0]) (Some [Some 1; Some 3]))
    (Some [None; Some 3]).
Definition lostHistory : list (list bool * pattern) :=
  [([false], ConstAssociative2 AAdd); ([], ConstAssociative2 AAdd);
   ([false; true], UnofConst Neg); ([false], NeutralOnRhs NAdd)].
Definition oneByOne : nat -> tensor := fun n => mkTensor [1; 1] (fun _ => Z.of_nat n + 7).

Theorem C38_unranked_removal_refuted : exists env h e e',
  inferred i32t e /\ inputsOK i32t env e /\
  Forall (fun r => modularPattern (snd r)) h /\
  rewrites i32t (-1) h e = Some e' /\
  shapeOf env e = Some [1; 3] /\ shapeOf env e' = Some [1; 1] /\
  ann e' = ann e /\ ~ conforms (ann e') [1; 1].
Proof.
  exists oneByOne, lostHistory, lostBroadcast.
  eexists. split; [|split; [|split; [|split; [vm_compute; reflexivity|]]]].
  - cbn. unfold is_data. repeat split; auto; repeat constructor; discriminate.
  - assert (forall n, (n <= 1)%nat -> conforms dyn2 (tshape (oneByOne n)) /\ okshape (tshape (oneByOne n)) /\
        forall idx, valid (tshape (oneByOne n)) idx -> inRange i32t (tat (oneByOne n) idx)) as H.
    { intros n Hn. split; [repeat constructor|]. split; [repeat constructor; discriminate|].
      intros idx _. cbn. lia. }
    cbn [inputsOK lostBroadcast]. pose proof (H 0%nat ltac:(lia)). pose proof (H 1%nat ltac:(lia)). tauto.
  - repeat constructor.
  - split; [reflexivity|]. split; [reflexivity|]. split; [reflexivity|].
    cbn. intros C. inversion C as [|? ? ? ? _ C']; subst. inversion C' as [|? ? ? ? [C''|C''] _]; discriminate.
Qed.

(** *** Non-vacuity *)

(** (x - [3, -128]) + (y + 5) over int8, x of shape 2x2 and y of shape 2: the
    constants are merged into one. *)
Definition i8t := TInt true 8.
Definition st (s : list Z) : sty := Some (map Some s).
Definition chain : texpr :=
  TBin Add
    (TBin Sub (Var 0 (st [2; 2])) (Const [2] [3; -128]) (st [2; 2]))
    (TBin Add (Var 1 (st [2])) (Const [1] [5]) (st [2]))
    (st [2; 2]).
Definition chainHistory : list (list bool * pattern) :=
  [([false], SubConstToNeg); ([], ConstAssociative4 AAdd); ([true], ConstProp Add)].
Definition chainEnv : nat -> tensor := fun n =>
  if Nat.eqb n 0 then mkTensor [2; 2] (fun _ => 100) else mkTensor [2] (fun _ => 50).

Example C38_static_example :
  inferred i8t chain /\ allStatic chain /\ inputsOK i8t chainEnv chain /\
  Forall (fun r => modularPattern (snd r)) chainHistory /\
  rewrites i8t (-1) chainHistory chain =
    Some (TBin Add (TBin Add (Var 0 (st [2; 2])) (Var 1 (st [2])) (st [2; 2]))
            (Const [2] [2; 133]) (st [2; 2])) /\
  shapeOf chainEnv chain = Some [2; 2] /\
  valueAt i8t chainEnv chain [1; 0] = Some (-104) /\
  valueAt i8t chainEnv chain [0; 1] = Some 27.
Proof.
  split; [|split; [|split; [|split; [|vm_compute; auto]]]].
  - cbn. unfold is_data. repeat split; auto; repeat constructor; discriminate.
  - cbn. repeat split; auto; repeat constructor; discriminate.
  - cbn. repeat split; auto; repeat constructor; try discriminate; cbn; auto.
  - repeat constructor.
Qed.

(** A dynamic program with a zero removal of ranked type: x - 0 with x of
    type ?x3. *)
Example C38_ranked_example :
  let e := TBin Mul (TBin Sub (Var 0 (Some [None; Some 3])) (Const [3] [256; 0; -256]) (Some [None; Some 3]))
             (Const [] [1]) (Some [None; Some 3]) in
  let h := [([false], NeutralOnRhs NSub); ([], NeutralOnRhs NMul)] in
  inferred i8t e /\ rankedRemovals i8t (-1) h e /\
  rewrites i8t (-1) h e = Some (Var 0 (Some [None; Some 3])).
Proof.
  split; [|split].
  - cbn. unfold is_data. repeat split; auto; repeat constructor; discriminate.
  - cbn [rankedRemovals]. split; [|intros e' R; split; auto].
    + cbn. intros e' E. injection E as <-. discriminate.
    + vm_compute in R. injection R as <-. cbn. intros e' E. injection E as <-. discriminate.
  - reflexivity.
Qed.

Print Assumptions C38_static.
Print Assumptions C38_ranked.
Print Assumptions C38_moving.
Print Assumptions C38_types.
Print Assumptions C38_broadcast_spec.
Print Assumptions C38_unranked_removal_refuted.
