(** C81: rewriting Reshape operations keeps their results. *)
From Coq Require Import List ZArith Bool Lia.
From Verif Require Import Util TensorSpec TensorLemmas ShapeOpsModel ShapeOpsSpec ShapeOpsProofs ReshapeRewriteSpec ReshapeRewriteModel ReshapeRewriteProofs.
Import ListNotations.
Open Scope Z_scope.

(** Two Reshapes made into one: the same final shape from the same data, whenever the entries known
    only at run time are positive. *)
Theorem C81_fuse : forall s1 s2 fused data mid out,
  (forall v, In (Run v) s1 \/ In (Run v) s2 -> 0 < v) ->
  fuseTwoReshapes 0 0 s1 s2 = Some fused ->
  legal_target data (map value s1) -> reshapes_to data (map value s1) mid ->
  legal_target mid (map value s2) -> reshapes_to mid (map value s2) out ->
  legal_target data (map value fused) /\ reshapes_to data (map value fused) out.
Proof.
  intros s1 s2 fused data mid out Rp. apply fuse_ok; apply Forall_forall; intros [v|v] I; auto.
Qed.
(** The lowering of the fused Reshape computes that shape. *)
Theorem C81_fuse_run : forall s1 s2 fused data mid out,
  (forall v, In (Run v) s1 \/ In (Run v) s2 -> 0 < v) -> Forall (fun d => 1 <= d) data ->
  fuseTwoReshapes 0 0 s1 s2 = Some fused ->
  legal_target data (map value s1) -> reshapes_to data (map value s1) mid ->
  legal_target mid (map value s2) -> reshapes_to mid (map value s2) out ->
  reshapeRun (repeat None (length fused)) data (map value fused) = Some out.
Proof.
  intros s1 s2 fused data mid out Rp Pos F L1 R1 L2 R2. destruct (C81_fuse s1 s2 fused data mid out Rp F L1 R1 L2 R2) as [L R].
  apply reshape_run_ok; auto. intros i k H. apply nth_error_In, repeat_spec in H. discriminate.
Qed.
(** Reshape [2;3;4] to [6;-1], then to [0;2;-1]: the -1s would be two; to [0;2;2]: one. *)
Example C81_fuse_case :
  fuseTwoReshapes 0 0 [Const 6; Const (-1)] [Const 0; Const 2; Const 2] = Some [Const 6; Const 2; Const 2] /\
  fuseTwoReshapes 0 0 [Const (-1); Const 4] [Const 0; Const 2; Run 2] = Some [Const (-1); Const 2; Run 2] /\
  fuseTwoReshapes 0 0 [Const (-1); Const 4] [Const 0; Const 2; Const (-1)] = None /\
  legal_target [2; 3; 4] [-1; 4] /\ reshapes_to [2; 3; 4] [-1; 4] [6; 4] /\ legal_target [6; 4] [0; 2; 2] /\ reshapes_to [6; 4] [0; 2; 2] [6; 2; 2] /\
  reshapeRun [None; None; None] [2; 3; 4] [-1; 2; 2] = Some [6; 2; 2].
Proof.
  split; [reflexivity|]. split; [reflexivity|]. split; [reflexivity|].
  split. { split; [intros [|[|[|i]]] v E; cbn in E; try discriminate; injection E as <-; cbn; lia|]. intros [|[|[|i]]] [|[|[|j]]] Hi Hj; cbn in *; try discriminate; auto. }
  split. { split; [reflexivity|]. split; [|reflexivity]. intros [|[|[|i]]] v E; cbn in E; try discriminate; injection E as <-; split; intros; cbn; auto; lia. }
  split. { split; [intros [|[|[|[|i]]]] v E; cbn in E; try discriminate; injection E as <-; cbn; lia|]. intros [|[|[|[|i]]]] [|[|[|[|j]]]] Hi Hj; cbn in *; try discriminate; auto. }
  split. { split; [reflexivity|]. split; [|reflexivity]. intros [|[|[|[|i]]]] v E; cbn in E; try discriminate; injection E as <-; split; intros; cbn; auto; lia. }
  reflexivity.
Qed.

(** When an entry known only at run time is 0 or -1, the fused Reshape fails where the two succeed:
    [6;2] to [3;4] to [0;4] gives [3;4], but the fused target [0;4] copies 6; [2;4] to [-1;4] to
    [0;-1] has a fused target with two -1s. *)
Theorem C81_fuse_runtime_refuted :
  (exists s1 s2 fused data mid out, fuseTwoReshapes 0 0 s1 s2 = Some fused /\ Forall (fun d => 1 <= d) data /\
     legal_target data (map value s1) /\ reshapes_to data (map value s1) mid /\ legal_target mid (map value s2) /\ reshapes_to mid (map value s2) out /\
     legal_target data (map value fused) /\ forall out', ~ reshapes_to data (map value fused) out') /\
  (exists s1 s2 fused data mid out, fuseTwoReshapes 0 0 s1 s2 = Some fused /\ Forall (fun d => 1 <= d) data /\
     legal_target data (map value s1) /\ reshapes_to data (map value s1) mid /\ legal_target mid (map value s2) /\ reshapes_to mid (map value s2) out /\
     ~ legal_target data (map value fused)).
Proof.
  split.
  - exists [Const 3; Const 4], [Run 0; Const 4], [Run 0; Const 4], [6; 2], [3; 4], [3; 4]. split; [reflexivity|]. split; [repeat constructor; lia|].
    split. { split; [intros [|[|[|i]]] v E; cbn in E; try discriminate; injection E as <-; cbn; lia|]. intros [|[|[|i]]] [|[|[|j]]] Hi Hj; cbn in *; try discriminate; auto. }
    split. { split; [reflexivity|]. split; [|reflexivity]. intros [|[|[|i]]] v E; cbn in E; try discriminate; injection E as <-; split; intros; cbn; auto; lia. }
    split. { split; [intros [|[|[|i]]] v E; cbn in E; try discriminate; injection E as <-; cbn; lia|]. intros [|[|[|i]]] [|[|[|j]]] Hi Hj; cbn in *; try discriminate; auto. }
    split. { split; [reflexivity|]. split; [|reflexivity]. intros [|[|[|i]]] v E; cbn in E; try discriminate; injection E as <-; split; intros; cbn; auto; lia. }
    split. { split; [intros [|[|[|i]]] v E; cbn in E; try discriminate; injection E as <-; cbn; lia|]. intros [|[|[|i]]] [|[|[|j]]] Hi Hj; cbn in *; try discriminate; auto. }
    intros out' (L & M & P). destruct out' as [|a [|b [|]]]; try discriminate. pose proof (M 0%nat 0 eq_refl) as [X _]. pose proof (M 1%nat 4 eq_refl) as [_ Y].
    specialize (X eq_refl). specialize (Y ltac:(lia)). cbn in X, Y. injection X as ->. injection Y as ->. discriminate.
  - exists [Const (-1); Const 4], [Const 0; Run (-1)], [Const (-1); Run (-1)], [2; 4], [2; 4], [2; 4]. split; [reflexivity|]. split; [repeat constructor; lia|].
    split. { split; [intros [|[|[|i]]] v E; cbn in E; try discriminate; injection E as <-; cbn; lia|]. intros [|[|[|i]]] [|[|[|j]]] Hi Hj; cbn in *; try discriminate; auto. }
    split. { split; [reflexivity|]. split; [|reflexivity]. intros [|[|[|i]]] v E; cbn in E; try discriminate; injection E as <-; split; intros; cbn; auto; lia. }
    split. { split; [intros [|[|[|i]]] v E; cbn in E; try discriminate; injection E as <-; cbn; lia|]. intros [|[|[|i]]] [|[|[|j]]] Hi Hj; cbn in *; try discriminate; auto. }
    split. { split; [reflexivity|]. split; [|reflexivity]. intros [|[|[|i]]] v E; cbn in E; try discriminate; injection E as <-; split; intros; cbn; auto; lia. }
    intros [_ U]. specialize (U 0%nat 1%nat eq_refl eq_refl). discriminate.
Qed.

(** A Reshape with allowzero = 1 after any Reshape: the first is not needed. *)
Theorem C81_fuse_allowzero : forall az2 s1 s2 fused data mid out,
  fuseAllowZero az2 s2 = Some fused -> reshapes_to data s1 mid ->
  reshapes_to_allowing_zero mid s2 out -> az2 = 1 /\ reshapes_to_allowing_zero data fused out.
Proof.
  intros az2 s1 s2 fused data mid out E (_ & _ & P1) (L & M & P2). unfold fuseAllowZero in E. destruct (Z.eqb_spec az2 1); [|discriminate]. injection E as <-.
  split; auto. repeat split; auto. congruence.
Qed.

(** A Reshape that is removed leaves the shape as it is, for data without zero dims; [same] marks
    the positions that dimension analysis proves equal. *)
Theorem C81_identity : forall ins outs same data out,
  isIdentityReshape ins outs same = true -> agrees ins data -> agrees outs out ->
  (forall i, nth_error same i = Some true -> nth_error data i = nth_error out i) ->
  Forall (fun d => 1 <= d) data -> prodZ out = prodZ data -> out = data.
Proof.
  intros ins outs same data out H A B Sm Pos P. unfold isIdentityReshape in H.
  destruct (length ins =? length outs)%nat eqn:El; [|discriminate]. destruct (eqShape ins outs); [|discriminate]. cbn [negb] in H.
  apply Nat.eqb_eq in El. apply Nat.leb_le in H. eapply identity_ok; eauto.
Qed.
Example C81_identity_case : isIdentityReshape [Some 2; None; None] [Some 2; None; None] [false; true; false] = true /\
  isIdentityReshape [Some 2; None; None] [Some 2; None; None] [false; false; false] = false /\
  agrees [Some 2; None; None] [2; 3; 5].
Proof. split; [reflexivity|]. split; [reflexivity|]. repeat constructor; congruence. Qed.
(** With a zero dim, the one unknown dim may change. *)
Theorem C81_identity_refuted : exists ins outs same data out,
  isIdentityReshape ins outs same = true /\ agrees ins data /\ agrees outs out /\
  (forall i, nth_error same i = Some true -> nth_error data i = nth_error out i) /\
  reshapes_to_allowing_zero data [0; 5] out /\ out <> data.
Proof.
  exists [Some 0; None], [Some 0; None], [false; false], [0; 3], [0; 5]. split; [reflexivity|].
  split; [repeat constructor; congruence|]. split; [repeat constructor; congruence|].
  split; [intros [|[|[|i]]] E; discriminate|]. split; [|discriminate].
  split; [reflexivity|]. split; [|reflexivity]. intros [|[|[|i]]] v E _; cbn in E; try discriminate; auto.
Qed.

(** The meaning of a Reshape with the attribute as given, and after the rewriting. *)
Definition reshapesWith (allowzero : Z) : list Z -> list Z -> list Z -> Prop := if allowzero =? 1 then reshapes_to_allowing_zero else reshapes_to.
Theorem C81_allowzero : forall az ins outs data sh out,
  (az = 0 \/ az = 1) -> Forall (fun d => 1 <= d) out ->
  reshapesWith az data sh out -> reshapesWith (if rewriteAllowZero az ins outs then 0 else az) data sh out.
Proof.
  intros az ins outs data sh out Haz Pos H. destruct (rewriteAllowZero az ins outs) eqn:E; auto.
  assert (az = 1) by (unfold rewriteAllowZero in E; destruct (Z.eqb_spec az 1); [auto | discriminate]). subst az.
  apply allowzero_ok; auto.
Qed.
Example C81_allowzero_case : rewriteAllowZero 1 [Some 2; None; Some 6] [Some 12; None] = true /\ rewriteAllowZero 1 [Some 2; None; Some 6] [Some 6; None] = false /\
  reshapes_to_allowing_zero [2; 5; 6] [12; -1] [12; 5].
Proof.
  split; [reflexivity|]. split; [reflexivity|]. split; [reflexivity|]. split; [|reflexivity]. intros [|[|[|i]]] v E H; cbn in E; try discriminate; injection E as <-; auto; lia.
Qed.
(** With zero dims the rewriting changes legal Reshapes: the copied dim is another one, with all
    dims static and with one dynamic dim of value 0. *)
Theorem C81_allowzero_refuted :
  (exists ins outs data sh out, rewriteAllowZero 1 ins outs = true /\ forallb (fun d => negb (isDynamic d)) (ins ++ outs) = true /\
     agrees ins data /\ agrees outs out /\ reshapes_to_allowing_zero data sh out /\ ~ reshapes_to data sh out) /\
  (exists ins outs data sh out, rewriteAllowZero 1 ins outs = true /\
     agrees ins data /\ agrees outs out /\ reshapes_to_allowing_zero data sh out /\ ~ reshapes_to data sh out).
Proof.
  split.
  - exists [Some 0; Some 3], [Some 3; Some 0], [0; 3], [3; 0], [3; 0]. split; [reflexivity|]. split; [reflexivity|].
    split; [repeat constructor; congruence|]. split; [repeat constructor; congruence|].
    split. { split; [reflexivity|]. split; [|reflexivity]. intros [|[|[|i]]] v E _; cbn in E; try discriminate; auto. }
    intros (_ & M & _). destruct (M 1%nat 0 eq_refl) as [X _]. specialize (X eq_refl). discriminate.
  - exists [Some 1; Some 4; None; Some 64], [Some 1; None; Some 256], [1; 4; 0; 64], [1; 0; 256], [1; 0; 256]. split; [reflexivity|].
    split; [repeat constructor; congruence|]. split; [repeat constructor; congruence|].
    split. { split; [reflexivity|]. split; [|reflexivity]. intros [|[|[|[|i]]]] v E _; cbn in E; try discriminate; auto. }
    intros (_ & M & _). destruct (M 1%nat 0 eq_refl) as [X _]. specialize (X eq_refl). discriminate.
Qed.

(** Reshape then MatMul made into MatMul then Reshape, when the last dim of A is static: the buffer
    of the product is the same, and the new Reshape gives the shape of the old product. *)
Theorem C81_swap : forall (T : Type) (add mul : T -> T -> T) zero aT res1T bT res2T target pre K R K1 N A B C,
  swapReshapeMatMul aT res1T bT res2T = Some target -> last aT None <> None ->
  agrees aT (pre ++ [K]) -> agrees res1T [R; K1] -> agrees res2T [R; N] -> Forall (fun d => 1 <= d) pre -> 1 <= K -> 1 <= N ->
  prodZ [R; K1] = prodZ (pre ++ [K]) -> isProduct add mul zero [R] K1 N A B C ->
  K1 = K /\ isProduct add mul zero pre K N A B C /\ (forall C', isProduct add mul zero pre K N A B C' -> C' = C) /\
  legal_target (pre ++ [N]) target /\ reshapes_to (pre ++ [N]) target [R; N].
Proof.
  intros T add mul zero aT res1T bT res2T target pre K R K1 N A B C E Hl Ha H1 H2 Pos HK HN HP PC.
  assert (Ok : okshape pre) by (eapply Forall_impl; [|exact Pos]; cbn; intros; lia).
  assert (HP' : R * K1 = size pre * K). { change (prodZ [R; K1]) with (size [R; K1]) in HP. change (prodZ (pre ++ [K])) with (size (pre ++ [K])) in HP. rewrite size_app, !size_cons, size_nil in HP. lia. }
  destruct (swap_ok add mul zero aT res1T bT res2T target pre K R K1 N A B C C E Hl Ha H1 H2 Ok HK HN HP' PC) as (P1 & _ & -> & -> & P4).
  assert (1 <= size pre) by (apply prodZ_pos; auto). assert (R = size pre) by nia.
  split; auto. split; auto. split. { intros C' P'. apply (swap_ok add mul zero aT res1T bT res2T _ pre K R K N A B C C' E Hl Ha H1 H2 Ok HK HN HP' PC); auto. }
  split. { split; [intros [|[|[|i]]] v X; cbn in X; try discriminate; injection X as <-; lia|]. intros [|[|[|i]]] [|[|[|j]]] X Y; cbn in *; try discriminate; auto; injection X as X; injection Y as Y; lia. }
  split; [reflexivity|]. split.
  - intros [|[|[|i]]] v X; cbn in X; try discriminate; injection X as <-; split; intros; auto; lia.
  - change (prodZ [R; N]) with (size [R; N]). change (prodZ (pre ++ [N])) with (size (pre ++ [N])). rewrite size_app, !size_cons, size_nil. lia.
Qed.
(** [1;2;3] reshaped to [2;3], times [3;1]. *)
Example C81_swap_case : swapReshapeMatMul [Some 1; None; Some 3] [Some 2; Some 3] [None; Some 1] [Some 2; Some 1] = Some [2; 1] /\
  isProduct Z.add Z.mul 0 [2] 3 1 [1; 2; 3; 4; 5; 6] [7; 8; 9] [50; 122].
Proof.
  split; [reflexivity|]. split; [reflexivity|]. split; [reflexivity|]. split; [reflexivity|].
  intros p j Vp Hj. destruct p as [|i p]; [inversion Vp|]. apply valid_cons in Vp as [Hi Vn]. inversion Vn; subst. assert (j = 0) by lia. subst j.
  assert (i = 0 \/ i = 1) as [-> | ->] by lia.
  - exists [1; 2; 3], [7; 8; 9]. split; [reflexivity|]. split; [reflexivity|]. split; [|reflexivity].
    intros k Hk. assert (k = 0 \/ k = 1 \/ k = 2) as [-> | [-> | ->]] by lia; split; reflexivity.
  - exists [4; 5; 6], [7; 8; 9]. split; [reflexivity|]. split; [reflexivity|]. split; [|reflexivity].
    intros k Hk. assert (k = 0 \/ k = 1 \/ k = 2) as [-> | [-> | ->]] by lia; split; reflexivity.
Qed.
(** When both last dims are dynamic they need not be equal: [2;3;8] reshaped to [12;4] and
    multiplied by a [4;5] matrix is rewritten to the product of a [2;3;8] tensor and a [4;5] matrix.
    With K = 0 the new Reshape has another number of elements. *)
Theorem C81_swap_refuted :
  (exists aT res1T bT res2T target A B C, swapReshapeMatMul aT res1T bT res2T = Some target /\
     agrees aT [2; 3; 8] /\ agrees res1T [12; 4] /\ agrees bT [4; 5] /\ agrees res2T [12; 5] /\ prodZ [12; 4] = prodZ [2; 3; 8] /\
     isProduct Z.add Z.mul 0 [12] 4 5 A B C /\ forall C', ~ isProduct Z.add Z.mul 0 [2; 3] 8 5 A B C') /\
  (exists aT res1T bT res2T target C, swapReshapeMatMul aT res1T bT res2T = Some target /\ last aT None <> None /\
     agrees aT [2; 3; 0] /\ agrees res1T [7; 0] /\ agrees bT [0; 5] /\ agrees res2T [7; 5] /\ prodZ [7; 0] = prodZ [2; 3; 0] /\
     isProduct Z.add Z.mul 0 [7] 0 5 [] [] C /\ forall out, reshapes_to [2; 3; 5] target out -> out <> [7; 5]).
Proof.
  split.
  - exists [Some 2; Some 3; None], [Some 12; None], [None; Some 5], [Some 12; Some 5], [12; 5], (repeat 0 48), (repeat 0 20), (repeat 0 60).
    split; [reflexivity|]. split; [repeat constructor; congruence|]. split; [repeat constructor; congruence|]. split; [repeat constructor; congruence|]. split; [repeat constructor; congruence|].
    split; [reflexivity|]. split; [|intros C' (_ & D & _); discriminate].
    split; [reflexivity|]. split; [reflexivity|]. split; [reflexivity|].
    intros p j Vp Hj. destruct p as [|i p]; [inversion Vp|]. apply valid_cons in Vp as [Hi Vn]. inversion Vn; subst. exists (repeat 0 4), (repeat 0 4). split; [reflexivity|]. split; [reflexivity|].
    assert (Z0 : forall n i, 0 <= i < Z.of_nat n -> zget (repeat 0 n) i = Some 0).
    { intros n x Hx. destruct (zget_some (repeat 0 n) x) as [v E]; [rewrite repeat_length; exact Hx|]. rewrite E. f_equal. rewrite zget_spec in E by lia. apply nth_error_In, repeat_spec in E. auto. }
    unfold elem. cbn [app]. split.
    + intros k Hk. rewrite !snoc_rm2. rewrite !Z0 by lia. auto.
    + rewrite snoc_rm2, Z0 by lia. reflexivity.
  - exists [Some 2; Some 3; Some 0], [Some 7; Some 0], [Some 0; Some 5], [Some 7; Some 5], [7; 5], (repeat 0 35).
    split; [reflexivity|]. split; [discriminate|]. split; [repeat constructor; congruence|]. split; [repeat constructor; congruence|]. split; [repeat constructor; congruence|]. split; [repeat constructor; congruence|].
    split; [reflexivity|]. split.
    + split; [reflexivity|]. split; [reflexivity|]. split; [reflexivity|].
      intros p j Vp Hj. destruct p as [|i p]; [inversion Vp|]. apply valid_cons in Vp as [Hi Vn]. inversion Vn; subst. exists [], []. split; [reflexivity|]. split; [reflexivity|]. split; [intros; lia|].
      unfold elem. cbn [app]. rewrite snoc_rm2. destruct (zget_some (repeat 0 35) (i * 5 + j)) as [v E]; [rewrite repeat_length; lia|]. rewrite E. f_equal.
      rewrite zget_spec in E by lia. apply nth_error_In, repeat_spec in E. auto.
    + intros out (_ & _ & P) ->. discriminate.
Qed.

Print Assumptions C81_fuse.
Print Assumptions C81_fuse_run.
Print Assumptions C81_fuse_runtime_refuted.
Print Assumptions C81_fuse_allowzero.
Print Assumptions C81_identity.
Print Assumptions C81_identity_refuted.
Print Assumptions C81_allowzero.
Print Assumptions C81_allowzero_refuted.
Print Assumptions C81_swap.
Print Assumptions C81_swap_refuted.
