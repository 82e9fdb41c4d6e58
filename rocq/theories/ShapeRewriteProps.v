(** C83: rewriting shape computations keeps their results. *)
From Coq Require Import List ZArith Bool Lia Permutation Sorted.
From Verif Require Import Util TensorSpec ElementsSpec ShapeOpsModel ShapeOpsSpec TransposeLoopProofs ReshapeRewriteModel ReshapeRewriteProofs ShapeRewriteSpec ShapeRewriteModel ShapeRewriteProofs.
Import ListNotations.
Open Scope Z_scope.

(** Unsqueeze of an expanded scalar, axes not negative: the new shape is that of the Unsqueeze. *)
Theorem C83_unsqueeze : forall data axes,
  Forall (fun a => 0 <= a < Z.of_nat (length data) + Z.of_nat (length axes)) axes -> NoDup axes ->
  exists out, unsqueezeOfExpand data axes = Some out /\ unsqueezed data axes out.
Proof. exact unsqueezeOfExpand_ok. Qed.
Example C83_unsqueeze_case : unsqueezeOfExpand [7; 8] [0; 2] = Some [1; 7; 1; 8] /\ Forall (fun a => 0 <= a < 4) [0; 2] /\ NoDup [0; 2].
Proof. split; [reflexivity|]. split; [repeat constructor; lia|]. repeat constructor; cbn; lia. Qed.
(** Axis -1 of dims 7 and 8 gives 7, 1, 8 instead of 7, 8, 1; axis -3 reads past the dims. *)
Theorem C83_unsqueeze_negative_refuted :
  (exists data axes out, axes_in_range (Z.of_nat (length data) + Z.of_nat (length axes)) axes /\ axes_distinct (Z.of_nat (length data) + Z.of_nat (length axes)) axes /\
     unsqueezed data axes out /\ unsqueezeOfExpand data axes <> Some out /\ unsqueezeOfExpand data axes = Some [7; 1; 8]) /\
  (exists data axes, axes_in_range (Z.of_nat (length data) + Z.of_nat (length axes)) axes /\ axes_distinct (Z.of_nat (length data) + Z.of_nat (length axes)) axes /\
     unsqueezeOfExpand data axes = None).
Proof.
  split.
  - exists [7; 8], [-1], [7; 8; 1]. split; [repeat constructor; cbn; lia|]. split; [repeat constructor; auto|]. split; [|split; [discriminate | reflexivity]].
    split; [reflexivity|]. split.
    + intros a (b & [<- | []] & ->). reflexivity.
    + exists [0; 1]. split; [|split; [repeat constructor | reflexivity]]. intros a. cbn [length]. split.
      * intros [<- | [<- | []]]; split; try lia; intros (b & [<- | []] & E); cbn in E; lia.
      * intros [H N]. assert (a = 0 \/ a = 1 \/ a = 2) as [-> | [-> | ->]] by lia; cbn; auto. exfalso. apply N. exists (-1). split; [left; auto | reflexivity].
  - exists [7; 8], [-3]. split; [repeat constructor; cbn; lia|]. split; [repeat constructor; auto | reflexivity].
Qed.

(** The positions a Slice changes. *)
Definition sliced (rank startsSize : Z) (axes : option (list Z)) (a : Z) : Prop :=
  match axes with None => 0 <= a < startsSize | Some l => axis_in rank l a end.
(** Slice of an expanded scalar, when the type of the result has static dims at the axes. *)
Theorem C83_slice : forall dataT outT startsSize axes data out l, let rank := Z.of_nat (length data) in
  agrees dataT data -> agrees outT out -> length out = length data ->
  (forall a, 0 <= a < rank -> ~ sliced rank startsSize axes a -> zget out a = zget data a) ->
  (forall a, sliced rank startsSize axes a -> zget outT a <> Some None) ->
  sliceOfExpand dataT outT (Some startsSize) axes data = Rewritten l -> l = out.
Proof.
  intros dataT outT startsSize axes data out l rank Ad Ao L Same Stat E. unfold sliceOfExpand in E.
  assert (Lo : length outT = length data) by (rewrite <- L; clear - Ao; induction Ao; cbn; auto). rewrite Lo in E. fold rank in E.
  set (ax := match axes with None => zrange startsSize | Some l => map (fun v => if 0 <=? v then v else v + rank) l end) in E.
  assert (Ax : forall a, In a ax <-> sliced rank startsSize axes a).
  { intros a. unfold ax, sliced. destruct axes as [m|]; [|apply zrange_In].
    rewrite in_map_iff. unfold axis_in. split; intros (b & H & I); exists b; split; auto; try symmetry; auto; destruct (Z.leb_spec 0 b), (Z.ltb_spec b 0); lia. }
  destruct (checkStatic dataT ax); try discriminate.
  apply (sliceNewDims_ok ax data outT out 0); auto; [lia| |].
  - intros k Hk N. rewrite Z.add_0_l in *. apply Same; [rewrite L in Hk; exact Hk|]. intros I. apply N, Ax, I.
  - intros k I. rewrite Z.add_0_l in I. apply Stat, Ax, I.
Qed.
Example C83_slice_case : sliceOfExpand [Some 4; None] [Some 2; None] (Some 1) (Some [-2]) [4; 9] = Rewritten [2; 9] /\ sliced 2 1 (Some [-2]) 0 /\ ~ sliced 2 1 (Some [-2]) 1.
Proof.
  split; [reflexivity|]. split; [exists (-2); split; [left; auto | reflexivity]|]. intros (b & [<- | []] & E). cbn in E. lia.
Qed.
(** With starts or ends known only at run time the dim of the result is dynamic: -2^63 becomes a
    constant of the new shape. *)
Theorem C83_slice_dynamic_refuted : exists dataT outT startsSize axes data out l, let rank := Z.of_nat (length data) in
  agrees dataT data /\ agrees outT out /\ length out = length data /\
  (forall a, 0 <= a < rank -> ~ sliced rank startsSize axes a -> zget out a = zget data a) /\
  sliceOfExpand dataT outT (Some startsSize) axes data = Rewritten l /\ l = [- 2 ^ 63] /\ out = [3].
Proof.
  exists [Some 4], [None], 1, None, [4], [3], [- 2 ^ 63]. cbn zeta. split; [repeat constructor; congruence|]. split; [repeat constructor; congruence|]. split; [reflexivity|].
  split; [|split; [reflexivity | split; reflexivity]]. intros a H N. exfalso. apply N. cbn in *. lia.
Qed.

(** Dim of Reshape, entries known only at run time being positive. *)
Theorem C83_dim_of_reshape : forall az axis dims data out d, let rank := Z.of_nat (length out) in
  (forall v, In (Run v) dims -> 0 < v) -> legal_target data (map value dims) -> reshapes_to data (map value dims) out ->
  dimOfReshape az rank axis dims = Rewritten d ->
  az = 0 /\ zget out (if axis <? 0 then axis + rank else axis) = Some (value d).
Proof.
  intros az axis dims data out d rank Hr [Lt _] (L & M & _) E. unfold dimOfReshape in E.
  destruct (Z.eqb_spec az 0); [|discriminate]. destruct (Z.of_nat (length dims) =? rank); [|discriminate]. cbn [negb] in E. split; auto.
  set (a := if axis <? 0 then axis + rank else axis) in *. unfold zget in *. destruct (a <? 0); [discriminate|].
  destruct (nth_error dims (Z.to_nat a)) as [d'|] eqn:En; [|discriminate]. destruct (isMinusOne d' || isZero d') eqn:Eb; [discriminate|]. injection E as ->.
  assert (Ev : nth_error (map value dims) (Z.to_nat a) = Some (value d)) by (rewrite nth_error_map, En; reflexivity).
  apply orb_false_iff in Eb as [E1 E2]. destruct (Lt _ _ Ev) as [H1 _]. apply (M _ _ Ev).
  destruct d as [v|v]; cbn in *; [|apply Hr; eapply nth_error_In; eauto]. apply Z.eqb_neq in E1. apply Z.eqb_neq in E2. lia.
Qed.
Example C83_dim_of_reshape_case : dimOfReshape 0 3 (-2) [Const (-1); Run 4; Const 2] = Rewritten (Run 4) /\ dimOfReshape 0 3 0 [Const (-1); Run 4; Const 2] = NoMatch /\
  reshapes_to [8; 5] [-1; 4; 2] [5; 4; 2].
Proof.
  split; [reflexivity|]. split; [reflexivity|]. split; [reflexivity|]. split; [|reflexivity]. intros [|[|[|[|i]]]] v E; cbn in E; try discriminate; injection E as <-; split; intros; auto; lia.
Qed.
Theorem C83_dim_of_reshape_refuted : exists axis dims data out d, legal_target data (map value dims) /\ reshapes_to data (map value dims) out /\
  dimOfReshape 0 (Z.of_nat (length out)) axis dims = Rewritten d /\ zget out axis = Some 6 /\ value d = 0.
Proof.
  exists 0, [Run 0; Const 2], [6; 2], [6; 2], (Run 0). split.
  { split; [intros [|[|[|i]]] v E; cbn in E; try discriminate; injection E as <-; cbn; lia|]. intros [|[|[|i]]] [|[|[|j]]] Hi Hj; cbn in *; try discriminate; auto. }
  split; [|split; [reflexivity | split; reflexivity]]. split; [reflexivity|]. split; [|reflexivity]. intros [|[|[|i]]] v E; cbn in E; try discriminate; injection E as <-; split; intros; auto; lia.
Qed.
(** Dim of Transpose. *)
Theorem C83_dim_of_transpose : forall axis perm s, let rank := Z.of_nat (length s) in
  Permutation perm (seq 0 (length s)) -> - rank <= axis < rank ->
  exists a d, dimOfTranspose rank axis (map Z.of_nat perm) = Rewritten a /\ zget s a = Some d /\
    zget (permute perm s) (if axis <? 0 then axis + rank else axis) = Some d.
Proof.
  intros axis perm s rank P H. unfold dimOfTranspose. set (a := if axis <? 0 then axis + rank else axis). assert (Ha : 0 <= a < rank) by (unfold a; destruct (Z.ltb_spec axis 0); lia).
  pose proof (perm_length _ _ P) as PL. exists (Z.of_nat (nth (Z.to_nat a) perm O)), (nth (nth (Z.to_nat a) perm O) s 0).
  assert (B : (nth (Z.to_nat a) perm O < length s)%nat) by (apply (perm_bound _ _ P), nth_In; rewrite PL; unfold rank in Ha; lia).
  rewrite !zget_spec by lia. rewrite nth_error_map, (nth_error_nth' perm O) by (rewrite PL; unfold rank in Ha; lia). cbn [option_map]. split; auto. rewrite Nat2Z.id. split; [apply nth_error_nth'; auto|].
  rewrite (nth_error_nth' _ 0) by (rewrite (permute_length _ _ P); unfold rank in Ha; lia). f_equal. apply (permute_nth _ _ P). unfold rank in Ha. lia.
Qed.
Example C83_dim_of_transpose_case : dimOfTranspose 3 (-1) [1; 2; 0] = Rewritten 0 /\ Permutation [1; 2; 0]%nat (seq 0 3).
Proof. split; [reflexivity|]. apply Permutation_sym. apply (Permutation_cons_app [1; 2]%nat [] 0%nat). rewrite app_nil_r. apply Permutation_refl. Qed.

(** Where(Equal(c, k), x, c) for a Concat c of dims and constants, k negative, all of one length. *)
Theorem C83_where : forall c k x l, let n := length c in
  length k = n -> length x = n -> (forall v, In v k -> v < 0) -> (forall v, In (OfDim v) c -> 0 <= v) ->
  removeWhereEqual c k x c <> Undefined /\
  (removeWhereEqual c k x c = Rewritten l -> l = where_equal n (map operandValue c) k x (map operandValue c)).
Proof.
  intros c k x l n Lk Lx Hk Hd. split.
  { unfold removeWhereEqual. destruct (negb _); [discriminate|]. pose proof (equalResults_defined k c 0 ltac:(lia) ltac:(subst n; lia)) as D.
    destruct (equalResults c 0 k); try congruence. apply selectValues_defined; subst n; lia. }
  intros E. unfold removeWhereEqual in E. destruct (isAllNegativeSmallIntegerConstant k); [|discriminate]. cbn [negb] in E.
  destruct (equalResults c 0 k) as [| |bs] eqn:Eb; try discriminate. apply equalResults_ok in Eb; auto; try (subst n; lia). subst bs.
  apply selectValues_ok in E; try (subst n; lia). subst l. unfold where_equal. change (Z.to_nat 0) with 0%nat. fold n.
  assert (Bat : forall (m : list Z) i, length m = n -> (i < n)%nat -> bat m i = nth i m 0). { intros m i Lm Hi. unfold bat. destruct (Nat.eqb_spec (length m) 1); auto. assert (i = 0%nat) by lia. now subst. }
  assert (G : forall (f : dimOperand * nat -> Z) (g : nat -> Z) (ops : list dimOperand) s, (forall i o, nth_error ops i = Some o -> f (o, (s + i)%nat) = g (s + i)%nat) -> map f (combine ops (seq s (length ops))) = map g (seq s (length ops))).
  { intros f g. induction ops as [|o r IH]; intros s H; [reflexivity|]. cbn [length seq combine map]. f_equal; [specialize (H 0%nat o eq_refl); rewrite Nat.add_0_r in H; exact H|]. apply IH. intros i o' E. specialize (H (S i) o' E). rewrite <- plus_n_Sm in H. exact H. }
  apply (G _ _ c 0%nat). intros i o Ei. cbn [Nat.add fst snd]. assert (Hi : (i < n)%nat) by (apply nth_error_Some; congruence).
  assert (Ec : nth i (map operandValue c) 0 = operandValue o) by (apply nth_error_nth; rewrite nth_error_map, Ei; reflexivity).
  rewrite !Bat by (rewrite ?map_length; auto). rewrite Ec. reflexivity.
Qed.
Example C83_where_case : removeWhereEqual [OfDim 5; OfConst (-1)] [-1; -1] [1; 7] [OfDim 5; OfConst (-1)] = Rewritten [5; 7] /\
  where_equal 2 [5; -1] [-1; -1] [1; 7] [5; -1] = [5; 7].
Proof. split; reflexivity. Qed.
(** Another Concat in the Equal is not read; 0 counts as negative but a dim may be 0; a constant of
    one element, which broadcasting allows, is indexed out of bounds. *)
Theorem C83_where_refuted :
  (exists c k x y l, length c = length y /\ length k = length y /\ length x = length y /\ (forall v, In v k -> v < 0) /\
     removeWhereEqual c k x y = Rewritten l /\ l <> where_equal (length y) (map operandValue c) k x (map operandValue y)) /\
  (exists c k x l, length k = length c /\ length x = length c /\ (forall v, In (OfDim v) c -> 0 <= v) /\
     removeWhereEqual c k x c = Rewritten l /\ l <> where_equal (length c) (map operandValue c) k x (map operandValue c)) /\
  (exists c k x, length k = 1%nat /\ length x = length c /\ (forall v, In v k -> v < 0) /\ removeWhereEqual c k x c = Undefined).
Proof.
  split; [|split].
  - exists [OfConst (-1)], [-1], [9], [OfDim 4], [4]. repeat split; try reflexivity; [intros v [<- | []]; lia | discriminate].
  - exists [OfDim 0], [0], [9], [0]. repeat split; try reflexivity; [intros v [E | []]; injection E as <-; lia | discriminate].
  - exists [OfDim 4; OfConst (-1)], [-1], [1; 7]. repeat split; try reflexivity. intros v [<- | []]; lia.
Qed.

(** A Slice of one element of a Concat: the operand that holds the element. [true]: the type of the
    operand has one element. *)
Theorem C83_slice_of_concat : forall s inputs, (forall b l, In (b, l) inputs -> b = true -> length l = 1%nat) ->
  (forall v, sliceOfConcat (Some s) inputs = Rewritten v -> exists e, zget (concat (map snd inputs)) s = Some e /\ v = [e]) /\
  (0 <= s < Z.of_nat (length (concat (map snd inputs))) -> sliceOfConcat (Some s) inputs <> Undefined).
Proof.
  intros s inputs H. unfold sliceOfConcat. destruct (Z.ltb_spec s 0).
  - split; [discriminate | lia].
  - split.
    + intros v E. rewrite zget_spec by lia. apply scalarsUpTo_ok; auto.
    + intros R. apply scalarsUpTo_defined; auto. lia.
Qed.
Example C83_slice_of_concat_case : sliceOfConcat (Some 1) [(true, [4]); (true, [7]); (false, [1; 2])] = Rewritten [7] /\ sliceOfConcat (Some 2) [(true, [4]); (true, [7]); (false, [1; 2])] = NoMatch.
Proof. split; reflexivity. Qed.

(** Default and negative entries of permutations. *)
Theorem C83_permutation : forall rank attr perm l, perm_of rank attr perm ->
  handleNegativePermute rank attr = Rewritten l -> perm_of rank (Some l) perm /\ Forall (fun p => 0 <= p) l.
Proof.
  intros rank attr perm l P E.
  assert (Q : l = map Z.of_nat perm).
  { unfold handleNegativePermute in E. destruct attr as [m|]; [|injection E as <-; cbn in P; congruence].
    destruct (negb (length m =? rank)%nat); [discriminate|]. destruct (negb (existsb (fun p => p <? 0) m)); [discriminate|]. injection E as <-. symmetry. exact P. }
  subst l. split.
  - cbn. rewrite map_map. apply map_ext. intros k. destruct (Z.ltb_spec (Z.of_nat k) 0); lia.
  - apply Forall_forall. intros v I. apply in_map_iff in I as (k & <- & _). lia.
Qed.
Example C83_permutation_case : handleNegativePermute 3 (Some [0; -1; 1]) = Rewritten [0; 2; 1] /\ perm_of 3 (Some [0; -1; 1]) [0; 2; 1]%nat /\
  handleNegativePermute 3 None = Rewritten [2; 1; 0] /\ handleNegativePermute 3 (Some [0; 2; 1]) = NoMatch.
Proof. repeat split; reflexivity. Qed.

Print Assumptions C83_unsqueeze.
Print Assumptions C83_unsqueeze_negative_refuted.
Print Assumptions C83_slice.
Print Assumptions C83_slice_dynamic_refuted.
Print Assumptions C83_dim_of_reshape.
Print Assumptions C83_dim_of_reshape_refuted.
Print Assumptions C83_dim_of_transpose.
Print Assumptions C83_where.
Print Assumptions C83_where_refuted.
Print Assumptions C83_slice_of_concat.
Print Assumptions C83_permutation.
