(** C82: rewriting Transpose and Concat operations keeps their results. *)
From Coq Require Import List ZArith Bool Lia Permutation.
From Verif Require Import Util TensorSpec TensorLemmas ShapeOpsModel ShapeOpsSpec ElementsSpec TransposeLoopProofs ConcatRewriteSpec ConcatRewriteModel ConcatRewriteProofs.
Import ListNotations.
Open Scope Z_scope.

(** Two Transposes become one. *)
Theorem C82_fuse_transposes : forall (T : Type) p1 p2 (x y z : tensor T), let n := length (tShape x) in
  Permutation p1 (seq 0 n) -> Permutation p2 (seq 0 n) -> isTransposed p1 x y -> isTransposed p2 y z ->
  exists p, combinedTranspose (map Z.of_nat p1) (map Z.of_nat p2) = Some (map Z.of_nat p) /\ Permutation p (seq 0 n) /\ isTransposed p x z.
Proof.
  intros T p1 p2 x y z n P1 P2 T1 T2. exists (map (fun k => nth k p1 O) p2). split; [apply (combined_ok n); auto; apply (perm_bound _ _ P2)|].
  split; [apply combined_perm; auto|]. eapply fuse_transposes; eauto.
Qed.
(** With an elementwise operation between them. *)
Theorem C82_fuse_unary : forall (T U : Type) (f : T -> U) p1 p2 x y z w x', let n := length (tShape x) in
  Permutation p1 (seq 0 n) -> Permutation p2 (seq 0 n) -> isTransposed p1 x y -> isMapped f y z -> isTransposed p2 z w -> isMapped f x x' ->
  exists p, combinedTranspose (map Z.of_nat p1) (map Z.of_nat p2) = Some (map Z.of_nat p) /\ Permutation p (seq 0 n) /\ isTransposed p x' w.
Proof.
  intros T U f p1 p2 x y z w x' n P1 P2 T1 M T2 M'. pose proof (transposed_mapped n f p1 x y z x' eq_refl P1 T1 M M') as T1'.
  destruct (C82_fuse_transposes U p1 p2 x' z w) as (p & E & P & Tw); rewrite ?(proj1 M'); auto. exists p. rewrite (proj1 M') in P. auto.
Qed.
Example C82_fuse_case : combinedTranspose [1; 2; 0] [2; 1; 0] = Some [0; 2; 1] /\
  isTransposed [1; 2; 0]%nat {| tShape := [2; 3; 4]; tAt := fun i => nth 0 i 0 * 12 + nth 1 i 0 * 4 + nth 2 i 0 |} {| tShape := [3; 4; 2]; tAt := fun i => nth 2 i 0 * 12 + nth 0 i 0 * 4 + nth 1 i 0 |}.
Proof. split; [reflexivity|]. split; reflexivity. Qed.
(** A negative entry, accepted by the verifier, is used as an index. *)
Theorem C82_negative_perm_refuted : combinedTranspose [1; 0] [-1; 0] = None.
Proof. reflexivity. Qed.

(** A Transpose that is removed leaves its operand as it is. *)
Theorem C82_identity : forall (T : Type) p (x y : tensor T),
  isIdentityPermuteVector (Some (map Z.of_nat p)) = true -> length p = length (tShape x) -> isTransposed p x y -> same x y.
Proof. intros T p x y. apply identity_transpose. Qed.
Example C82_identity_case : isIdentityPermuteVector (Some [0; 1; 2]) = true /\ isIdentityPermuteVector (Some [0; 2; 1]) = false.
Proof. split; reflexivity. Qed.

(** Transpose of Concat becomes Concat of Transposes. *)
Theorem C82_swap : forall (T : Type) perm a (xs ys : list (tensor T)) c w,
  Permutation perm (seq 0 (length (tShape c))) -> isConcat a xs c -> isTransposed perm c w -> Forall2 (isTransposed perm) xs ys ->
  exists b, getIndexOfAxisInPerm (map Z.of_nat perm) (Z.of_nat a) = Some (Z.of_nat b) /\ isConcat b ys w.
Proof.
  intros T perm a xs ys c w P C Tw F. exists (idxOf a perm). split; [|eapply swap_concat; eauto].
  unfold getIndexOfAxisInPerm. rewrite indexFrom_ok; [f_equal; lia | apply (perm_NoDup _ _ P) |]. apply (perm_all _ _ P). destruct C as (_ & base & (_ & La & _) & Sc & _). rewrite Sc, upd_length. auto.
Qed.
Definition row (l : list Z) : tensor Z := {| tShape := [Z.of_nat (length l)]; tAt := fun i => nth (Z.to_nat (nth 0 i 0)) l 0 |}.
Lemma row_concat ls : ls <> [] -> isConcat 0 (map row ls) (row (concat ls)).
Proof.
  intros Ne. split; [destruct ls; [contradiction | discriminate]|]. exists [0]. split; [|split].
  - split; [repeat constructor; lia|]. split; [cbn; lia|]. apply Forall_forall. intros x I. apply in_map_iff in I as (l & <- & _). exists (Z.of_nat (length l)). split; [lia | reflexivity].
  - cbn [upd]. f_equal. cbn [row tShape]. f_equal. clear Ne. cbn [tShape row]. induction ls as [|l ls IH]; [reflexivity|]. cbn [concat map]. rewrite app_length, Nat2Z.inj_add, IH. reflexivity.
  - clear Ne. intros d idx V. cbn [row tShape] in V. destruct idx as [|i [|]]; [inversion V | | apply valid_cons in V as [_ V]; inversion V]. apply valid_cons in V as [Hi _]. cbn [row tAt nth].
    revert i Hi. induction ls as [|l ls IH]; intros i Hi; [cbn in Hi; lia|]. cbn [concat map concat_at row tShape nth tAt] in *. rewrite app_length, Nat2Z.inj_add in Hi.
    destruct (Z.ltb_spec i (Z.of_nat (length l))).
    + apply app_nth1. lia.
    + rewrite app_nth2 by lia. unfold shift. cbn [upd nth]. rewrite <- (IH (i + - Z.of_nat (length l))) by lia. f_equal. lia.
Qed.
Example C82_swap_case : getIndexOfAxisInPerm [2; 0; 1] 1 = Some 2 /\ isConcat 0 [row [1; 2]; row [3]] (row [1; 2; 3]).
Proof. split; [reflexivity|]. apply (row_concat [[1; 2]; [3]]). discriminate. Qed.
(** A negative axis (legal for Concat) is found in no permutation: the null attribute. *)
Theorem C82_swap_negative_refuted : forall perm axis, axis < 0 -> getIndexOfAxisInPerm (map Z.of_nat perm) axis = None.
Proof. intros. apply indexFrom_neg; auto. Qed.

(** Cast (any elementwise function) of Concat becomes Concat of Casts. *)
Theorem C82_cast : forall (T U : Type) (f : T -> U) a xs ys c y,
  isConcat a xs c -> isMapped f c y -> Forall2 (isMapped f) xs ys -> isConcat a ys y.
Proof. intros T U f a xs ys c y C M F. eapply map_concat; eauto. Qed.

(** Concats with one operand or with operands that are Concats. *)
Theorem C82_recompose : forall (T : Type) attr a (inputs : list (operand (tensor T))) c, let rank := length (tShape c) in
  isAxis rank attr a -> isConcat a (map valueOf inputs) c ->
  (forall attr' oneUse inner v, In (Nested attr' oneUse inner v) inputs -> exists a', isAxis rank attr' a' /\ isConcat a' inner v) ->
  match recomposeConcat attr inputs with
  | Single v => same c v
  | Merged l => isConcat a l c
  | NoMatch => True
  end.
Proof.
  intros T attr a inputs c rank A C N.
  assert (M : isConcat a (flatten attr inputs) c).
  { destruct C as (Ne & base & C & Sc & Ec). assert (No : Forall (nestedOk attr a) inputs).
    { apply Forall_forall. intros [v | a' u inner v] I; cbn; auto. intros ->. destruct (N attr u inner v I) as (a' & A' & C'). unfold isAxis in *. assert (a' = a) by (apply Nat2Z.inj; congruence). subst. exact C'. }
    destruct (flatten_ok attr a base inputs No C) as (Cf & Df & Ef). split.
    - intros E0. destruct inputs as [|o r]; [contradiction|]. inversion No as [|? ? N1 N2]; subst. unfold flatten in E0. cbn [flat_map] in E0. apply app_eq_nil in E0 as [E0 _].
      destruct o as [v | a' u inner v]; [discriminate|]. destruct (isMergeableConcat attr (Nested a' u inner v)) eqn:Em; [|discriminate]. cbn in Em. apply andb_prop in Em as [Em _]. apply Z.eqb_eq in Em.
      destruct (N1 Em) as (Ni & _). contradiction.
    - exists base. split; auto. change (sumZ (map (fun x => nth a (tShape x) 0) (flatten attr inputs))) with (sumZ (dimsOf a (flatten attr inputs))). rewrite Df. split; [exact Sc|].
      intros d idx V. rewrite <- Ef by (rewrite Sc in V; exact V). apply Ec. exact V. }
  unfold recomposeConcat. destruct inputs as [|o [|o2 r]].
  - cbn. exact I.
  - apply (concat_single a). exact C.
  - destruct (existsb (isMergeableConcat attr) (o :: o2 :: r)); auto.
Qed.
Example C82_recompose_case :
  recomposeConcat (-1) [Plain (row [1]); Nested (-1) true [row [2]; row [3]] (row [2; 3]); Nested (-1) false [row [4]] (row [4]); Nested 0 true [row [5]; row [6]] (row [5; 6])] =
    Merged [row [1]; row [2]; row [3]; row [4]; row [5; 6]] /\
  recomposeConcat 0 [Plain (row [1])] = Single (row [1]) /\ isAxis 1 (-1) 0 /\ isConcat 0 [row [2]; row [3]] (row [2; 3]).
Proof. split; [reflexivity|]. split; [reflexivity|]. split; [reflexivity|]. apply (row_concat [[2]; [3]]). discriminate. Qed.

(** One operand with a static zero along the axis is removed, and the result is the same. *)
Theorem C82_remove_zero : forall (T : Type) a p s (z : tensor T) q c,
  let inputs := p ++ (Some s, z) :: q in
  isConcat a (map snd inputs) c -> (forall s' v, In (Some s', v) inputs -> agrees s' (tShape v)) ->
  nth_error s a = Some (Some 0) -> (forall s' v, In (Some s', v) (p ++ q) -> nth_error s' a <> Some (Some 0)) -> p ++ q <> [] ->
  removeDimZero (Z.of_nat a) inputs = Some (Some (map snd (p ++ q))) /\ isConcat a (map snd (p ++ q)) c.
Proof.
  intros T a p s z q c inputs C Ag Hz Hn Ne.
  assert (Len : forall s' v, In (Some s', v) inputs -> (a < length s')%nat).
  { intros s' v I. destruct C as (_ & base & (_ & La & F) & _). rewrite Forall_forall in F. destruct (F v) as (d & _ & E); [apply in_map_iff; exists (Some s', v); auto|].
    assert (L : length s' = length (tShape v)) by (pose proof (Ag s' v I) as A; clear - A; induction A; cbn; auto). rewrite E, upd_length in L. lia. }
  split.
  - unfold removeDimZero. rewrite zeroIndices_ok.
    2:{ intros s' I. right. apply in_map_iff in I as ([t v] & Et & I). cbn in Et. subst t. specialize (Len s' v I). rewrite zget_spec, Nat2Z.id by lia. destruct (nth_error s' a) eqn:E; [eauto|]. apply nth_error_None in E. lia. }
    cbn [obind]. unfold inputs. rewrite map_app. cbn [map fst]. rewrite (one_index (zeroTyped (Z.of_nat a))).
    + rewrite map_app. cbn [map snd Nat.add]. rewrite map_length, <- (map_length snd p), erase_one. cbn [obind]. rewrite map_app. reflexivity.
    + intros t I. rewrite <- map_app in I. apply in_map_iff in I as ([t' v] & Et & I). cbn in Et. subst t'. destruct t as [s'|]; [|reflexivity]. cbn. rewrite zget_spec, Nat2Z.id by lia. specialize (Hn s' v I).
      destruct (nth_error s' a) as [[[]|]|]; auto; congruence.
    + cbn. rewrite zget_spec, Nat2Z.id by lia. rewrite Hz. reflexivity.
  - unfold inputs in C. rewrite map_app in C. cbn [map snd] in C. rewrite map_app. apply (concat_drop a _ _ z c C).
    + assert (I : In (Some s, z) inputs) by (apply in_app_iff; right; left; auto). pose proof (Ag s z I) as A. clear - A Hz. revert a Hz. induction A as [|o d k t Ho A IH]; intros [|a] Hz; cbn in *; try discriminate; auto.
      injection Hz as ->. symmetry. apply Ho. reflexivity.
    + rewrite <- map_app. intros E. apply map_eq_nil in E. contradiction.
Qed.
(** The same for one operand of type <0xdtype>, on tensors of rank 1. *)
Theorem C82_remove_empty : forall (T : Type) p (z : tensor T) q c,
  let inputs := p ++ (Some [Some 0], z) :: q in
  isConcat 0 (map snd inputs) c -> tShape z = [0] ->
  (forall v, ~ In (Some [Some 0], v) (p ++ q)) -> p ++ q <> [] ->
  removeEmpty inputs = Some (Some (map snd (p ++ q))) /\ isConcat 0 (map snd (p ++ q)) c.
Proof.
  intros T p z q c inputs C Sz Hn Ne. split.
  - unfold removeEmpty. rewrite emptyIndices_ok. unfold inputs. rewrite map_app. cbn [map fst].
    rewrite (one_index (fun t => match t with Some [Some 0] => true | _ => false end)).
    + rewrite map_app. cbn [map snd Nat.add]. rewrite map_length, <- (map_length snd p), erase_one. cbn [obind]. rewrite map_app. reflexivity.
    + intros t I. rewrite <- map_app in I. apply in_map_iff in I as ([t' v] & Et & I). cbn in Et. subst t'. destruct t as [[|[[]|] [|]]|]; auto. destruct (Hn v I).
    + reflexivity.
  - unfold inputs in C. rewrite map_app in C. cbn [map snd] in C. rewrite map_app. apply (concat_drop 0 _ _ z c C).
    + rewrite Sz. reflexivity.
    + rewrite <- map_app. intros E. apply map_eq_nil in E. contradiction.
Qed.
Example C82_remove_case : removeDimZero 0 [(Some [None], row [1]); (Some [Some 0], row []); (Some [Some 1], row [2])] = Some (Some [row [1]; row [2]]) /\
  removeEmpty [(Some [None], row [1]); (Some [Some 0], row []); (Some [Some 1], row [2])] = Some (Some [row [1]; row [2]]).
Proof. split; reflexivity. Qed.

(** With two such operands, other operands are removed, or indices are out of range: of the Concat
    of [], [], [1] and [2] the operand [1] is lost; with [1], [] and [] the second index is out of
    range; of [] alone nothing is left; and a negative axis is an index out of range. *)
Theorem C82_remove_refuted :
  (exists inputs l (c : tensor Z), isConcat 0 (map snd inputs) c /\ (forall s v, In (Some s, v) inputs -> agrees s (tShape v)) /\
     removeDimZero 0 inputs = Some (Some l) /\ removeEmpty inputs = Some (Some l) /\ ~ isConcat 0 l c /\ c = row [1; 2] /\ isConcat 0 l (row [2])) /\
  (exists inputs (c : tensor Z), isConcat 0 (map snd inputs) c /\ (forall s v, In (Some s, v) inputs -> agrees s (tShape v)) /\
     removeDimZero 0 inputs = None /\ removeEmpty inputs = None) /\
  (exists inputs (c : tensor Z), isConcat 0 (map snd inputs) c /\ (forall s v, In (Some s, v) inputs -> agrees s (tShape v)) /\
     removeDimZero 0 inputs = Some (Some []) /\ removeEmpty inputs = Some (Some [])) /\
  (exists inputs (c : tensor Z), isAxis 1 (-1) 0 /\ isConcat 0 (map snd inputs) c /\ (forall s v, In (Some s, v) inputs -> agrees s (tShape v)) /\
     removeDimZero (-1) inputs = None).
Proof.
  assert (Ag : forall inputs : list (option (list (option Z)) * tensor Z), Forall (fun q => match fst q with Some s => agrees s (tShape (snd q)) | None => True end) inputs -> forall s v, In (Some s, v) inputs -> agrees s (tShape v)).
  { intros inputs F s v I. rewrite Forall_forall in F. apply (F _ I). }
  split; [|split; [|split]].
  - exists [(Some [Some 0], row []); (Some [Some 0], row []); (Some [Some 1], row [1]); (Some [Some 1], row [2])], [row []; row [2]], (row [1; 2]).
    split; [apply (row_concat [[]; []; [1]; [2]]); discriminate|]. split; [apply Ag; repeat constructor; cbn; congruence|]. split; [reflexivity|]. split; [reflexivity|].
    split; [|split; [reflexivity | apply (row_concat [[]; [2]]); discriminate]].
    intros (_ & base & (_ & La & _) & Sc & _). cbn in Sc. destruct base as [|b [|]]; discriminate.
  - exists [(Some [Some 1], row [1]); (Some [Some 0], row []); (Some [Some 0], row [])], (row [1]).
    split; [apply (row_concat [[1]; []; []]); discriminate|]. split; [apply Ag; repeat constructor; cbn; congruence|]. split; reflexivity.
  - exists [(Some [Some 0], row [])], (row []). split; [apply (row_concat [[]]); discriminate|]. split; [apply Ag; repeat constructor; cbn; congruence|]. split; reflexivity.
  - exists [(Some [Some 1], row [1]); (Some [Some 1], row [2])], (row [1; 2]). split; [reflexivity|]. split; [apply (row_concat [[1]; [2]]); discriminate|]. split; [apply Ag; repeat constructor; cbn; congruence|]. reflexivity.
Qed.

Print Assumptions C82_fuse_transposes.
Print Assumptions C82_fuse_unary.
Print Assumptions C82_identity.
Print Assumptions C82_swap.
Print Assumptions C82_cast.
Print Assumptions C82_recompose.
Print Assumptions C82_remove_zero.
Print Assumptions C82_remove_empty.
Print Assumptions C82_remove_refuted.
