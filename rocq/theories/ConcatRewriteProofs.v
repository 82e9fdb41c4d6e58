(** Lemmas for the rewriting of Transpose and Concat. *)
From Coq Require Import List ZArith Bool Lia Permutation.
From Verif Require GatherLoopProofs.
From Verif Require Import Util TensorSpec TensorLemmas ShapeOpsModel ShapeOpsSpec ShapeOpsProofs ShapeOpsCopies ElementsSpec TransposeLoopProofs ConcatRewriteSpec ConcatRewriteModel.
Import ListNotations.
Open Scope Z_scope.

Notation perms n p := (Permutation p (seq 0 n)).

(** Transposes. *)
Lemma combined_ok n p1 : perms n p1 -> forall p2, (forall k, In k p2 -> (k < n)%nat) ->
  combinedTranspose (map Z.of_nat p1) (map Z.of_nat p2) = Some (map Z.of_nat (map (fun k => nth k p1 O) p2)).
Proof.
  intros P1. induction p2 as [|k p2 IH]; intros H; [reflexivity|]. cbn [map combinedTranspose].
  rewrite zget_spec by lia. rewrite Nat2Z.id, nth_error_map. rewrite (nth_error_nth' p1 O) by (rewrite (perm_length _ _ P1); apply H; left; auto). cbn [option_map obind].
  rewrite IH by (intros; apply H; right; auto). reflexivity.
Qed.
Lemma combined_perm n p1 p2 : perms n p1 -> perms n p2 -> perms n (map (fun k => nth k p1 O) p2).
Proof.
  intros P1 P2. eapply Permutation_trans; [apply Permutation_map; exact P2|].
  replace (map (fun k => nth k p1 0%nat) (seq 0 n)) with p1; [exact P1|].
  apply nth_ext with (d := O) (d' := O); [rewrite map_length, seq_length; apply (perm_length _ _ P1)|]. intros k Hk. rewrite (perm_length _ _ P1) in Hk.
  set (g := fun k => nth k p1 0%nat). rewrite (nth_indep (map g _) O (g O)) by (rewrite map_length, seq_length; lia). rewrite map_nth, seq_nth by lia. reflexivity.
Qed.
Lemma permute_combined n p1 p2 l : perms n p1 -> (forall k, In k p2 -> (k < n)%nat) -> permute p2 (permute p1 l) = permute (map (fun k => nth k p1 O) p2) l.
Proof. intros P1 H. unfold permute at 1 3. rewrite map_map. apply map_ext_in. intros k I. apply (permute_nth _ _ P1). auto. Qed.

Lemma fuse_transposes {T} n p1 p2 (x y z : tensor T) : length (tShape x) = n -> perms n p1 -> perms n p2 -> isTransposed p1 x y -> isTransposed p2 y z ->
  isTransposed (map (fun k => nth k p1 O) p2) x z.
Proof.
  intros L P1 P2 [S1 E1] [S2 E2]. pose proof (perm_bound _ _ P2) as B2. split.
  - rewrite S2, S1. apply (permute_combined n); auto.
  - intros idx V. rewrite <- (permute_combined n p1 p2 idx P1 B2). rewrite E2, E1; auto. rewrite S1. apply (permute_valid _ _ P1); auto.
Qed.
Lemma transposed_mapped {T U} n (f : T -> U) p (x y : tensor T) z x' : length (tShape x) = n -> perms n p -> isTransposed p x y -> isMapped f y z -> isMapped f x x' -> isTransposed p x' z.
Proof.
  intros L P [S1 E1] [S2 E2] [S3 E3]. split; [rewrite S2, S1, S3; auto|]. intros idx V. rewrite S3 in V. rewrite E2, E1, E3; auto.
  rewrite S1. apply (permute_valid _ _ P); auto.
Qed.

Lemma isIdentityFrom_ok p : forall i, isIdentityFrom i p = true -> p = map (fun k => i + Z.of_nat k) (seq 0 (length p)).
Proof.
  induction p as [|v r IH]; intros i H; [reflexivity|]. cbn in H. destruct (Z.eqb_spec v i) as [->|]; [|discriminate]. cbn in H.
  cbn [length seq map]. f_equal; [lia|]. rewrite (IH _ H) at 1. rewrite <- seq_shift, map_map. apply map_ext. intros; lia.
Qed.
Lemma identity_transpose {T} p (x y : tensor T) : isIdentityPermuteVector (Some (map Z.of_nat p)) = true -> length p = length (tShape x) -> isTransposed p x y -> same x y.
Proof.
  intros H L [S1 E1]. cbn in H. apply isIdentityFrom_ok in H. rewrite map_length in H.
  assert (E : p = seq 0 (length p)).
  { apply (f_equal (map Z.to_nat)) in H. rewrite !map_map in H. rewrite (map_ext _ (fun x => x)) in H by (intros; apply Nat2Z.id). rewrite map_id in H.
    rewrite H at 1. rewrite (map_ext _ (fun x => x)) by (intros; lia). apply map_id. }
  rewrite L in E. subst p. split.
  - rewrite S1, permute_id. reflexivity.
  - intros idx V. rewrite <- (E1 idx V). f_equal. rewrite (valid_length _ _ V). now rewrite permute_id.
Qed.
Lemma indexFrom_ok p a : forall i, NoDup p -> In a p -> indexFrom i (map Z.of_nat p) (Z.of_nat a) = Some (i + Z.of_nat (idxOf a p)).
Proof.
  induction p as [|v r IH]; intros i N I; [destruct I|]. cbn [map indexFrom idxOf]. destruct (Z.eqb_spec (Z.of_nat v) (Z.of_nat a)) as [E|E].
  - apply Nat2Z.inj in E. subst. rewrite Nat.eqb_refl. f_equal. lia.
  - destruct (Nat.eqb_spec v a); [subst; lia|]. destruct I as [|I]; [lia|]. inversion N; subst. rewrite IH by auto. f_equal. lia.
Qed.
Lemma indexFrom_neg p a : a < 0 -> forall i, indexFrom i (map Z.of_nat p) a = None.
Proof. intros H. induction p as [|v r IH]; intros i; [reflexivity|]. cbn [map indexFrom]. destruct (Z.eqb_spec (Z.of_nat v) a); [lia|]. apply IH. Qed.

(** Concats. *)
Lemma sumZ_cons x l : sumZ (x :: l) = x + sumZ l. Proof. reflexivity. Qed.
Definition dimsOf {T} a (xs : list (tensor T)) : list Z := map (fun x => nth a (tShape x) 0) xs.
Lemma dims_pos {T} a base (xs : list (tensor T)) : concatenable a base xs -> forall x, In x xs -> 0 <= nth a (tShape x) 0 /\ tShape x = upd a (nth a (tShape x) 0) base.
Proof.
  intros (_ & La & F) x I. rewrite Forall_forall in F. destruct (F x I) as (d & Hd & E). rewrite E. rewrite nth_upd_same by auto. auto.
Qed.
Lemma concatenable_tl {T} a base (x : tensor T) xs : concatenable a base (x :: xs) -> concatenable a base xs.
Proof. intros (A & B & F). split; auto. split; auto. inversion F; auto. Qed.
Lemma total_pos {T} a base (xs : list (tensor T)) : concatenable a base xs -> 0 <= sumZ (dimsOf a xs).
Proof.
  induction xs as [|x xs IH]; intros C; [unfold dimsOf, sumZ; cbn; lia|]. unfold dimsOf. cbn [map]. rewrite sumZ_cons. specialize (IH (concatenable_tl _ _ _ _ C)). pose proof (dims_pos _ _ _ C x ltac:(left; auto)). unfold dimsOf in IH. lia.
Qed.
Lemma in_first {T} a base (x : tensor T) xs W idx : concatenable a base (x :: xs) -> valid (upd a W base) idx -> nth a idx 0 < nth a (tShape x) 0 -> valid (tShape x) idx.
Proof.
  intros C V H. destruct (dims_pos _ _ _ C x ltac:(left; auto)) as [Hd E]. destruct C as (_ & La & _). rewrite E.
  apply valid_upd_iff in V as (L & B & R); auto. apply valid_upd_iff; auto. split; auto. split; auto. lia.
Qed.
Lemma in_rest {T} a base (x : tensor T) xs idx : concatenable a base (x :: xs) -> valid (upd a (nth a (tShape x) 0 + sumZ (dimsOf a xs)) base) idx -> nth a (tShape x) 0 <= nth a idx 0 ->
  valid (upd a (sumZ (dimsOf a xs)) base) (shift a (- nth a (tShape x) 0) idx).
Proof.
  intros C V H. destruct C as (_ & La & _). eapply valid_shift; eauto. apply valid_upd_iff in V as (L & B & R); auto. lia.
Qed.

(** Concat of transposed inputs. *)
Lemma permute_shift n p a off idx : perms n p -> (a < n)%nat -> length idx = n -> shift (idxOf a p) off (permute p idx) = permute p (shift a off idx).
Proof.
  intros P Ha L. pose proof (perm_length _ _ P) as PL. destruct (idxOf_ok a p (perm_all _ _ P a Ha)) as [I1 I2]. rewrite PL in I1.
  apply nth_ext with (d := 0) (d' := 0); [rewrite shift_length, !(permute_length _ _ P); auto|]. intros k Hk. rewrite shift_length, (permute_length _ _ P) in Hk.
  rewrite shift_nth, (permute_length _ _ P), !(permute_nth _ _ P), shift_nth, I2 by auto.
  destruct (Nat.ltb_spec (idxOf a p) n); [|lia]. destruct (Nat.ltb_spec a (length idx)); [|lia].
  destruct (Nat.eqb_spec k (idxOf a p)) as [->|Ne].
  - rewrite I2, Nat.eqb_refl. reflexivity.
  - destruct (Nat.eqb_spec (nth k p O) a) as [E|]; [|reflexivity]. exfalso. apply Ne. rewrite <- E. symmetry. apply idxOf_nth; [apply (perm_NoDup _ _ P) | lia].
Qed.
Lemma permute_upd n p a d l : perms n p -> (a < n)%nat -> length l = n -> permute p (upd a d l) = upd (idxOf a p) d (permute p l).
Proof.
  intros P Ha L. pose proof (perm_length _ _ P) as PL. destruct (idxOf_ok a p (perm_all _ _ P a Ha)) as [I1 I2]. rewrite PL in I1.
  pose proof (permute_shift n p a (d - nth a l 0) l P Ha L) as H. unfold shift in H. rewrite (permute_nth _ _ P), I2 in H by auto.
  replace (nth a l 0 + (d - nth a l 0)) with d in H by lia. auto.
Qed.
Lemma concat_transposed {T} (d : T) n p a base : perms n p -> (a < n)%nat -> length base = n -> forall xs ys, concatenable a base xs -> Forall2 (isTransposed p) xs ys ->
  forall idx, valid (upd a (sumZ (dimsOf a xs)) base) idx -> concat_at d (idxOf a p) ys (permute p idx) = concat_at d a xs idx.
Proof.
  intros P Ha Lb. destruct (idxOf_ok a p (perm_all _ _ P a Ha)) as [I1 I2]. rewrite (perm_length _ _ P) in I1.
  induction xs as [|x xs IH]; intros ys C F idx V; inversion F as [|? y ? ys' [Sy Ey] F']; subst; [reflexivity|]. cbn [concat_at].
  assert (Li : length idx = length base) by (apply valid_length in V; rewrite upd_length in V; auto).
  rewrite Sy, !(permute_nth _ _ P), I2 by auto. unfold dimsOf in V. cbn [map] in V. rewrite sumZ_cons in V.
  destruct (Z.ltb_spec (nth a idx 0) (nth a (tShape x) 0)).
  - apply Ey. eapply in_first; eauto.
  - rewrite (permute_shift (length base)) by auto. apply IH; auto; [eapply concatenable_tl; eauto|]. apply in_rest with (xs := xs); auto.
Qed.
Lemma concat_swap {T} n p a base (xs ys : list (tensor T)) : perms n p -> (a < n)%nat -> length base = n -> concatenable a base xs -> Forall2 (isTransposed p) xs ys ->
  concatenable (idxOf a p) (permute p base) ys /\ dimsOf (idxOf a p) ys = dimsOf a xs.
Proof.
  intros P Ha Lb C F. destruct (idxOf_ok a p (perm_all _ _ P a Ha)) as [I1 I2]. rewrite (perm_length _ _ P) in I1. destruct C as (Ok & La & Fx).
  split.
  - split.
    + unfold permute. apply Forall_forall. intros v Hv. apply in_map_iff in Hv as (k & <- & I). unfold okshape in Ok. rewrite Forall_forall in Ok. apply Ok, nth_In. rewrite Lb. apply (perm_bound _ _ P); auto.
    + split; [rewrite (permute_length _ _ P); auto|]. clear - F Fx P Ha Lb. induction F as [|x y xs ys [Sy Ey] F IH]; [constructor|]. inversion Fx as [|? ? (d & Hd & E) Fx']; subst. constructor; auto.
      exists d. split; auto. rewrite Sy, E. eapply permute_upd; eauto.
  - clear - F P I1 I2. induction F as [|x y xs ys [Sy Ey] F IH]; [reflexivity|]. unfold dimsOf in *. cbn [map]. rewrite IH, Sy, (permute_nth _ _ P), I2 by auto. reflexivity.
Qed.
Lemma swap_concat {T} n p a (xs ys : list (tensor T)) c w : perms n p -> length (tShape c) = n -> isConcat a xs c -> Forall2 (isTransposed p) xs ys -> isTransposed p c w ->
  isConcat (idxOf a p) ys w.
Proof.
  intros P Lc (Nx & base & C & Sc & Ec) F [Sw Ew]. assert (Lb : length base = n) by (rewrite Sc, upd_length in Lc; auto).
  assert (Ha : (a < n)%nat) by (destruct C as (_ & ? & _); lia). destruct (concat_swap n p a base xs ys P Ha Lb C F) as [C' D'].
  split; [intros ->; inversion F; subst; contradiction|]. exists (permute p base). split; [exact C'|]. fold (dimsOf (idxOf a p) ys). fold (dimsOf a xs) in Sc. rewrite D'.
  split; [rewrite Sw, Sc; apply (permute_upd n); auto|].
  intros d idx V. rewrite Sw in V.
  (* idx is permuted *)
  set (i0 := map (fun o => nth (idxOf o p) idx 0) (seq 0 n)).
  assert (Li : length idx = n) by (apply valid_length in V; rewrite (permute_length _ _ P) in V; auto).
  assert (Nk : forall o, (o < n)%nat -> nth o i0 0 = nth (idxOf o p) idx 0).
  { intros o Ho. unfold i0. set (g := fun o => _). rewrite (nth_indep _ 0 (g O)) by (rewrite map_length, seq_length; auto). rewrite map_nth, seq_nth by auto. reflexivity. }
  assert (E0 : permute p i0 = idx).
  { apply nth_ext with (d := 0) (d' := 0); [rewrite (permute_length _ _ P); auto|]. intros k Hk. rewrite (permute_length _ _ P) in Hk. rewrite (permute_nth _ _ P) by auto.
    rewrite Nk by (apply (perm_bound _ _ P), nth_In; rewrite (perm_length _ _ P); auto). rewrite idxOf_nth; auto; [apply (perm_NoDup _ _ P) | rewrite (perm_length _ _ P); auto]. }
  assert (V0 : valid (tShape c) i0).
  { assert (Ls : length (tShape c) = length i0) by (unfold i0; rewrite map_length, seq_length; auto). apply GatherLoopProofs.valid_nth_iff; auto. intros r Hr. rewrite Lc in Hr. rewrite Nk by auto.
    destruct (idxOf_ok r p (perm_all _ _ P r Hr)) as [A B]. rewrite (perm_length _ _ P) in A.
    pose proof (valid_nth' _ _ (idxOf r p) V ltac:(rewrite (permute_length _ _ P); auto)) as Q. rewrite (permute_nth _ _ P) in Q by auto. rewrite B in Q. exact Q. }
  rewrite <- E0, (Ew i0 V0), (Ec d i0 V0). rewrite Sc in V0. symmetry. apply (concat_transposed d n p a base); auto.
Qed.

(** Concat of mapped inputs. *)
Lemma concat_mapped {T U} (f : T -> U) dT dU a base : forall xs ys, concatenable a base xs -> Forall2 (isMapped f) xs ys ->
  forall idx, valid (upd a (sumZ (dimsOf a xs)) base) idx -> concat_at dU a ys idx = f (concat_at dT a xs idx).
Proof.
  induction xs as [|x xs IH]; intros ys C F idx V; inversion F as [|? y ? ys' [Sy Ey] F']; subst.
  - destruct C as (_ & La & _). apply valid_upd_iff in V as (_ & B & _); auto. unfold dimsOf, sumZ in B. cbn in B. lia.
  - cbn [concat_at]. rewrite Sy. unfold dimsOf in V. cbn [map] in V. rewrite sumZ_cons in V. destruct (Z.ltb_spec (nth a idx 0) (nth a (tShape x) 0)).
    + apply Ey. eapply in_first; eauto.
    + apply IH; auto; [eapply concatenable_tl; eauto|]. apply in_rest with (xs := xs); auto.
Qed.
Lemma map_concat {T U} (f : T -> U) a xs ys c y : isConcat a xs c -> Forall2 (isMapped f) xs ys -> isMapped f c y -> isConcat a ys y.
Proof.
  intros (Nx & base & C & Sc & Ec) F [Sy Ey]. split; [intros ->; inversion F; subst; contradiction|]. exists base.
  assert (D : dimsOf a ys = dimsOf a xs) by (clear - F; induction F as [|x y xs ys [S1 _] F IH]; [reflexivity|]; unfold dimsOf in *; cbn [map]; rewrite IH, S1; reflexivity).
  split. { destruct C as (Ok & La & Fx). split; auto. split; auto. clear - F Fx. induction F as [|x y xs ys [S1 _] F IH]; [constructor|]. inversion Fx; subst. constructor; auto. rewrite S1. auto. }
  fold (dimsOf a ys). rewrite D. split; [rewrite Sy; exact Sc|]. intros d idx V. rewrite Sy in V. rewrite Ey by auto.
  destruct xs as [|x xs]; [contradiction|]. rewrite (Ec (tAt x []) idx V). rewrite Sc in V. symmetry. apply concat_mapped with (base := base); auto.
Qed.

(** One operand, nested concats, operands without elements. *)
Lemma concat_single {T} a (x c : tensor T) : isConcat a [x] c -> same c x.
Proof.
  intros (_ & base & C & Sc & Ec). destruct (dims_pos _ _ _ C x ltac:(left; auto)) as [Hd E]. cbn [map] in Sc. rewrite sumZ_cons in Sc. change (sumZ []) with 0 in Sc. rewrite Z.add_0_r in Sc.
  assert (S1 : tShape c = tShape x) by congruence. split; auto. intros idx V. rewrite (Ec (tAt x idx) idx V). cbn [concat_at].
  destruct (Z.ltb_spec (nth a idx 0) (nth a (tShape x) 0)); auto.
Qed.
Lemma concat_app {T} (d : T) a base : forall xs ys, concatenable a base xs -> forall idx W, valid (upd a W base) idx ->
  concat_at d a (xs ++ ys) idx = if nth a idx 0 <? sumZ (dimsOf a xs) then concat_at d a xs idx else concat_at d a ys (shift a (- sumZ (dimsOf a xs)) idx).
Proof.
  induction xs as [|x xs IH]; intros ys C idx W V.
  - cbn [app]. change (sumZ (dimsOf a [])) with 0. rewrite shift_0. destruct C as (_ & La & _). apply valid_upd_iff in V as (_ & B & _); auto. destruct (Z.ltb_spec (nth a idx 0) 0); [lia | reflexivity].
  - cbn [app concat_at]. unfold dimsOf. cbn [map]. rewrite sumZ_cons. fold (dimsOf a xs). pose proof (total_pos _ _ _ (concatenable_tl _ _ _ _ C)).
    destruct (Z.ltb_spec (nth a idx 0) (nth a (tShape x) 0)).
    + destruct (Z.ltb_spec (nth a idx 0) (nth a (tShape x) 0 + sumZ (dimsOf a xs))); [reflexivity | lia].
    + destruct (dims_pos _ _ _ C x ltac:(left; auto)) as [Hd _]. pose proof C as (_ & La & _). assert (V' := V). apply valid_upd_iff in V' as (Li & B & _); auto.
      rewrite (IH ys (concatenable_tl _ _ _ _ C) _ W) by (eapply valid_shift; eauto; lia).
      rewrite shift_nth, Nat.eqb_refl. destruct (Nat.ltb_spec a (length idx)); [|lia]. rewrite shift_shift.
      replace (- nth a (tShape x) 0 + - sumZ (dimsOf a xs)) with (- (nth a (tShape x) 0 + sumZ (dimsOf a xs))) by lia.
      destruct (Z.ltb_spec (nth a idx 0 + - nth a (tShape x) 0) (sumZ (dimsOf a xs))); destruct (Z.ltb_spec (nth a idx 0) (nth a (tShape x) 0 + sumZ (dimsOf a xs))); try lia; reflexivity.
Qed.
Lemma sumZ_app l m : sumZ (l ++ m) = sumZ l + sumZ m.
Proof. induction l as [|x l IH]; [reflexivity|]. cbn [app]. rewrite !sumZ_cons, IH. lia. Qed.
Lemma dimsOf_app {T} a (xs ys : list (tensor T)) : dimsOf a (xs ++ ys) = dimsOf a xs ++ dimsOf a ys. Proof. apply map_app. Qed.

Lemma inner_concatenable {T} a base (v : tensor T) inner vs : concatenable a base (v :: vs) -> isConcat a inner v ->
  concatenable a base inner /\ sumZ (dimsOf a inner) = nth a (tShape v) 0.
Proof.
  intros C (_ & b & C' & Sv & _). destruct (dims_pos _ _ _ C v ltac:(left; auto)) as [Hd E]. destruct C as (Ok & La & _). destruct C' as (_ & Lb & Fi).
  assert (Q : forall d, upd a d b = upd a d base). { intros d. rewrite <- (upd_upd a d (nth a (tShape v) 0) base), <- E, Sv, upd_upd. reflexivity. }
  split.
  - split; auto. split; auto. eapply Forall_impl; [|exact Fi]. cbn. intros x (d & H0 & Ex). exists d. split; auto. rewrite Ex. apply Q.
  - rewrite Sv. rewrite nth_upd_same by auto. reflexivity.
Qed.

Definition nestedOk {T} (axis : Z) (a : nat) (o : operand (tensor T)) : Prop :=
  match o with Nested a' _ inner v => a' = axis -> isConcat a inner v | Plain _ => True end.
Lemma flatten_ok {T} (axis : Z) a base : forall (inputs : list (operand (tensor T))), Forall (nestedOk axis a) inputs -> concatenable a base (map valueOf inputs) ->
  concatenable a base (flatten axis inputs) /\ sumZ (dimsOf a (flatten axis inputs)) = sumZ (dimsOf a (map valueOf inputs)) /\
  forall d idx, valid (upd a (sumZ (dimsOf a (map valueOf inputs))) base) idx -> concat_at d a (map valueOf inputs) idx = concat_at d a (flatten axis inputs) idx.
Proof.
  induction inputs as [|o r IH]; intros N C; [split; [exact C | split; [reflexivity | auto]]|]. inversion N as [|? ? No Nr]; subst. cbn [map] in C.
  destruct (IH Nr (concatenable_tl _ _ _ _ C)) as (Cf & Df & Ef).
  assert (A : exists inner, flatten axis (o :: r) = inner ++ flatten axis r /\ concatenable a base inner /\ sumZ (dimsOf a inner) = nth a (tShape (valueOf o)) 0 /\
     forall d idx, valid (tShape (valueOf o)) idx -> tAt (valueOf o) idx = concat_at d a inner idx).
  { assert (One : forall v, valueOf o = v -> concatenable a base [v] /\ sumZ (dimsOf a [v]) = nth a (tShape (valueOf o)) 0 /\ forall d idx, valid (tShape (valueOf o)) idx -> tAt (valueOf o) idx = concat_at d a [v] idx).
    { intros v <-. split; [destruct C as (C1 & C2 & C3); inversion C3; subst; split; auto|]. split; [unfold dimsOf; cbn [map]; rewrite sumZ_cons; change (sumZ []) with 0; lia|].
      intros d idx V. cbn [concat_at]. destruct (Z.ltb_spec (nth a idx 0) (nth a (tShape (valueOf o)) 0)); auto.
      pose proof C as (_ & La & _). destruct (dims_pos _ _ _ C (valueOf o) ltac:(left; auto)) as [_ E]. rewrite E in V. apply valid_upd_iff in V as (_ & B & _); auto. lia. }
    unfold flatten. cbn [flat_map]. fold (flatten axis r). destruct o as [v | a' u inner v].
    - exists [v]. split; auto.
    - cbn [isMergeableConcat]. destruct ((a' =? axis) && u) eqn:Em; [|exists [v]; split; auto]. apply andb_prop in Em as [Em _]. apply Z.eqb_eq in Em. cbn [nestedOk] in No. specialize (No Em).
      exists inner. split; auto. cbn [valueOf] in *. destruct (inner_concatenable a base v inner (map valueOf r) C No) as [Ci Di]. split; auto. split; auto.
      destruct No as (_ & b & _ & _ & Ev). exact Ev. }
  destruct A as (inner & -> & Ci & Di & Ei). cbn [map]. rewrite dimsOf_app, sumZ_app, Df, Di. change (dimsOf a (valueOf o :: map valueOf r)) with (nth a (tShape (valueOf o)) 0 :: dimsOf a (map valueOf r)). rewrite !sumZ_cons.
  split; [|split; [reflexivity|]].
  - destruct Ci as (C1 & C2 & C3). destruct Cf as (_ & _ & C4). split; auto. split; auto. apply Forall_app; auto.
  - intros d idx V.
    rewrite (concat_app d a base inner _ Ci idx _ V), Di. cbn [concat_at].
    destruct (Z.ltb_spec (nth a idx 0) (nth a (tShape (valueOf o)) 0)).
    + apply Ei. eapply in_first; eauto.
    + apply Ef. apply in_rest with (xs := map valueOf r); auto.
Qed.

Lemma concat_drop {T} a (p q : list (tensor T)) z c : isConcat a (p ++ z :: q) c -> nth a (tShape z) 0 = 0 -> p ++ q <> [] -> isConcat a (p ++ q) c.
Proof.
  intros (_ & base & C & Sc & Ec) Hz Ne. split; auto. exists base. fold (dimsOf a (p ++ z :: q)) in Sc. fold (dimsOf a (p ++ q)).
  assert (D : sumZ (dimsOf a (p ++ z :: q)) = sumZ (dimsOf a (p ++ q))) by (rewrite !dimsOf_app, !sumZ_app; change (dimsOf a (z :: q)) with (nth a (tShape z) 0 :: dimsOf a q); rewrite sumZ_cons; lia).
  rewrite <- D. destruct C as (C1 & C2 & C3). apply Forall_app in C3 as [C3 C4]. inversion C4 as [|? ? C5 C6]; subst. assert (Cp : concatenable a base p) by (split; auto).
  split; [split; auto; split; auto; apply Forall_app; auto|]. split; [exact Sc|]. intros d idx V. rewrite (Ec d idx V). rewrite Sc in V.
  rewrite !(concat_app d a base p _ Cp idx _ V). destruct (Z.ltb_spec (nth a idx 0) (sumZ (dimsOf a p))); auto. cbn [concat_at]. rewrite Hz. rewrite shift_nth, Nat.eqb_refl.
  pose proof V as V'. apply valid_upd_iff in V' as (Li & B & _); auto. destruct (Nat.ltb_spec a (length idx)); [|lia].
  destruct (Z.ltb_spec (nth a idx 0 + - sumZ (dimsOf a p)) 0); [lia|]. change (- 0) with 0. now rewrite shift_0.
Qed.

Definition zeroTyped (axis : Z) (t : option (list (option Z))) : bool := match t with Some s => match zget s axis with Some (Some 0) => true | _ => false end | None => false end.
Lemma zeroIndices_ok axis types : (forall s, In (Some s) types -> s = [] \/ exists d, zget s axis = Some d) -> forall i,
  zeroIndices axis i types = Some (map fst (filter (fun q => zeroTyped axis (snd q)) (combine (seq i (length types)) types))).
Proof.
  induction types as [|t r IH]; intros H i; [reflexivity|]. specialize (IH (fun s I => H s (or_intror I)) (S i)). cbn [zeroIndices length seq combine filter snd].
  destruct t as [[|d0 s]|]; cbn [zeroTyped].
  - replace (match zget (@nil (option Z)) axis with Some (Some 0) => true | _ => false end) with false by (unfold zget; destruct (axis <? 0); auto; destruct (Z.to_nat axis); auto). exact IH.
  - destruct (H (d0 :: s) (or_introl eq_refl)) as [|(d & E)]; [discriminate|]. rewrite E. cbn [obind]. rewrite IH. cbn [obind]. destruct d as [[]|]; reflexivity.
  - exact IH.
Qed.
Lemma one_index {A} (f : A -> bool) p z q : (forall x, In x (p ++ q) -> f x = false) -> f z = true -> forall i,
  map fst (filter (fun c => f (snd c)) (combine (seq i (length (p ++ z :: q))) (p ++ z :: q))) = [(i + length p)%nat].
Proof.
  intros H Hz. assert (N : forall l i, (forall x, In x l -> f x = false) -> filter (fun c : nat * A => f (snd c)) (combine (seq i (length l)) l) = []).
  { induction l as [|x l IH]; intros i Hl; [reflexivity|]. cbn [length seq combine filter snd]. rewrite (Hl x) by (left; auto). apply IH. intros; apply Hl; right; auto. }
  induction p as [|x p IH]; intros i; cbn [app length seq combine filter snd].
  - rewrite Hz. rewrite N by (intros; apply H; auto). cbn. f_equal. lia.
  - rewrite (H x) by (left; auto). rewrite IH by (intros; apply H; right; auto). f_equal. lia.
Qed.
Lemma erase_one {V} (p q : list V) z : eraseAll [length p] (p ++ z :: q) = Some (p ++ q).
Proof.
  unfold eraseAll. cbn [foldM]. unfold eraseOperand. rewrite app_length. cbn [length]. destruct (Nat.ltb_spec (length p) (length p + S (length q))); [|lia]. cbn [obind].
  rewrite firstn_app, Nat.sub_diag, firstn_all. cbn [firstn]. rewrite app_nil_r. f_equal. f_equal. change (z :: q) with ([z] ++ q). rewrite app_assoc, skipn_app. 
  rewrite (skipn_all2 (p ++ [z])) by (rewrite app_length; cbn; lia). rewrite app_length. cbn [length app]. replace (S (length p) - (length p + 1))%nat with O by lia. reflexivity.
Qed.
Lemma emptyIndices_ok types : forall i, emptyIndices i types = map fst (filter (fun q => match snd q with Some [Some 0] => true | _ => false end) (combine (seq i (length types)) types)).
Proof. induction types as [|t r IH]; intros i; [reflexivity|]. cbn [emptyIndices length seq combine filter snd]. rewrite IH. destruct t as [[|[[]|] [|]]|]; reflexivity. Qed.
