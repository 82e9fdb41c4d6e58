From Coq Require Import List ZArith Lia Bool Arith.
From Verif Require Import Util TensorSpec TensorLemmas ShapeOpsCopies CumSumProofs LoopModel LoopProofs GatherLoopSpec GatherLoopModel GatherLoopProofs ScatterLoopSpec ScatterLoopModel.
Import ListNotations.
Open Scope Z_scope.

Lemma find_split {A} (p : A -> bool) l k : find p l = Some k -> exists l1 l2, l = l1 ++ k :: l2 /\ p k = true /\ forall x, In x l1 -> p x = false.
Proof.
  induction l as [|a l IH]; cbn; [discriminate|]. destruct (p a) eqn:E.
  - intros H. injection H as <-. exists [], l. repeat split; auto. intros x [].
  - intros H. destruct (IH H) as (l1 & l2 & -> & K & N). exists (a :: l1), l2. repeat split; auto. intros x [<-|Hx]; auto.
Qed.
(** The first match from the end is the match with the largest position. *)
Lemma find_last s p k i : okshape s -> find p (rev (indices s)) = Some k -> valid s i -> p i = true -> valid s k /\ p k = true /\ rm s i <= rm s k.
Proof.
  intros Ok F V P. destruct (find_split _ _ _ F) as (l1 & l2 & E & K & N).
  apply (f_equal (@rev index)) in E. rewrite rev_involutive, rev_app_distr in E. cbn [rev] in E. rewrite <- app_assoc in E. cbn [app] in E.
  assert (Pos : forall q x, zget (indices s) q = Some x -> 0 <= q -> q = rm s x /\ valid s x).
  { intros q x Q Q0. pose proof (zget_inv _ _ _ Q) as B. split.
    - pose proof (zget_map (rm s) (indices s) q) as Z. rewrite map_rm_indices, Q in Z by auto. rewrite indices_length in B by auto. unfold zrange in Z. rewrite zget_zseq in Z by lia. cbn in Z. injection Z as Z. lia.
    - apply indices_In. rewrite zget_spec in Q by lia. eapply nth_error_In; eauto. }
  assert (KP : zget (indices s) (Z.of_nat (length l2)) = Some k).
  { rewrite E, zget_app2 by (rewrite rev_length; lia). rewrite rev_length, Z.sub_diag. reflexivity. }
  destruct (Pos _ _ KP ltac:(lia)) as [KR KV]. split; [exact KV|]. split; [exact K|].
  apply indices_In in V. rewrite E in V. apply in_app_or in V as [V|[V|V]].
  - apply In_nth_error in V as [q Q]. assert (q < length (rev l2))%nat by (apply nth_error_Some; congruence).
    destruct (Pos (Z.of_nat q) i) as [R _]; [|lia|rewrite rev_length in H; lia].
    rewrite E, zget_app1 by lia. rewrite zget_spec by lia. now rewrite Nat2Z.id.
  - subst i. lia.
  - apply in_rev in V. rewrite (N i V) in P. discriminate.
Qed.

Section Scatter.
Context {T : Type}.

Lemma scattered_ok sd us (dv uv : index -> T) (target : index -> index) (out : mem T) (data : mem T) f :
  okshape us -> (forall i, valid sd i -> mAt data i = Some (dv i)) -> (forall u, valid us u -> f u = Some (uv u)) ->
  (forall j, mAt out j = match find (fun i => ieqb (target i) j) (rev (indices us)) with Some i => f i | None => mAt data j end) ->
  scattered sd dv us uv target (mAt out).
Proof.
  intros Ok HD HU R. split.
  - intros o V N. rewrite R. destruct (find _ _) as [k|] eqn:F; [|auto]. apply find_some in F as [F1 F2]. apply in_rev, indices_In in F1. apply ieqb_eq in F2. now apply N in F2.
  - intros u V N. rewrite R. destruct (find _ _) as [k|] eqn:F.
    + destruct (find_last us _ k u Ok F V (ieqb_refl _)) as (KV & KP & L). cbn beta in KP. apply ieqb_eq in KP. specialize (N k KV KP).
      pose proof (valid_length _ _ V). pose proof (valid_length _ _ KV). rewrite !rowmajor_rm in N by auto.
      rewrite (rm_inj us k u KV V) by lia. auto.
    + exfalso. assert (Q := find_none _ _ F u). cbn beta in Q. rewrite ieqb_refl in Q. discriminate Q. rewrite <- in_rev. now apply indices_In.
Qed.

Lemma scatterElements_ok red consts axis (data : mem T) (ind : mem Z) (updates : mem T) dv iv uv a :
  let d := nth a (mShape data) 0 in
  names_axis (length (mShape data)) a axis -> mShape ind = mShape updates -> okshape (mShape updates) -> fits_but a (mShape updates) (mShape data) ->
  (forall i, valid (mShape data) i -> mAt data i = Some (dv i)) -> (forall j, valid (mShape ind) j -> mAt ind j = Some (iv j)) ->
  (forall j, valid (mShape updates) j -> mAt updates j = Some (uv j)) ->
  knows consts iv (mShape ind) -> (forall j, valid (mShape ind) j -> legal d (iv j)) ->
  exists out, scatterElementsLoop red consts axis data ind updates = Some out /\ mShape out = mShape data /\
    scattered (mShape data) dv (mShape updates) uv (fun u => upd a (wrap d (iv u)) u) (mAt out).
Proof.
  intros d HA HS Ok HF HD HI HU HK HL. unfold scatterElementsLoop. rewrite (normalAxis_ok _ _ _ HA). fold d.
  destruct (stores_ok (fun u => upd a (wrap d (iv u)) u) (fun u => Some (uv u)) (indices (mShape updates)) (copyOf data)) as (out & E & S & R).
  { intros u Hu. apply indices_In in Hu. split; [|eauto]. cbn [copyOf mShape]. apply (fits_valid a (mShape updates)); auto. apply wrap_bound. apply HL. now rewrite HS. }
  exists out. split; [|split; [exact S|]].
  - rewrite <- E. unfold iterate. apply foldM_ext. intros u m Hu. apply indices_In in Hu. rewrite load_ok, HU by auto. rewrite load_ok, HI by (rewrite HS; auto). cbn [obind].
    assert (V : valid (mShape ind) u) by (now rewrite HS). pose proof (adjust_legal consts iv _ d u HK V (HL u V) false) as A. unfold adjustIndex in A. cbn [obind]. rewrite A.
    rewrite map_upd_seq; [reflexivity|]. destruct HF as [HF _]. rewrite <- HF. symmetry. now apply valid_length.
  - eapply scattered_ok with (data := copyOf data) (f := fun u => Some (uv u)); auto.
Qed.

(** ScatterND when the index tensor holds tuples of [rank - 1] values. *)
Section ND.
Variables (data : mem T) (ind : mem Z) (updates : mem T) (dv uv : index -> T) (iv : index -> Z) (sJ sX sK : shape).
Let k := length sX.
Hypothesis HQ : length sJ = k.
Hypothesis HN : (1 <= k + length sK)%nat.
Hypothesis HS : mShape data = sX ++ sK.
Hypothesis HI : mShape ind = sJ ++ [Z.of_nat k].
Hypothesis HP : mShape updates = sJ ++ sK.
Hypothesis Ok : okshape (mShape updates).
Hypothesis HD : forall i, valid (mShape data) i -> mAt data i = Some (dv i).
Hypothesis HV : forall j, valid (mShape ind) j -> mAt ind j = Some (iv j).
Hypothesis HU : forall j, valid (mShape updates) j -> mAt updates j = Some (uv j).
Definition nd_tuple (jj : index) : index := map (fun x => iv (jj ++ [x])) (zrange (Z.of_nat k)).
Hypothesis HL : forall jj, valid sJ jj -> valid sX (nd_tuple jj).

Lemma access_ok jj kk : valid sJ jj -> valid sK kk -> outputAccess ind (jj ++ kk) (seq 0 (length (mShape data))) = Some (nd_tuple jj ++ kk).
Proof.
  intros V1 V2. pose proof (valid_length _ _ V1) as L1. pose proof (valid_length _ _ V2) as L2.
  assert (LI : (length (mShape ind) - 1)%nat = k) by (rewrite HI, app_length; cbn; lia).
  rewrite HS, app_length. fold k. rewrite seq_app. cbn [Nat.add].
  assert (A : forall l m, outputAccess ind (jj ++ kk) (l ++ m) = (x <- outputAccess ind (jj ++ kk) l ;; y <- outputAccess ind (jj ++ kk) m ;; Some (x ++ y))).
  { induction l as [|i l IH]; intros m; cbn [outputAccess app obind]; [destruct (outputAccess _ _ m); reflexivity|]. rewrite IH.
    match goal with |- context [obind ?v _] => destruct v end; cbn [obind]; auto. destruct (outputAccess _ _ l); cbn [obind]; auto. destruct (outputAccess _ _ m); cbn [obind]; auto. }
  rewrite A.
  assert (B : outputAccess ind (jj ++ kk) (seq 0 k) = Some (nd_tuple jj)).
  { unfold nd_tuple, zrange. rewrite Nat2Z.id. assert (G : forall n p, (p + n <= k)%nat -> outputAccess ind (jj ++ kk) (seq p n) = Some (map (fun x => iv (jj ++ [x])) (zseq (Z.of_nat p) n))).
    { induction n as [|n IH]; intros p P; cbn [seq outputAccess zseq map]; auto. rewrite LI. destruct (Nat.ltb_spec p k); [|lia]. rewrite (firstn_exact jj) by lia.
      rewrite load_ok, HV by (rewrite HI; apply valid_app; [lia|]; split; auto; apply valid_cons; split; [lia|constructor]).
      cbn [obind]. rewrite IH by lia. cbn [obind]. do 5 f_equal. lia. }
    apply (G k O). lia. }
  assert (C : outputAccess ind (jj ++ kk) (seq k (length sK)) = Some kk).
  { assert (G : forall m p, (p + length m = length kk)%nat -> skipn p kk = m -> outputAccess ind (jj ++ kk) (seq (k + p) (length m)) = Some m).
    { induction m as [|x m IH]; intros p P E; cbn [seq length outputAccess]; auto. cbn [length] in P. rewrite LI. destruct (Nat.ltb_spec (k + p) k); [lia|].
      assert (LL : length (jj ++ kk) = S (k + length kk - 1)) by (rewrite app_length; lia). rewrite LL. replace (Nat.min (k + p) (k + length kk - 1)) with (k + p)%nat by lia.
      rewrite nth_error_app2 by lia. replace (k + p - length jj)%nat with p by lia.
      assert (NE : nth_error kk p = Some x). { rewrite <- (firstn_skipn p kk), E, nth_error_app2; rewrite firstn_length; [|lia]. replace (p - Nat.min p (length kk))%nat with O by lia. reflexivity. }
      rewrite NE. cbn [obind]. replace (S (k + p)) with (k + S p)%nat by lia. rewrite (IH (S p)); [reflexivity|lia|]. eapply skipn_step; eauto. }
    rewrite L2. replace k with (k + 0)%nat at 1 by lia. apply G; auto. }
  rewrite B, C. reflexivity.
Qed.

Definition nd_target (u : index) : index := nd_tuple (firstn (length sJ) u) ++ skipn (length sJ) u.
Lemma scatterND_ok red : exists out, scatterNDLoop red data ind updates = Some out /\ mShape out = mShape data /\
  scattered (mShape data) dv (mShape updates) uv nd_target (mAt out).
Proof.
  assert (Sp : forall u, valid (mShape updates) u -> exists jj kk, u = jj ++ kk /\ valid sJ jj /\ valid sK kk /\ nd_target u = nd_tuple jj ++ kk).
  { intros u V. rewrite HP in V. destruct (valid_split_app _ _ _ V) as (jj & kk & -> & V1 & V2). exists jj, kk. repeat split; auto.
    unfold nd_target. apply valid_length in V1. rewrite (firstn_exact jj), (skipn_exact jj) by auto. reflexivity. }
  unfold scatterNDLoop.
  destruct (stores_ok nd_target (fun u => Some (uv u)) (indices (mShape updates)) (copyOf data)) as (out & E & S & R).
  { intros u Hu. apply indices_In in Hu. destruct (Sp u Hu) as (jj & kk & -> & V1 & V2 & ->). split; [|eauto]. cbn [copyOf mShape]. rewrite HS. apply valid_app; [apply valid_length; auto|]. auto. }
  exists out. split; [|split; [exact S|]].
  - rewrite <- E. unfold iterate. apply foldM_ext. intros u m Hu. apply indices_In in Hu. destruct (Sp u Hu) as (jj & kk & Eu & V1 & V2 & Et). rewrite Et, Eu. rewrite access_ok by auto. cbn [obind].
    rewrite <- Eu, load_ok, HU by auto. reflexivity.
  - eapply scattered_ok with (data := copyOf data) (f := fun u => Some (uv u)); auto.
Qed.
End ND.
End Scatter.
