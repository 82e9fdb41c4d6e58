(** Proofs about the choice between the reduction loops. *)
From Coq Require Import List ZArith Lia Bool Arith Permutation.
From Verif Require Import Util TensorSpec TensorLemmas BroadcastModel BroadcastProps LoopModel LoopProofs CumSumProofs GatherLoopModel GatherLoopProofs CopyLoopProofs ArgLoopModel ArgLoopProofs ReduceLoopSpec ReduceLoopModel ReduceLoopProofs ReduceLoopProps SimdReduceModel SimdReduceProofs SimdShuffleProofs.
Import ListNotations.
Open Scope Z_scope.

(** ** Which dimensions *)
Lemma uniqueAxes_nodup rank l : forall acc r, uniqueAxes rank l acc = Some r -> NoDup acc -> Forall (fun a => (a < rank)%nat) acc -> NoDup r /\ Forall (fun a => (a < rank)%nat) r.
Proof.
  induction l as [|x l IH]; intros acc r; cbn [uniqueAxes].
  - intros [= <-]. auto.
  - destruct (Z.ltb_spec x (- Z.of_nat rank)); [discriminate|]. destruct (Z.ltb_spec (Z.of_nat rank - 1) x); [discriminate|]. cbn [orb]. intros E N B. apply IH in E; auto.
    + destruct (existsb _ acc) eqn:X; auto. apply NoDup_rev in N. rewrite <- (rev_involutive (acc ++ _)). apply NoDup_rev. rewrite rev_app_distr. cbn. constructor; auto. intros I. apply in_rev in I.
      assert (existsb (Nat.eqb (Z.to_nat (if 0 <=? x then x else Z.of_nat rank + x))) acc = true); [|congruence]. apply existsb_exists. eexists. split; [exact I|apply Nat.eqb_refl].
    + destruct (existsb _ acc); auto. apply Forall_app. split; auto. constructor; auto. destruct (Z.leb_spec 0 x); lia.
Qed.
Definition count (l : list bool) : nat := length (filter (fun b => b) l).
Lemma count_app a b : count (a ++ b) = (count a + count b)%nat.
Proof. unfold count. now rewrite filter_app, app_length. Qed.
Lemma count_mask low rank : NoDup low -> Forall (fun a => (a < rank)%nat) low -> count (map (fun i => existsb (Nat.eqb i) low) (seq 0 rank)) = length low.
Proof.
  intros N B. unfold count. assert (E : length (filter (fun b => b) (map (fun i => existsb (Nat.eqb i) low) (seq 0 rank))) = length (filter (fun i => existsb (Nat.eqb i) low) (seq 0 rank))).
  { clear. induction (seq 0 rank) as [|x l IH]; cbn [map filter]; auto. destruct (existsb (Nat.eqb x) low); cbn [length]; auto. }
  rewrite E. apply Nat.le_antisymm.
  - apply NoDup_incl_length; [apply NoDup_filter, seq_NoDup|]. intros i Hi. apply filter_In in Hi as [_ Hi]. apply existsb_exists in Hi as (j & Hj & EJ). apply Nat.eqb_eq in EJ. now subst.
  - apply NoDup_incl_length; auto. intros i Hi. apply filter_In. rewrite Forall_forall in B. split; [apply in_seq; specialize (B i Hi); lia|]. apply existsb_exists. exists i. split; auto. apply Nat.eqb_refl.
Qed.
Lemma innermost_split l : exists x, l = repeat true (innermostReduced l) ++ x.
Proof. induction l as [|[|] l [x IH]]; cbn [innermostReduced repeat app]; [exists []; reflexivity| |eexists; reflexivity]. exists x. now rewrite <- IH. Qed.
Lemma count_zero l : count l = O -> l = repeat false (length l).
Proof. unfold count. induction l as [|[|] l IH]; cbn; intros H; try discriminate; auto. now rewrite <- IH. Qed.
Lemma count_repeat n : count (repeat true n) = n.
Proof. unfold count. induction n; cbn; auto. Qed.
Lemma rev_repeat {A} (x : A) n : rev (repeat x n) = repeat x n.
Proof. induction n as [|n IH]; cbn [repeat rev]; auto. rewrite IH. clear. induction n; cbn [repeat app]; auto. now rewrite IHn. Qed.
Lemma mask_shape red h : innermostReduced (rev red) = h -> count red = h -> red = repeat false (length red - h) ++ repeat true h.
Proof.
  intros I C. destruct (innermost_split (rev red)) as [x E]. rewrite I in E. assert (ER : red = rev x ++ repeat true h) by (rewrite <- (rev_involutive red), E, rev_app_distr, rev_repeat; reflexivity).
  assert (CZ : count (rev x) = O). { rewrite ER, count_app, count_repeat in C. lia. }
  apply count_zero in CZ. rewrite ER at 1. rewrite CZ. f_equal. f_equal. rewrite ER, app_length, repeat_length. lia.
Qed.

(** ** The innermost dimensions are reduced *)
Lemma filter_all {A} (p : A -> bool) l : (forall x, In x l -> p x = true) -> filter p l = l.
Proof. induction l as [|x l IH]; intros H; cbn [filter]; auto. rewrite (H x) by now left. f_equal. apply IH. intros; apply H; now right. Qed.
Lemma reduceDims_inner p h keep one (a b : list Z) : length a = p -> length b = h -> reduceDims (repeat false p ++ repeat true h) keep one (a ++ b) = a ++ (if keep then repeat one h else []).
Proof.
  intros LA LB. subst p h. induction a as [|x a IH]; cbn [length repeat app reduceDims].
  - induction b as [|y b IH]; cbn [length repeat app reduceDims]; [now destruct keep|]. rewrite IH. now destruct keep.
  - now rewrite IH.
Qed.
Lemma ones_size h : size (repeat 1 h) = 1.
Proof. unfold size. induction h; cbn [repeat]; [reflexivity|]. rewrite prodZ_cons. lia. Qed.
Lemma ones_valid h o : valid (repeat 1 h) o -> o = repeat 0 h.
Proof. revert o; induction h as [|h IH]; intros o V; cbn [repeat] in *; inversion V; subst; auto. f_equal; [lia|auto]. Qed.
Lemma ones_rm h : rm (repeat 1 h) (repeat 0 h) = 0.
Proof. induction h; cbn [repeat rm]; auto. Qed.
Lemma inner_elements {T} (A B : list Z) keep (dv : list Z -> T) a : valid A a -> 
  reducedElements (repeat false (length A) ++ repeat true (length B)) keep (A ++ B) dv (a ++ (if keep then repeat 0 (length B) else [])) = map (fun b => dv (a ++ b)) (indices B).
Proof.
  intros VA. unfold reducedElements. rewrite indices_app, filter_flat.
  assert (E : flat_map (fun x => filter (fun i => ieqb (reduceDims (repeat false (length A) ++ repeat true (length B)) keep 0 i) (a ++ (if keep then repeat 0 (length B) else []))) (map (app x) (indices B))) (indices A)
            = flat_map (fun x => map (app x) (indices B)) (filter (ieqb a) (indices A))).
  { assert (G : forall l, (forall x, In x l -> length x = length A) -> flat_map (fun x => filter (fun i => ieqb (reduceDims (repeat false (length A) ++ repeat true (length B)) keep 0 i) (a ++ (if keep then repeat 0 (length B) else []))) (map (app x) (indices B))) l
            = flat_map (fun x => map (app x) (indices B)) (filter (ieqb a) l)).
    { induction l as [|x l IH]; intros HL; cbn [flat_map filter]; auto. rewrite IH by (intros; apply HL; now right).
      assert (P : forall b, In b (indices B) -> ieqb (reduceDims (repeat false (length A) ++ repeat true (length B)) keep 0 (x ++ b)) (a ++ (if keep then repeat 0 (length B) else [])) = ieqb a x).
      { intros b Hb. apply indices_In, valid_length in Hb. rewrite reduceDims_inner by (auto; apply HL; now left). destruct (ieqb a x) eqn:EX.
        - apply ieqb_eq in EX. subst x. apply ieqb_refl.
        - apply ieqb_neq. intros EQ. apply app_inj_len in EQ as [-> _]; [|apply valid_length in VA; rewrite (HL x) by (now left); lia]. now rewrite ieqb_refl in EX. }
      destruct (ieqb a x) eqn:EX; cbn [flat_map].
      - f_equal. rewrite filter_all; auto. intros i Hi. apply in_map_iff in Hi as (b & <- & Hb). now apply P.
      - rewrite filter_false; auto. intros i Hi. apply in_map_iff in Hi as (b & <- & Hb). now apply P. }
    apply G. intros x Hx. apply indices_In, valid_length in Hx. lia. }
  rewrite E, (filter_same A a VA). cbn [flat_map]. rewrite app_nil_r, map_map. reflexivity.
Qed.
Lemma all_elements {T} s (dv : list Z -> T) : reducedElements (repeat true (length s)) false s dv [] = map dv (indices s).
Proof.
  pose proof (inner_elements [] s false dv [] ltac:(constructor)) as H. cbn [length repeat app] in H. exact H.
Qed.

Lemma flattenInner_app A B : flattenInner (A ++ B) (length B) = A ++ [size B].
Proof. unfold flattenInner. rewrite app_length. replace (length A + length B - length B)%nat with (length A) by lia. rewrite firstn_exact, skipn_exact, fold_mul by reflexivity. reflexivity. Qed.

Section Dispatch.
Context {T : Type} (op : T -> T -> T) (identity : T) (divideBy : option (T -> Z -> T)).
Hypothesis opA : forall x y z, op x (op y z) = op (op x y) z.
Hypothesis opC : forall x y, op x y = op y x.
Hypothesis opI : forall x, op identity x = x.
Variables (input : mem T) (dv : list Z -> T).
Let s := mShape input.
Hypothesis OK : okshape s.
Hypothesis HD : forall i, valid s i -> mAt input i = Some (dv i).

Lemma reduceHorizontal_ok c A B (keep : bool) : s = A ++ B -> A <> [] -> let out := A ++ (if keep then repeat 1 (length B) else []) in
  (divideBy = None \/ size out <> 0) -> 1 <= VLof c -> (simdOnlyOf c = true -> size B mod VLof c = 0) -> (hasHorizontalSimdSupport c = false -> exists K, VLof c = 2 ^ Z.of_nat K) ->
  exists res, reduceHorizontal op identity divideBy c (length B) keep out input = Some res /\ mShape res = out /\
    forall o, valid out o -> mAt res o = Some (reduceAll op identity divideBy (reducedElements (repeat false (length A) ++ repeat true (length B)) keep s dv o)).
Proof.
  intros ES NA out ND HV HB HK. unfold reduceHorizontal. fold s.
  assert (SO : size out = size A) by (unfold out; rewrite size_app; destruct keep; rewrite ?ones_size, ?size_nil; lia).
  assert (OKB : okshape B /\ okshape A) by (rewrite ES in OK; apply Forall_app in OK; tauto). destruct OKB as [OKB OKA].
  assert (DV : exists d, divisorForMean divideBy s out = Some d /\ forall v, post divideBy v d = match divideBy with None => v | Some div => div v (size B) end).
  { unfold divisorForMean, post. destruct divideBy as [div|]; [|exists 0; auto]. destruct ND as [ND|ND]; [discriminate|]. rewrite !fold_mul, SO. rewrite SO in ND. destruct (Z.eqb_spec (size A) 0); [contradiction|].
    exists (size B). split; auto. f_equal. rewrite ES, size_app, Z.mul_comm, Z.div_mul; auto. }
  destruct DV as (d & -> & PD). cbn [obind].
  assert (EFI : flattenInner s (length B) = A ++ [size B]) by (rewrite ES; apply flattenInner_app).
  destruct (exists_last NA) as (A' & U & EA).
  assert (EFO : flattenInner out (if keep then S (length B) else 1) = A).
  { unfold out. destruct keep.
    - rewrite EA, <- app_assoc. replace (S (length B)) with (length ([U] ++ repeat 1 (length B))) by (cbn [app length]; now rewrite repeat_length). rewrite flattenInner_app. do 2 f_equal. cbn [app]. rewrite size_cons, ones_size. lia.
    - rewrite app_nil_r, EA. change 1%nat with (length [U]). rewrite flattenInner_app. do 2 f_equal. rewrite size_cons, size_nil. lia. }
  rewrite EFI, EFO, last_last.
  assert (RD : forall o j, valid A o -> 0 <= j < size B -> load (reinterpret input (A ++ [size B])) (o ++ [j]) = Some (dv (o ++ unrm B j))).
  { intros o j VO J. destruct (unrm_spec B j OKB J) as [VJ EJ]. assert (VF : valid (A ++ [size B]) (o ++ [j])) by (apply valid_app; [now apply valid_length|]; split; auto; apply valid_cons; split; [lia|constructor]).
    rewrite load_ok by exact VF. assert (VS : valid s (o ++ unrm B j)) by (rewrite ES; apply valid_app; [now apply valid_length|]; auto).
    rewrite (reinterpret_at input _ _ (o ++ unrm B j)); auto. fold s. rewrite ES, !rm_app by (now apply valid_length). rewrite EJ. cbn [rm]. rewrite size_cons, size_nil. lia. }
  assert (HU : 0 <= size B) by (now apply size_nonneg).
  assert (G : exists res, (if hasHorizontalSimdSupport c then horizontal op identity (fun v => v) divideBy (reinterpret input (A ++ [size B])) A (size B) (VLof c) (simdOnlyOf c) d
      else shuffleHorizontal op identity (fun v => v) divideBy (reinterpret input (A ++ [size B])) A (size B) (VLof c) (simdOnlyOf c) d) = Some res /\ mShape res = A /\
      forall o, valid A o -> mAt res o = Some (rowResult op identity divideBy (size B) d (fun o j => dv (o ++ unrm B j)) o)).
  { destruct (hasHorizontalSimdSupport c).
    - apply horizontal_ok; auto.
    - destruct (HK eq_refl) as [K EK]. apply (shuffle_ok op identity divideBy opA opC opI _ A (size B) (VLof c) d (simdOnlyOf c) (fun o j => dv (o ++ unrm B j)) HV HU HB RD K A' U EK EA).
      rewrite EA in OKA. apply Forall_app in OKA as [_ OU]. now inversion OU. }
  destruct G as (res & EG & SR & R). exists (reinterpret res out). split.
  - destruct (hasHorizontalSimdSupport c); rewrite EG; reflexivity.
  - split; [reflexivity|]. intros o VO. unfold out in VO. apply valid_split_app in VO as (a & z & -> & VA & VZ).
    assert (EZ : z = if keep then repeat 0 (length B) else []) by (destruct keep; [now apply ones_valid|inversion VZ; auto]).
    rewrite (reinterpret_at res _ _ a).
    + rewrite R by auto. f_equal. rewrite EZ, ES, inner_elements by auto. unfold rowResult. rewrite PD. unfold rowSum, reduceAll, msum.
      assert (EE : map (fun j => dv (a ++ unrm B j)) (zseq 0 (Z.to_nat (size B))) = map (fun b => dv (a ++ b)) (indices B)) by (rewrite (indices_unrm B OKB), map_map; reflexivity).
      rewrite EE. destruct divideBy; auto. now rewrite map_length, indices_length.
    + now rewrite SR.
    + rewrite SR. unfold out. rewrite rm_app by (now apply valid_length). rewrite EZ. destruct keep; [rewrite ones_size, ones_rm; lia|cbn [rm]; rewrite size_nil; lia].
Qed.
End Dispatch.
