From Coq Require Import List ZArith Lia Bool Arith Permutation.
From Verif Require Import Util TensorSpec TensorLemmas LoopModel LoopProofs GatherLoopModel GatherLoopProofs BroadcastModel ElementsSpec ShapeOpsCopies CompressProofs TransposeLoopModel.
Import ListNotations.
Open Scope Z_scope.

(** ** Permutations *)
Section P.
Context (n : nat) (perm : list nat).
Hypothesis HP : Permutation perm (seq 0 n).
Lemma perm_length : length perm = n.
Proof. rewrite (Permutation_length HP). apply seq_length. Qed.
Lemma perm_bound p : In p perm -> (p < n)%nat.
Proof. intros H. apply (Permutation_in _ HP) in H. apply in_seq in H. lia. Qed.
Lemma perm_all p : (p < n)%nat -> In p perm.
Proof. intros H. apply (Permutation_in _ (Permutation_sym HP)). apply in_seq. lia. Qed.
Lemma perm_NoDup : NoDup perm.
Proof. apply (Permutation_NoDup (Permutation_sym HP)), seq_NoDup. Qed.

Lemma permute_length l : length (permute perm l) = n.
Proof. unfold permute. rewrite map_length. apply perm_length. Qed.
Lemma permute_nth l k : (k < n)%nat -> nth k (permute perm l) 0 = nth (nth k perm O) l 0.
Proof.
  intros H. unfold permute. set (g := fun p => nth p l 0). rewrite (nth_indep _ 0 (g O)) by (rewrite map_length, perm_length; lia). now rewrite map_nth.
Qed.
Lemma permute_valid s i : length s = n -> valid s i -> valid (permute perm s) (permute perm i).
Proof.
  intros L V. pose proof (valid_length _ _ V). apply valid_nth_iff; [now rewrite !permute_length|]. rewrite permute_length. intros r Hr. rewrite !permute_nth by auto.
  assert (nth r perm O < n)%nat by (apply perm_bound, nth_In; rewrite perm_length; lia). apply ShapeOpsProofs.valid_nth'; auto. lia.
Qed.
Lemma permute_inj i j : length i = n -> length j = n -> permute perm i = permute perm j -> i = j.
Proof.
  intros Li Lj E. apply nth_ext with (d := 0) (d' := 0); [lia|]. intros k Hk. rewrite Li in Hk.
  destruct (In_nth _ _ O (perm_all k Hk)) as (q & Q & <-). rewrite perm_length in Q. rewrite <- !permute_nth by auto. now rewrite E.
Qed.
End P.

(** ** Shapes and views *)
Lemma transposedDims_ok s perm : (forall p, In p perm -> (p < length s)%nat) -> transposedDims s (map Z.of_nat perm) = Some (permute perm s).
Proof.
  induction perm as [|p perm IH]; intros H; cbn [map transposedDims permute]; auto. destruct (Z.ltb_spec (Z.of_nat p) 0); [lia|].
  rewrite zget_spec, Nat2Z.id by lia. rewrite (nth_error_nth' _ 0) by (apply H; cbn; auto). cbn [obind]. rewrite IH by (intros; apply H; cbn; auto). reflexivity.
Qed.
Definition kept (lits : list bool) (s : list Z) (a : nat) : bool := negb (nth a lits false && (nth a s 0 =? 1)).
Lemma keptAxes_ok lits s axes : length lits = length s -> (forall p, In p axes -> (p < length s)%nat) -> keptAxes lits s (map Z.of_nat axes) = Some (map Z.of_nat (filter (kept lits s) axes)).
Proof.
  intros L. induction axes as [|p r IH]; intros H; cbn [map keptAxes filter]; auto. unfold keptAxis. rewrite !zget_spec, Nat2Z.id by lia.
  rewrite (nth_error_nth' lits false) by (rewrite L; apply H; cbn; auto). cbn [obind]. rewrite (nth_error_nth' s 0) by (apply H; cbn; auto). cbn [obind]. rewrite IH by (intros; apply H; cbn; auto). cbn [obind].
  fold (kept lits s p). destruct (kept lits s p); reflexivity.
Qed.
Lemma zrange_seq n : zrange (Z.of_nat n) = map Z.of_nat (seq 0 n).
Proof.
  unfold zrange. rewrite Nat2Z.id. change 0 with (Z.of_nat 0). generalize O. induction n as [|n IH]; intros k; cbn [zseq seq map]; auto. f_equal. rewrite <- IH. f_equal. lia.
Qed.
Lemma map_inj {A B} (f : A -> B) l m : (forall x y, f x = f y -> x = y) -> map f l = map f m -> l = m.
Proof. intros I. revert m. induction l as [|x l IH]; intros [|y m] E; cbn in E; try discriminate; auto. injection E as E1 E2. f_equal; auto. Qed.
Lemma canBeViewOp_ok lits s perm : length lits = length s -> (forall p, In p perm -> (p < length s)%nat) ->
  exists b, canBeViewOp lits s (map Z.of_nat perm) = Some b /\ (b = true <-> filter (kept lits s) (seq 0 (length s)) = filter (kept lits s) perm).
Proof.
  intros L H. unfold canBeViewOp. rewrite zrange_seq, !keptAxes_ok; auto; [|intros p Hp; apply in_seq in Hp; lia]. cbn [obind]. eexists. split; [reflexivity|].
  destruct (list_eq_dec _ _ _) as [E|E]; split; intros Q; auto; try discriminate.
  - apply map_inj in E; auto. intros; lia.
  - exfalso. apply E. now rewrite Q.
Qed.
Lemma rm_filter (f : nat -> bool) (s i : list Z) axes : (forall p, In p axes -> f p = false -> nth p s 0 = 1 /\ nth p i 0 = 0) ->
  size (permute (filter f axes) s) = size (permute axes s) /\ rm (permute (filter f axes) s) (permute (filter f axes) i) = rm (permute axes s) (permute axes i).
Proof.
  induction axes as [|p r IH]; intros H; [auto|]. cbn [filter]. destruct IH as [I1 I2]; [intros; apply H; cbn; auto|]. destruct (f p) eqn:E.
  - cbn [permute map]. fold (permute (filter f r) s) (permute (filter f r) i) (permute r s) (permute r i). rewrite !size_cons. cbn [rm]. rewrite I1, I2. auto.
  - cbn [permute map]. fold (permute r s) (permute r i). rewrite size_cons. cbn [rm]. destruct (H p ltac:(cbn; auto) E) as [-> ->]. split; lia.
Qed.
Lemma permute_id l : permute (seq 0 (length l)) l = l.
Proof. unfold permute. rewrite map_nth_seq by lia. apply firstn_all. Qed.
Lemma view_rm lits s perm i : valid s i -> (forall p, In p perm -> (p < length s)%nat) -> filter (kept lits s) (seq 0 (length s)) = filter (kept lits s) perm ->
  rm (permute perm s) (permute perm i) = rm s i.
Proof.
  intros V B E. assert (K : forall p, (p < length s)%nat -> kept lits s p = false -> nth p s 0 = 1 /\ nth p i 0 = 0).
  { intros p Hp Q. unfold kept in Q. apply negb_false_iff, andb_true_iff in Q as [_ Q]. apply Z.eqb_eq in Q. pose proof (ShapeOpsProofs.valid_nth' _ _ p V Hp). lia. }
  destruct (rm_filter (kept lits s) s i perm) as [_ <-]; [auto|]. rewrite <- E.
  destruct (rm_filter (kept lits s) s i (seq 0 (length s))) as [_ ->]; [intros p Hp; apply in_seq in Hp; apply K; lia|]. rewrite permute_id.
  rewrite (valid_length _ _ V). now rewrite permute_id.
Qed.

(** ** Blocked loops *)
Lemma iterate_nest {S} s t (body : list Z -> S -> option S) st : iterate (s ++ t) body st = iterate s (fun i => iterate t (fun j => body (i ++ j))) st.
Proof.
  unfold iterate. rewrite indices_app. rewrite <- foldM_flat. apply foldM_ext. intros i st' _. now rewrite foldM_map.
Qed.
Lemma blocks_range u d : 1 <= u -> 0 <= d -> flat_map (fun ib => forLoop ib (Z.min (ib + u) d) 1) (forLoop 0 d u) = zrange d.
Proof.
  intros U D. unfold forLoop at 2. set (q := (d - 0 + u - 1) / u). assert (Q0 : 0 <= q) by (apply Z.div_pos; lia).
  assert (Q1 : d <= u * q). { subst q. pose proof (Z.div_mod (d - 0 + u - 1) u ltac:(lia)). pose proof (Z.mod_pos_bound (d - 0 + u - 1) u ltac:(lia)). lia. }
  assert (Q2 : u * (q - 1) < d \/ q = 0). { subst q. pose proof (Z.div_mod (d - 0 + u - 1) u ltac:(lia)). pose proof (Z.mod_pos_bound (d - 0 + u - 1) u ltac:(lia)). left. nia. }
  assert (F : forall a b, a <= b -> forLoop a b 1 = zseq a (Z.to_nat (b - a))).
  { clear. intros a b H. unfold forLoop. replace ((b - a + 1 - 1) / 1) with (b - a) by (rewrite Z.div_1_r; lia). unfold zrange. generalize (Z.to_nat (b - a)). intros n.
    assert (Q : forall k, map (fun i => a + 1 * i) (zseq k n) = zseq (a + k) n); [|rewrite Q; f_equal; lia].
    induction n as [|n IH]; intros k; cbn [zseq map]; auto. rewrite IH. f_equal; [lia|]. f_equal. lia. }
  assert (G : forall g, (g <= Z.to_nat q)%nat -> flat_map (fun ib => forLoop ib (Z.min (ib + u) d) 1) (map (fun i => 0 + u * i) (zseq 0 g)) = zseq 0 (Z.to_nat (Z.min (u * Z.of_nat g) d))).
  { induction g as [|g IH]; intros HG; [cbn; replace (Z.min (u * 0) d) with 0 by lia; reflexivity|].
    assert (zseq 0 (S g) = zseq 0 g ++ zseq (0 + Z.of_nat g) 1) as -> by (rewrite <- zseq_app; f_equal; lia). rewrite map_app, flat_map_app, IH by lia. cbn [zseq map flat_map]. rewrite app_nil_r.
    assert (LT : u * Z.of_nat g < d) by nia.
    replace (0 + u * (0 + Z.of_nat g)) with (u * Z.of_nat g) by lia. rewrite F by lia. rewrite Z.min_l by lia.
    replace (Z.to_nat (Z.min (u * Z.of_nat (S g)) d)) with (Z.to_nat (u * Z.of_nat g) + Z.to_nat (Z.min (u * Z.of_nat g + u) d - u * Z.of_nat g))%nat by lia. rewrite zseq_app. f_equal. f_equal. lia. }
  unfold zrange at 1. rewrite G by lia. unfold zrange. f_equal. lia.
Qed.
Lemma iterateBlocked_ok {S} ubs u (body : list Z -> S -> option S) st : okshape ubs -> ubs <> [] -> iterateBlocked ubs u body st = iterate ubs body st.
Proof.
  intros Ok N. unfold iterateBlocked. destruct (Z.ltb_spec 1 u); auto. cbv zeta. transitivity (iterate (removelast ubs ++ [last ubs 0]) body st); [|now rewrite <- app_removelast_last]. rewrite iterate_nest. unfold iterate at 1 2. apply foldM_ext. intros i st' _.
  unfold iterate. rewrite indices_one, foldM_map. rewrite foldM_flat. rewrite blocks_range; [reflexivity|lia|]. rewrite (app_removelast_last 0 N) in Ok. apply Forall_app in Ok as [_ Ok]. now inversion Ok.
Qed.

(** ** The inverse permutation *)
Fixpoint idxOf (o : nat) (l : list nat) : nat := match l with [] => O | p :: r => if (p =? o)%nat then O else S (idxOf o r) end.
Lemma idxOf_ok o l : In o l -> (idxOf o l < length l)%nat /\ nth (idxOf o l) l O = o.
Proof.
  induction l as [|p r IH]; intros H; [destruct H|]. cbn [idxOf]. destruct (Nat.eqb_spec p o) as [->|N]; [cbn; split; [lia|auto]|].
  destruct H as [->|H]; [congruence|]. destruct (IH H). cbn. split; [lia|auto].
Qed.
Lemma idxOf_nth l k : NoDup l -> (k < length l)%nat -> idxOf (nth k l O) l = k.
Proof.
  intros ND H. destruct (idxOf_ok (nth k l O) l (nth_In l O H)) as [A B]. rewrite NoDup_nth in ND. apply ND; [exact A|exact H|exact B].
Qed.
Lemma findOutput_absent l o i v : ~ In o l -> v <> -1 -> findOutput (map Z.of_nat l) (Z.of_nat o) i v = Some v.
Proof.
  revert i. induction l as [|p r IH]; intros i H N; cbn [map findOutput]; [destruct (Z.eqb_spec v (-1)); [lia|auto]|].
  destruct (Z.eqb_spec (Z.of_nat p) (Z.of_nat o)) as [E|E]; [exfalso; apply H; left; lia|]. apply IH; auto. intros Q. apply H. right. exact Q.
Qed.
Lemma findOutput_ok l o i : NoDup l -> In o l -> 0 <= i -> findOutput (map Z.of_nat l) (Z.of_nat o) i (-1) = Some (i + Z.of_nat (idxOf o l)).
Proof.
  revert i. induction l as [|p r IH]; intros i ND H I0; [destruct H|]. inversion ND as [|? ? N1 N2]; subst. cbn [map findOutput idxOf].
  destruct (Z.eqb_spec (Z.of_nat p) (Z.of_nat o)) as [E|E].
  - assert (p = o) as -> by lia. rewrite Nat.eqb_refl. rewrite Z.eqb_refl. rewrite findOutput_absent by (auto; lia). f_equal. change (Z.of_nat 0) with 0. lia.
  - destruct (Nat.eqb_spec p o); [lia|]. destruct H as [->|H]; [lia|]. rewrite IH by (auto; lia). f_equal. lia.
Qed.

Section Main.
Context {T : Type} (x : mem T) (dv : index -> T) (perm : list nat).
Let s := mShape x.
Let n := length s.
Hypothesis HP : Permutation perm (seq 0 n).
Hypothesis XD : forall i, valid s i -> mAt x i = Some (dv i).
Hypothesis Ok : okshape s.
Let outS := permute perm s.

Definition inv (st : list Z) : list Z := map (fun o => nth (idxOf o perm) st 0) (seq 0 n).
Lemma inv_nth st o : (o < n)%nat -> nth o (inv st) 0 = nth (idxOf o perm) st 0.
Proof. intros H. unfold inv. set (g := fun o => _). rewrite (nth_indep _ 0 (g O)) by (rewrite map_length, seq_length; lia). rewrite map_nth, seq_nth by lia. reflexivity. Qed.
Lemma inv_length st : length (inv st) = n.
Proof. unfold inv. now rewrite map_length, seq_length. Qed.
Lemma permute_inv st : length st = n -> permute perm (inv st) = st.
Proof.
  intros L. pose proof (perm_length _ _ HP) as PL. apply nth_ext with (d := 0) (d' := 0); [rewrite (permute_length _ _ HP); lia|]. intros k Hk. rewrite (permute_length _ _ HP) in Hk. rewrite (permute_nth _ _ HP) by auto.
  rewrite inv_nth by (apply (perm_bound _ _ HP), nth_In; lia). rewrite idxOf_nth; auto; [apply (perm_NoDup _ _ HP)|lia].
Qed.
Lemma inv_permute i : length i = n -> inv (permute perm i) = i.
Proof. intros L. apply (permute_inj _ _ HP); [apply inv_length|auto|]. apply permute_inv, (permute_length _ _ HP). Qed.
Lemma inv_valid st : valid outS st -> valid s (inv st).
Proof.
  intros V. pose proof (valid_length _ _ V) as L. unfold outS in L. rewrite (permute_length _ _ HP) in L. apply valid_nth_iff; [rewrite inv_length; reflexivity|]. intros r Hr. rewrite inv_nth by exact Hr.
  destruct (idxOf_ok r perm (perm_all _ _ HP r Hr)) as [A B]. rewrite (perm_length _ _ HP) in A.
  pose proof (ShapeOpsProofs.valid_nth' _ _ (idxOf r perm) V ltac:(unfold outS; rewrite (permute_length _ _ HP); lia)) as Q. unfold outS in Q. rewrite (permute_nth _ _ HP) in Q by lia. rewrite B in Q. exact Q.
Qed.
Lemma outS_ok : okshape outS.
Proof. unfold outS, permute. apply Forall_forall. intros d Hd. apply in_map_iff in Hd as (p & <- & Hp). apply (perm_bound _ _ HP) in Hp. apply (proj1 (Forall_forall _ _) Ok), nth_In, Hp. Qed.

Definition transposed (out : mem T) : Prop := mShape out = outS /\ forall i, valid s i -> mAt out (permute perm i) = Some (dv i).

Lemma reverse_ok : reversePermute (map Z.of_nat perm) (zrange (Z.of_nat n)) = Some (map (fun o => Z.of_nat (idxOf o perm)) (seq 0 n)).
Proof.
  rewrite zrange_seq. assert (G : forall l, (forall o, In o l -> (o < n)%nat) -> reversePermute (map Z.of_nat perm) (map Z.of_nat l) = Some (map (fun o => Z.of_nat (idxOf o perm)) l)).
  { induction l as [|o l IH]; intros H; cbn [map reversePermute]; auto. rewrite findOutput_ok; [|apply (perm_NoDup _ _ HP)|apply (perm_all _ _ HP), H; cbn; auto|lia]. cbn [obind]. rewrite IH by (intros; apply H; cbn; auto). reflexivity. }
  apply G. intros o Ho. apply in_seq in Ho. lia.
Qed.
Lemma scalar_ok parInner outLit : s <> [] -> exists out, scalarTranspose parInner outLit (map Z.of_nat perm) x (alloc outS) = Some out /\ transposed out.
Proof.
  intros N. unfold scalarTranspose. cbn [alloc mShape]. assert (LO : length outS = n) by apply (permute_length _ _ HP). rewrite LO, reverse_ok. cbn [obind].
  rewrite iterateBlocked_ok; [|apply outS_ok|intros E; apply N; apply length_zero_iff_nil; fold n; rewrite <- LO, E; reflexivity].
  destruct (iterate_fill outS (fun st => load x (map (fun r => nth (Z.to_nat r) st 0) (map (fun o => Z.of_nat (idxOf o perm)) (seq 0 n)))) (alloc outS)) as (m & E & S1 & A); [reflexivity| |].
  - intros st V. rewrite map_map. rewrite (map_ext _ (fun o => nth (idxOf o perm) st 0)) by (intros; now rewrite Nat2Z.id). fold (inv st). rewrite load_ok by (apply inv_valid, V). rewrite XD by (apply inv_valid, V). eauto.
  - exists m. split; [exact E|]. split; [exact S1|]. intros i V. rewrite A by (apply (permute_valid _ _ HP); auto).
    rewrite map_map. rewrite (map_ext _ (fun o => nth (idxOf o perm) (permute perm i) 0)) by (intros; now rewrite Nat2Z.id). fold (inv (permute perm i)).
    rewrite inv_permute by (symmetry; apply valid_length, V). rewrite load_ok by exact V. auto.
Qed.

(** ** Block copies *)
Lemma strides_spec t : snd (strides t) = size t /\ forall d r, t = d :: r -> fst (strides t) = size r :: fst (strides r).
Proof.
  induction t as [|d r [IH _]]; [split; [reflexivity|discriminate]|]. cbn [strides]. destruct (strides r) as [l p] eqn:E. cbn [snd] in IH. subst p. cbn [fst snd]. split; [rewrite size_cons; lia|].
  intros d' r' Q. injection Q as <- <-. now rewrite E.
Qed.
Lemma strides_length t : length (fst (strides t)) = length t.
Proof. induction t as [|d r IH]; auto. rewrite (proj2 (strides_spec (d :: r)) d r eq_refl). cbn. now rewrite IH. Qed.
Lemma dot_strides sI sO v : length v = length sO -> sumZ (map (fun i => nth i v 0 * nth i (fst (strides (sO ++ sI))) 0) (seq 0 (length sO))) = rm sO v * size sI.
Proof.
  revert v. induction sO as [|d sO IH]; intros [|a v] L; try discriminate; [reflexivity|]. cbn [length seq map app]. rewrite (proj2 (strides_spec (d :: sO ++ sI)) d _ eq_refl). rewrite sumZ_cons. cbn [nth].
  rewrite <- seq_shift, map_map. cbn [nth]. rewrite IH by (cbn in L; lia). cbn [rm]. rewrite size_app. lia.
Qed.
Lemma fold_offsets (f g : nat -> Z) l : forall a b, fold_left (fun '(d, t) i => (d + f i, t + g i)) l (a, b) = (a + sumZ (map f l), b + sumZ (map g l)).
Proof. induction l as [|i l IH]; intros a b; cbn [fold_left map]; [unfold sumZ; cbn; f_equal; lia|]. rewrite IH, !sumZ_cons. f_equal; lia. Qed.
Lemma foldM_ext_inv {A S} (P : S -> Prop) (f g : A -> S -> option S) l : forall st, P st -> (forall a st, In a l -> P st -> f a st = g a st) -> (forall a st st', In a l -> P st -> g a st = Some st' -> P st') -> foldM f l st = foldM g l st.
Proof.
  induction l as [|a l IH]; intros st H E K; cbn [foldM]; auto. rewrite E by (cbn; auto). destruct (g a st) as [st'|] eqn:Q; cbn [obind]; auto. apply IH; [eapply K; cbn; eauto| |]; intros; [apply E|eapply K]; cbn; eauto.
Qed.
Lemma foldM_inv {A S} (P : S -> Prop) (g : A -> S -> option S) l : forall st st', P st -> (forall a st st', In a l -> P st -> g a st = Some st' -> P st') -> foldM g l st = Some st' -> P st'.
Proof.
  induction l as [|a l IH]; intros st st' H K E; cbn [foldM] in E; [congruence|]. destruct (g a st) as [st1|] eqn:Q; cbn [obind] in E; [|discriminate]. apply (IH st1); auto; [eapply K; cbn; eauto|]. intros; eapply K; cbn; eauto.
Qed.
Lemma store_shape (m m' : mem T) idx v : store m idx v = Some m' -> mShape m' = mShape m.
Proof. unfold store. destruct (inb _ _); [|discriminate]. intros E. injection E as <-. reflexivity. Qed.

Section Block.
Context (sO sI : list Z) (permO : list nat).
Hypothesis ES : s = sO ++ sI.
Hypothesis EP : perm = permO ++ seq (length sO) (length sI).
Lemma n_split : n = (length sO + length sI)%nat.
Proof. unfold n. now rewrite ES, app_length. Qed.
Lemma permO_perm : Permutation permO (seq 0 (length sO)).
Proof. pose proof HP as H. rewrite n_split, seq_app, EP in H. apply Permutation_app_inv_r in H. exact H. Qed.
Lemma permute_split l1 l2 : length l1 = length sO -> length l2 = length sI -> permute perm (l1 ++ l2) = permute permO l1 ++ l2.
Proof.
  intros L1 L2. rewrite EP. unfold permute. rewrite map_app. f_equal.
  - apply map_ext_in. intros p Hp. apply (perm_bound _ _ permO_perm) in Hp. apply app_nth1. lia.
  - rewrite map_nth_seq by (rewrite app_length; lia). rewrite skipn_exact by lia. apply firstn_all2. lia.
Qed.
Lemma block_ok junk : (1 <= length sI)%nat -> exists out, blockTranspose junk (length sI) (map Z.of_nat perm) x (alloc outS) = Some out /\ transposed out.
Proof.
  intros LI. unfold blockTranspose. fold s. fold n. cbn [alloc mShape]. rewrite n_split. replace (length sO + length sI - length sI)%nat with (length sO) by lia.
  rewrite fold_mul_prod. assert (F1 : firstn (length sO) s = sO) by (rewrite ES; now apply firstn_exact). assert (F2 : skipn (length sO) s = sI) by (rewrite ES; now apply skipn_exact). rewrite F1, F2. clear F1 F2.
  pose proof (proj1 (Forall_app _ _ _) (eq_ind _ okshape Ok _ ES)) as [OkO OkI].
  assert (EO : outS = permute permO sO ++ sI) by (unfold outS; rewrite ES; now apply permute_split).
  assert (LPO : length (permute permO sO) = length sO) by apply (permute_length _ _ permO_perm).
  match goal with |- context [iterate sO ?f _] => set (body := f) end.
  assert (EB : iterate sO body (alloc outS) = iterate s (fun i m => v <- load x i ;; store m (permute perm i) v) (alloc outS)).
  { transitivity (iterate (sO ++ sI) (fun i m => v <- load x i ;; store m (permute perm i) v) (alloc outS)); [|now rewrite ES]. rewrite iterate_nest. unfold iterate at 1 2. apply (foldM_ext_inv (fun m => mShape m = outS)); [reflexivity| |].
    - intros i m Hi Hm. apply indices_In in Hi. pose proof (valid_length _ _ Hi) as Li.
      unfold body. rewrite (fold_offsets (fun j => nth (Z.to_nat (nth j (map Z.of_nat perm) 0)) i 0 * nth j (upd (length sO + length sI - 1) junk (fst (strides outS))) 0) (fun j => nth j i 0 * nth j (fst (strides s)) 0)).
      assert (DS : sumZ (map (fun j => nth j i 0 * nth j (fst (strides s)) 0) (seq 0 (length sO))) = rm sO i * size sI) by (rewrite ES; apply dot_strides; lia). rewrite DS. clear DS.
      assert (EV : map (fun j => nth (Z.to_nat (nth j (map Z.of_nat perm) 0)) i 0 * nth j (upd (length sO + length sI - 1) junk (fst (strides outS))) 0) (seq 0 (length sO)) = map (fun j => nth j (permute permO i) 0 * nth j (fst (strides (permute permO sO ++ sI))) 0) (seq 0 (length (permute permO sO)))).
      { rewrite LPO. apply map_ext_in. intros j Hj. apply in_seq in Hj. rewrite nth_upd_other by lia. rewrite EO. f_equal. rewrite (permute_nth _ _ permO_perm) by lia.
        change 0 with (Z.of_nat 0) at 1. rewrite map_nth, Nat2Z.id. rewrite EP, app_nth1 by (rewrite (perm_length _ _ permO_perm); lia). reflexivity. }
      rewrite EV, dot_strides by (rewrite LPO; apply (permute_length _ _ permO_perm)). clear EV.
      unfold memcpyAt, iterate. rewrite indices_one, foldM_map. rewrite <- (map_rm_indices sI OkI), foldM_map. apply (foldM_ext_inv (fun m => mShape m = outS)); [exact Hm| |].
      + intros j m' Hj Hm'. apply indices_In in Hj. cbn [nth].
        assert (VS : valid s (i ++ j)) by (rewrite ES; apply valid_app; auto).
        assert (VO : valid outS (permute perm (i ++ j))) by (apply (permute_valid _ _ HP); auto).
        pose proof (valid_length _ _ Hj) as Lj.
        assert (E1 : 0 + rm sO i * size sI + rm sI j = rm s (i ++ j)) by (rewrite ES, rm_app by lia; lia).
        assert (E2 : 0 + rm (permute permO sO) (permute permO i) * size sI + rm sI j = rm outS (permute perm (i ++ j))).
        { rewrite EO, permute_split by lia. rewrite rm_app by (rewrite LPO; symmetry; apply (permute_length _ _ permO_perm)). lia. }
        rewrite E1, E2. unfold flatLoad, flatStore. fold s. rewrite Hm'. pose proof (rm_bound _ _ VS). pose proof (rm_bound _ _ VO).
        destruct (Z.leb_spec 0 (rm s (i ++ j))), (Z.ltb_spec (rm s (i ++ j)) (size s)); try lia. cbn [andb].
        destruct (Z.leb_spec 0 (rm outS (permute perm (i ++ j)))), (Z.ltb_spec (rm outS (permute perm (i ++ j))) (size outS)); try lia. cbn [andb].
        rewrite !unrm_rm; auto; [|apply outS_ok]. rewrite load_ok by exact VS. reflexivity.
      + intros j m' m'' _ Hm' E. destruct (load x (i ++ j)); cbn [obind] in E; [|discriminate]. apply store_shape in E. congruence.
    - intros i m m' _ Hm E. unfold iterate in E. eapply (foldM_inv (fun m => mShape m = outS)); [exact Hm| |exact E]. cbn beta. intros j m1 m2 _ H1 E1. destruct (load x (i ++ j)); cbn [obind] in E1; [|discriminate]. apply store_shape in E1. congruence. }
  rewrite EB. destruct (iterate_stores s (permute perm) (load x) (alloc outS)) as (m & E & S1 & A & _).
  - intros i V. split; [apply (permute_valid _ _ HP); auto|]. rewrite load_ok, XD by exact V. eauto.
  - intros i j Vi Vj. apply (permute_inj _ _ HP); symmetry; apply valid_length; auto.
  - exists m. split; [exact E|]. split; [exact S1|]. intros i V. rewrite A by exact V. rewrite load_ok by exact V. auto.
Qed.
End Block.

Lemma unchanged_spec i : (i <= n)%nat -> let m := unchangedInner (map Z.of_nat perm) i in (m <= i)%nat /\ forall k, (i - m <= k < i)%nat -> nth k perm O = k.
Proof.
  induction i as [|i IH]; intros H; cbn [unchangedInner]; [split; [lia|intros; lia]|].
  destruct (Z.eqb_spec (nth i (map Z.of_nat perm) 0) (Z.of_nat i)) as [E|E]; [|split; [lia|intros; lia]].
  change 0 with (Z.of_nat 0) in E. rewrite map_nth in E. destruct IH as [I1 I2]; [lia|]. split; [lia|]. intros k Hk. destruct (Nat.eq_dec k i) as [->|N]; [lia|]. apply I2. lia.
Qed.

Lemma transpose_ok junk parInner lits permAttr : length lits = n -> permOf n permAttr = map Z.of_nat perm ->
  exists out, transposeLoop junk parInner lits permAttr x = Some out /\ transposed out.
Proof.
  intros LL EA. unfold transposeLoop. fold s. fold n. rewrite EA. rewrite transposedDims_ok by (apply (perm_bound _ _ HP)). cbn [obind]. fold outS.
  destruct (canBeViewOp_ok lits s perm LL (perm_bound _ _ HP)) as (b & Eb & Hb). rewrite Eb. cbn [obind]. destruct b.
  - eexists. split; [reflexivity|]. split; [reflexivity|]. intros i V. rewrite <- (XD i V). apply reinterpret_at; [exact V|]. unfold outS. apply (view_rm lits); auto; [apply (perm_bound _ _ HP)|]. apply Hb. reflexivity.
  - destruct (Nat.ltb_spec 0 (unchangedInner (map Z.of_nat perm) n)) as [H|H].
    + destruct (unchanged_spec n (le_n _)) as [U1 U2]. set (m := unchangedInner (map Z.of_nat perm) n) in *.
      set (sO := firstn (n - m) s). set (sI := skipn (n - m) s). assert (LI : length sI = m) by (unfold sI; rewrite skipn_length; fold n; lia). assert (LO : length sO = (n - m)%nat) by (unfold sO; rewrite firstn_length; fold n; lia).
      rewrite <- LI. apply (block_ok sO sI (firstn (n - m) perm)); [symmetry; apply firstn_skipn| |lia].
      rewrite <- (firstn_skipn (n - m) perm) at 1. f_equal. pose proof (perm_length _ _ HP) as PL.
      apply nth_ext with (d := O) (d' := O); [rewrite skipn_length, seq_length; lia|]. intros k Hk. rewrite skipn_length in Hk. rewrite seq_nth by lia. rewrite ArgLoopProofs.nth_skipn_add. rewrite U2 by lia. lia.
    + apply scalar_ok. intros E. assert (n = O) as N0 by (unfold n; now rewrite E).
      assert (perm = []) as EP0 by (apply length_zero_iff_nil; rewrite (perm_length _ _ HP); exact N0). assert (false = true); [|discriminate]. apply Hb. rewrite E, EP0. reflexivity.
Qed.
End Main.
