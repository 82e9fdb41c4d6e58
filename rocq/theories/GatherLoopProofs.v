From Coq Require Import List ZArith Lia Bool Arith.
From Verif Require Import Util TensorSpec TensorLemmas ShapeOpsCopies CumSumProofs LoopModel LoopProofs GatherLoopSpec GatherLoopModel.
Import ListNotations.
Open Scope Z_scope.

Lemma skipn_exact {A} (a b : list A) n : n = length a -> skipn n (a ++ b) = b.
Proof. intros ->. rewrite skipn_app, skipn_all, Nat.sub_diag. reflexivity. Qed.
Lemma firstn_exact {A} (a b : list A) n : n = length a -> firstn n (a ++ b) = a.
Proof. intros ->. rewrite firstn_app, firstn_all, Nat.sub_diag. cbn. apply app_nil_r. Qed.
Lemma skipn_step {A} p (l : list A) x r : skipn p l = x :: r -> skipn (S p) l = r.
Proof. revert p; induction l as [|y l IH]; intros [|p] H; cbn [skipn] in *; try discriminate; [congruence|]. now apply IH. Qed.
Lemma map_nth_seq (l : list Z) n p : (p + n <= length l)%nat -> map (fun j => nth j l 0) (seq p n) = firstn n (skipn p l).
Proof.
  revert p. induction n as [|n IH]; intros p H; [reflexivity|]. cbn [seq map].
  destruct (skipn p l) as [|x r] eqn:E.
  - apply (f_equal (@length Z)) in E. rewrite skipn_length in E. cbn in E. lia.
  - cbn [firstn]. f_equal.
    + rewrite <- (firstn_skipn p l), E, app_nth2; rewrite firstn_length; [|lia]. replace (p - Nat.min p (length l))%nat with O by lia. reflexivity.
    + rewrite IH by lia. f_equal. eapply skipn_step; eauto.
Qed.
Lemma map_nth_seq_off (l : list Z) n p q : (forall k, (q <= k < q + n)%nat -> (p k = k - q + p q)%nat) -> (p q + n <= length l)%nat ->
  map (fun k => nth (p k) l 0) (seq q n) = firstn n (skipn (p q) l).
Proof.
  intros H L. rewrite <- map_nth_seq by exact L. transitivity (map (fun j => nth j l 0) (map p (seq q n))); [now rewrite map_map|].
  f_equal. clear L. apply nth_ext with (d := O) (d' := O); [now rewrite map_length, !seq_length|]. intros k Hk. rewrite map_length, seq_length in Hk.
  rewrite (nth_indep (map p (seq q n)) O (p O)) by (rewrite map_length, seq_length; lia). rewrite map_nth, !seq_nth by lia. rewrite H by lia. lia.
Qed.

Lemma normalAxis_ok r a axis : names_axis r a axis -> normalAxis r axis = a.
Proof. intros [H [->| ->]]; unfold normalAxis; destruct (Z.ltb_spec (Z.of_nat a) 0), (Z.ltb_spec (Z.of_nat a - Z.of_nat r) 0); lia. Qed.

Definition knows (consts : option (list Z)) (iv : index -> Z) (s : shape) : Prop :=
  match consts with Some l => forall j, valid s j -> In (iv j) l | None => True end.
Lemma adjust_legal consts iv s d j : knows consts iv s -> valid s j -> legal d (iv j) ->
  forall safe, adjustIndex (negb (nonNegativeConstants consts)) safe d (iv j) = wrap d (iv j).
Proof.
  intros K V L safe. unfold legal in L.
  assert (E : (if negb (nonNegativeConstants consts) then (if iv j <? 0 then iv j + d else iv j) else iv j) = wrap d (iv j)).
  { unfold wrap. destruct (nonNegativeConstants consts) eqn:N; cbn [negb]; auto. destruct consts as [l|]; [|discriminate]. cbn in K, N.
    rewrite forallb_forall in N. specialize (N _ (K j V)). cbn beta in N. destruct (Z.ltb_spec (iv j) 0); auto; lia. }
  unfold adjustIndex. rewrite E. unfold wrap. destruct safe; auto.
  destruct (Z.ltb_spec (iv j) 0); cbn zeta; [destruct (Z.ltb_spec (iv j + d) 0), (Z.leb_spec d (iv j + d)); try lia; destruct (Z.leb_spec d 0); lia|].
  destruct (Z.ltb_spec (iv j) 0), (Z.leb_spec d (iv j)); lia.
Qed.
Lemma adjust_safe consts iv s d j : knows consts iv s -> valid s j -> 0 < d ->
  adjustIndex (negb (nonNegativeConstants consts)) true d (iv j) = clamp d (wrap d (iv j)).
Proof.
  intros K V D.
  assert (E : (if negb (nonNegativeConstants consts) then (if iv j <? 0 then iv j + d else iv j) else iv j) = wrap d (iv j)).
  { unfold wrap. destruct (nonNegativeConstants consts) eqn:N; cbn [negb]; auto. destruct consts as [l|]; [|discriminate]. cbn in K, N.
    rewrite forallb_forall in N. specialize (N _ (K j V)). cbn beta in N. destruct (Z.ltb_spec (iv j) 0); auto; lia. }
  unfold adjustIndex. rewrite E. unfold clamp. generalize (wrap d (iv j)). intros v. cbn zeta.
  destruct (Z.ltb_spec v 0); [destruct (Z.leb_spec d 0); lia|]. destruct (Z.leb_spec d v); lia.
Qed.
Lemma wrap_bound d v : legal d v -> 0 <= wrap d v < d.
Proof. unfold legal, wrap. intros. destruct (Z.ltb_spec v 0); lia. Qed.

Lemma gatherShape_ok sI d sK sJ : forall i, gatherShape i (i + length sI) (sI ++ d :: sK) sJ = sI ++ sJ ++ sK.
Proof.
  assert (Off : forall s i a, (a < i)%nat -> gatherShape i a s sJ = s).
  { clear. induction s as [|x s IH]; intros i a H; cbn [gatherShape]; auto. destruct (Nat.eqb_spec i a); [lia|]. rewrite IH by lia. reflexivity. }
  induction sI as [|x sI IH]; intros i; cbn [gatherShape app length].
  - rewrite Nat.add_0_r, Nat.eqb_refl, Off by lia. reflexivity.
  - destruct (Nat.eqb_spec i (i + S (length sI))); [lia|]. cbn [app]. f_equal. replace (i + S (length sI))%nat with (S i + length sI)%nat by lia. apply IH.
Qed.
Lemma valid_app3 sI sJ sK o : valid (sI ++ sJ ++ sK) o -> exists ii jj kk, o = ii ++ jj ++ kk /\ valid sI ii /\ valid sJ jj /\ valid sK kk.
Proof.
  intros H. destruct (valid_split_app _ _ _ H) as (ii & r & -> & H1 & H2). destruct (valid_split_app _ _ _ H2) as (jj & kk & -> & H3 & H4).
  exists ii, jj, kk. auto.
Qed.

Section Gather.
Context {T : Type}.

(** The accesses of one iteration. *)
Lemma gather_access (ii jj kk sI sJ sK : list Z) (d : Z) (a := length sI) :
  length sI = length ii -> length sJ = length jj -> length sK = length kk ->
  map (fun j => nth (a + j) (ii ++ jj ++ kk) 0) (seq 0 (length sJ)) = jj /\
  map (fun i => nth i (ii ++ jj ++ kk) 0) (seq 0 a) = ii /\
  map (fun k => nth (length sJ + k - 1) (ii ++ jj ++ kk) 0) (seq (a + 1) (length (sI ++ d :: sK) - (a + 1))) = kk.
Proof.
  intros H1 H2 H3. assert (L : length (ii ++ jj ++ kk) = (length sI + length sJ + length sK)%nat) by (rewrite !app_length; lia).
  repeat split.
  - rewrite (map_nth_seq_off _ _ (fun j => a + j)%nat) by (rewrite ?L; unfold a; lia). rewrite Nat.add_0_r.
    unfold a. rewrite H1, skipn_app, skipn_all, Nat.sub_diag. cbn [app skipn]. rewrite H2, firstn_app, firstn_all, Nat.sub_diag. cbn. apply app_nil_r.
  - rewrite map_nth_seq by (rewrite L; unfold a; lia). cbn [skipn]. unfold a. rewrite H1, firstn_app, firstn_all, Nat.sub_diag. cbn. apply app_nil_r.
  - replace (length (sI ++ d :: sK) - (a + 1))%nat with (length sK) by (rewrite app_length; cbn; unfold a; lia).
    rewrite (map_nth_seq_off _ _ (fun k => length sJ + k - 1)%nat) by (rewrite ?L; unfold a; lia).
    replace (length sJ + (a + 1) - 1)%nat with (length ii + length jj)%nat by (unfold a; lia).
    rewrite app_assoc, skipn_app, skipn_all2 by (rewrite app_length; lia). rewrite app_length, Nat.sub_diag. cbn [app skipn]. rewrite H3. apply firstn_all.
Qed.

Lemma gather_ok safe consts axis (data : mem T) (ind : mem Z) dv iv sI d sK (pos : Z -> Z) :
  mShape data = sI ++ d :: sK -> names_axis (length (mShape data)) (length sI) axis ->
  (forall i, valid (mShape data) i -> mAt data i = Some (dv i)) -> (forall j, valid (mShape ind) j -> mAt ind j = Some (iv j)) ->
  (forall j, valid (mShape ind) j -> adjustIndex (negb (nonNegativeConstants consts)) safe d (iv j) = pos (iv j) /\ 0 <= pos (iv j) < d) ->
  exists out, gatherLoop safe consts axis data ind = Some out /\ mShape out = sI ++ mShape ind ++ sK /\
    forall ii jj kk, valid sI ii -> valid (mShape ind) jj -> valid sK kk -> mAt out (ii ++ jj ++ kk) = Some (dv (ii ++ pos (iv jj) :: kk)).
Proof.
  intros HS HA HD HI HP. unfold gatherLoop. rewrite (normalAxis_ok _ _ _ HA). rewrite HS.
  replace (gatherShape 0 (length sI) (sI ++ d :: sK) (mShape ind)) with (sI ++ mShape ind ++ sK) by (symmetry; apply (gatherShape_ok sI d sK (mShape ind) 0)).
  replace (nth (length sI) (sI ++ d :: sK) 0) with d by (rewrite app_nth2, Nat.sub_diag by lia; reflexivity).
  set (f := fun o => index <- load ind (map (fun j => nth (length sI + j) o 0) (seq 0 (length (mShape ind)))) ;;
          load data (map (fun i => nth i o 0) (seq 0 (length sI)) ++
                     [adjustIndex (negb (nonNegativeConstants consts)) safe d index] ++
                     map (fun k => nth (length (mShape ind) + k - 1) o 0) (seq (length sI + 1) (length (sI ++ d :: sK) - (length sI + 1))))).
  assert (E : forall ii jj kk, valid sI ii -> valid (mShape ind) jj -> valid sK kk -> f (ii ++ jj ++ kk) = Some (dv (ii ++ pos (iv jj) :: kk))).
  { intros ii jj kk V1 V2 V3. unfold f.
    destruct (gather_access ii jj kk sI (mShape ind) sK d) as (A1 & A2 & A3); [now apply valid_length..|]. rewrite A1, A2, A3.
    rewrite load_ok, HI by auto. cbn [obind]. destruct (HP jj V2) as [P1 P2]. rewrite P1. cbn [app].
    assert (V : valid (mShape data) (ii ++ pos (iv jj) :: kk)). { rewrite HS. apply valid_app; [now apply valid_length|]. split; auto. apply valid_cons. auto. }
    rewrite load_ok, HD by auto. reflexivity. }
  destruct (iterate_fill (sI ++ mShape ind ++ sK) f (alloc (sI ++ mShape ind ++ sK))) as (out & R & S & V); [reflexivity| |].
  - intros o Ho. destruct (valid_app3 _ _ _ _ Ho) as (ii & jj & kk & -> & V1 & V2 & V3). rewrite E by auto. eauto.
  - exists out. split; [exact R|]. split; [exact S|]. intros ii jj kk V1 V2 V3. rewrite V; [now apply E|].
    apply valid_app; [now apply valid_length|]. split; auto. apply valid_app; [now apply valid_length|]. auto.
Qed.

(** GatherElements. *)
Definition fits_but (a : nat) (si sd : shape) : Prop := length si = length sd /\ forall r, r <> a -> nth r si 0 <= nth r sd 0.
Lemma map_upd_seq (i : list Z) a v n : length i = n -> map (fun r => if (r =? a)%nat then v else nth r i 0) (seq 0 n) = upd a v i.
Proof.
  intros H. apply nth_ext with (d := 0) (d' := 0); [rewrite map_length, seq_length, upd_length; lia|]. intros k Hk. rewrite map_length, seq_length in Hk.
  set (g := fun r => if (r =? a)%nat then v else nth r i 0). rewrite (nth_indep _ 0 (g O)) by (rewrite map_length, seq_length; lia).
  rewrite map_nth, seq_nth by lia. unfold g. cbn [Nat.add]. destruct (Nat.eqb_spec k a).
  - subst k. symmetry. apply nth_upd_same. lia.
  - symmetry. apply nth_upd_other. auto.
Qed.
Lemma valid_nth_iff s i : length s = length i -> (forall r, (r < length s)%nat -> 0 <= nth r i 0 < nth r s 0) -> valid s i.
Proof.
  revert i; induction s as [|d s IH]; intros [|x i] L H; cbn in L; try discriminate; constructor.
  - apply (H O). cbn. lia.
  - apply IH; [lia|]. intros r Hr. apply (H (S r)). cbn. lia.
Qed.
Lemma fits_valid a si sd i v : fits_but a si sd -> valid si i -> 0 <= v < nth a sd 0 -> valid sd (upd a v i).
Proof.
  intros [L F] V B. pose proof (valid_length _ _ V) as LV. apply valid_nth_iff; [rewrite upd_length; lia|]. intros r Hr.
  destruct (Nat.eq_dec r a) as [->|N].
  - rewrite nth_upd_same by lia. exact B.
  - rewrite nth_upd_other by auto. pose proof (nth_valid _ _ r V ltac:(lia)). specialize (F r N). lia.
Qed.

Lemma gatherElements_ok safe consts axis (data : mem T) (ind : mem Z) dv iv a (pos : Z -> Z) :
  names_axis (length (mShape data)) a axis -> fits_but a (mShape ind) (mShape data) ->
  (forall i, valid (mShape data) i -> mAt data i = Some (dv i)) -> (forall j, valid (mShape ind) j -> mAt ind j = Some (iv j)) ->
  (forall j, valid (mShape ind) j -> adjustIndex (negb (nonNegativeConstants consts)) safe (nth a (mShape data) 0) (iv j) = pos (iv j) /\ 0 <= pos (iv j) < nth a (mShape data) 0) ->
  exists out, gatherElementsLoop safe consts axis data ind = Some out /\ mShape out = mShape ind /\
    forall i, valid (mShape ind) i -> mAt out i = Some (dv (upd a (pos (iv i)) i)).
Proof.
  intros HA HF HD HI HP. unfold gatherElementsLoop. rewrite (normalAxis_ok _ _ _ HA).
  set (f := fun i => index <- load ind i ;;
          load data (map (fun r => if (r =? a)%nat then adjustIndex (negb (nonNegativeConstants consts)) safe (nth a (mShape data) 0) index else nth r i 0)
                         (seq 0 (length (mShape data))))).
  assert (E : forall i, valid (mShape ind) i -> f i = Some (dv (upd a (pos (iv i)) i))).
  { intros i V. unfold f. rewrite load_ok, HI by auto. cbn [obind]. destruct (HP i V) as [P1 P2]. rewrite P1.
    rewrite map_upd_seq by (destruct HF as [HL _]; rewrite <- HL; symmetry; now apply valid_length).
    assert (V' : valid (mShape data) (upd a (pos (iv i)) i)) by (eapply fits_valid; eauto).
    rewrite load_ok, HD by auto. reflexivity. }
  destruct (iterate_fill (mShape ind) f (alloc (mShape ind))) as (out & R & S & V); [reflexivity|intros i Hi; rewrite E by auto; eauto|].
  exists out. split; [exact R|]. split; [exact S|]. intros i Hi. rewrite V by auto. now apply E.
Qed.

(** GatherND: values appended in order. *)
Lemma append_ok (l : list (option T)) vs : l = map Some vs -> forall (m : mem T) n c,
  mShape m = [n] -> 0 <= c -> c + Z.of_nat (length vs) <= n ->
  exists m', foldM (fun o st => append o st) l (m, c) = Some (m', c + Z.of_nat (length vs)) /\ mShape m' = [n] /\
    (forall k, 0 <= k < c -> mAt m' [k] = mAt m [k]) /\ (forall k, 0 <= k < Z.of_nat (length vs) -> mAt m' [c + k] = zget vs k).
Proof.
  intros ->. induction vs as [|v vs IH]; intros m n c HS HC HN; cbn [map foldM length].
  - exists m. cbn [length] in *. rewrite Z.add_0_r. repeat split; auto. intros; lia.
  - unfold append at 1. cbn [obind fst snd]. rewrite store_ok by (rewrite HS; apply valid_cons; split; [cbn [length] in HN; lia|constructor]). cbn [obind].
    destruct (IH (Mem (mShape m) (fun j => if ieqb [c] j then Some v else mAt m j)) n (c + 1)) as (m' & E & Sh & K1 & K2); [exact HS|lia|cbn [length] in HN; lia|].
    exists m'. split; [rewrite E; do 2 f_equal; lia|]. split; [exact Sh|]. split.
    + intros k Hk. rewrite K1 by lia. cbn [mAt ieqb]. destruct (Z.eqb_spec c k); [lia|]. reflexivity.
    + intros k Hk. destruct (Z.eq_dec k 0) as [->|N].
      * rewrite Z.add_0_r, K1 by lia. cbn [mAt ieqb]. rewrite Z.eqb_refl. reflexivity.
      * replace (c + k) with (c + 1 + (k - 1)) by lia. rewrite K2 by lia. rewrite !zget_spec by lia. replace (Z.to_nat k) with (S (Z.to_nat (k - 1))) by lia. reflexivity.
Qed.
Lemma foldM_flat {A B S} (f : B -> S -> option S) (g : A -> list B) l : forall s, foldM (fun a s => foldM f (g a) s) l s = foldM f (flat_map g l) s.
Proof. induction l as [|a l IH]; intros s; cbn [foldM flat_map]; auto. rewrite foldM_app. destruct (foldM f (g a) s); cbn; auto. Qed.
Lemma indices_app s t : indices (s ++ t) = flat_map (fun i => map (app i) (indices t)) (indices s).
Proof.
  induction s as [|d s IH]; cbn [indices app].
  - cbn. rewrite app_nil_r. symmetry. rewrite <- (map_id (indices t)) at 2. apply map_ext. reflexivity.
  - rewrite IH. generalize (zrange d). induction l as [|x l IHl]; cbn [flat_map]; auto. rewrite flat_map_app, <- IHl. f_equal.
    clear. induction (indices s) as [|i l IH]; cbn [flat_map map]; auto. rewrite map_app, IH, map_map. reflexivity.
Qed.
Lemma fold_mul_prod l : fold_left Z.mul l 1 = size l.
Proof. rewrite fold_mul. unfold size. lia. Qed.

Lemma reinterpret_at {A} (m : mem A) s idx idx' : valid (mShape m) idx' -> rm s idx = rm (mShape m) idx' -> mAt (reinterpret m s) idx = mAt m idx'.
Proof. intros V E. cbn [reinterpret mAt]. rewrite E, unrm_rm; auto. now apply valid_okshape in V. Qed.

Lemma map_rm_indices s : okshape s -> map (rm s) (indices s) = zrange (size s).
Proof.
  intros Ok. pose proof (indices_length s Ok) as L. pose proof (size_nonneg s Ok) as P. apply zget_ext.
  - rewrite map_length, zrange_length. lia.
  - rewrite map_length. intros k Hk. rewrite L in Hk. destruct (unrm_spec s k Ok Hk) as [V E]. rewrite zget_map. rewrite <- E at 1. rewrite indices_nth by auto.
    cbn. rewrite E. unfold zrange. rewrite zget_zseq by lia. reflexivity.
Qed.
Lemma indices_pair sB sJ : okshape sB -> okshape sJ ->
  indices [size sB; size sJ] = map (fun p => [rm sB (fst p); rm sJ (snd p)]) (list_prod (indices sB) (indices sJ)).
Proof.
  intros O1 O2. cbn [indices]. rewrite <- (map_rm_indices sB O1), <- (map_rm_indices sJ O2).
  assert (E : flat_map (fun i => map (cons i) [[]]) (map (rm sJ) (indices sJ)) = map (fun j => [rm sJ j]) (indices sJ)).
  { generalize (indices sJ). induction l; cbn in *; auto. f_equal. exact IHl. }
  rewrite E. generalize (indices sB). induction l as [|i l IH]; cbn [map flat_map list_prod]; auto. rewrite map_app, IH. f_equal. rewrite !map_map. reflexivity.
Qed.
Lemma indices_triple sB sJ sK : indices (sB ++ sJ ++ sK) = flat_map (fun p => map (fun kk => fst p ++ snd p ++ kk) (indices sK)) (list_prod (indices sB) (indices sJ)).
Proof.
  rewrite indices_app. generalize (indices sB). induction l as [|i l IH]; cbn [flat_map list_prod]; auto. rewrite flat_map_app, IH. f_equal.
  rewrite indices_app. generalize (indices sJ). induction l0 as [|j l0 IH0]; cbn [flat_map map]; auto. rewrite map_app, IH0. f_equal. rewrite map_map. reflexivity.
Qed.

Section ND.
Variables (data : mem T) (ind : mem Z) (dv : index -> T) (iv : index -> Z) (sB sJ sX sK : shape).
Let k := length sX.
Hypothesis Hk : (1 <= k)%nat.
Hypothesis HS : mShape data = sB ++ sX ++ sK.
Hypothesis HI : mShape ind = sB ++ sJ ++ [Z.of_nat k].
Hypothesis HD : forall i, valid (mShape data) i -> mAt data i = Some (dv i).
Hypothesis HV : forall j, valid (mShape ind) j -> mAt ind j = Some (iv j).
Definition tuple (bb jj : index) : index := map (fun x => iv (bb ++ jj ++ [x])) (zrange (Z.of_nat k)).
Hypothesis HL : forall bb jj, valid sB bb -> valid sJ jj -> valid sX (tuple bb jj).
Hypothesis O1 : okshape sB.
Hypothesis O2 : okshape sJ.
Hypothesis O3 : okshape sK.

Let rind := reinterpret ind [size sB; size sJ; Z.of_nat k].
Let rdata := reinterpret data (size sB :: sX ++ sK).

Lemma rind_at bb jj x : valid sB bb -> valid sJ jj -> 0 <= x < Z.of_nat k -> load rind [rm sB bb; rm sJ jj; x] = Some (iv (bb ++ jj ++ [x])).
Proof.
  intros V1 V2 X. pose proof (rm_bound _ _ V1). pose proof (rm_bound _ _ V2).
  rewrite load_ok by (cbn [rind reinterpret mShape]; repeat (apply valid_cons; split; auto); constructor).
  assert (V : valid (mShape ind) (bb ++ jj ++ [x])).
  { rewrite HI. apply valid_app; [now apply valid_length|]. split; auto. apply valid_app; [now apply valid_length|]. split; auto. apply valid_cons. split; auto. constructor. }
  unfold rind. rewrite (reinterpret_at ind _ _ (bb ++ jj ++ [x])) by
    (auto; rewrite HI, !rm_app by (now apply valid_length); cbn [rm app]; rewrite !size_app, !size_cons, size_nil; lia).
  now apply HV.
Qed.
Lemma tuple_read bb jj : valid sB bb -> valid sJ jj ->
  fold_right (fun i acc => v <- load rind ([rm sB bb; rm sJ jj] ++ [Z.of_nat i]) ;; r <- acc ;; Some (v :: r)) (Some []) (seq 0 k) = Some (tuple bb jj).
Proof.
  intros V1 V2. unfold tuple, zrange. rewrite Nat2Z.id.
  assert (G : forall n p, (p + n <= k)%nat -> fold_right (fun i acc => v <- load rind ([rm sB bb; rm sJ jj] ++ [Z.of_nat i]) ;; r <- acc ;; Some (v :: r)) (Some []) (seq p n) =
    Some (map (fun x => iv (bb ++ jj ++ [x])) (zseq (Z.of_nat p) n))).
  { induction n as [|n IH]; intros p P; cbn [seq fold_right zseq map]; auto. rewrite IH by lia. cbn [app]. rewrite rind_at by (auto; lia). cbn [obind]. do 5 f_equal. lia. }
  apply (G k O). lia.
Qed.
Lemma rdata_at bb jj kk : valid sB bb -> valid sJ jj -> valid sK kk -> load rdata (rm sB bb :: tuple bb jj ++ kk) = Some (dv (bb ++ tuple bb jj ++ kk)).
Proof.
  intros V1 V2 V3. pose proof (rm_bound _ _ V1). pose proof (HL bb jj V1 V2) as VT.
  assert (VX : valid (sX ++ sK) (tuple bb jj ++ kk)) by (apply valid_app; [now apply valid_length|]; auto).
  rewrite load_ok by (cbn [rdata reinterpret mShape]; apply valid_cons; auto).
  assert (V : valid (mShape data) (bb ++ tuple bb jj ++ kk)) by (rewrite HS; apply valid_app; [now apply valid_length|]; auto).
  unfold rdata. rewrite (reinterpret_at data _ _ (bb ++ tuple bb jj ++ kk)); auto.
  rewrite HS, (rm_app sB) by (now apply valid_length). reflexivity.
Qed.

Definition element (o : index) : T :=
  let bb := firstn (length sB) o in let jj := firstn (length sJ) (skipn (length sB) o) in let kk := skipn (length sB + length sJ) o in
  dv (bb ++ tuple bb jj ++ kk).
Lemma element_ok bb jj kk : valid sB bb -> valid sJ jj -> element (bb ++ jj ++ kk) = dv (bb ++ tuple bb jj ++ kk).
Proof.
  intros V1 V2. apply valid_length in V1, V2. unfold element.
  replace (skipn (length sB + length sJ) (bb ++ jj ++ kk)) with kk by (rewrite app_assoc, skipn_exact by (rewrite app_length; lia); reflexivity).
  rewrite (firstn_exact bb), (skipn_exact bb), (firstn_exact jj) by auto. reflexivity.
Qed.

Lemma gatherND_ok : exists out, gatherNDLoop (length sB) data ind = Some out /\ mShape out = sB ++ sJ ++ sK /\
  forall bb jj kk, valid sB bb -> valid sJ jj -> valid sK kk -> mAt out (bb ++ jj ++ kk) = Some (dv (bb ++ tuple bb jj ++ kk)).
Proof.
  unfold gatherNDLoop.
  assert (L1 : length (mShape ind) = (length sB + length sJ + 1)%nat) by (rewrite HI, !app_length; cbn; lia).
  assert (L2 : length (mShape data) = (length sB + k + length sK)%nat) by (rewrite HS, !app_length; unfold k; lia).
  assert (LK : Z.to_nat (nth (length (mShape ind) - 1) (mShape ind) 0) = k).
  { rewrite L1, HI, app_assoc, app_nth2; rewrite app_length; [|lia]. replace (length sB + length sJ + 1 - 1 - (length sB + length sJ))%nat with O by lia. cbn. lia. }
  assert (FB : firstn (length sB) (mShape ind) = sB) by (rewrite HI, firstn_app, firstn_all, Nat.sub_diag; cbn; apply app_nil_r).
  assert (FJ : firstn (length (mShape ind) - 1 - length sB) (skipn (length sB) (mShape ind)) = sJ).
  { rewrite L1, HI, skipn_app, skipn_all, Nat.sub_diag. cbn [skipn app]. replace (length sB + length sJ + 1 - 1 - length sB)%nat with (length sJ) by lia.
    rewrite firstn_app, firstn_all, Nat.sub_diag. cbn. apply app_nil_r. }
  assert (FD : skipn (length sB) (mShape data) = sX ++ sK) by (rewrite HS, skipn_app, skipn_all, Nat.sub_diag; reflexivity).
  assert (FK : skipn (length sB + k) (mShape data) = sK).
  { rewrite HS, app_assoc, skipn_app, skipn_all2 by (rewrite app_length; unfold k; lia). rewrite app_length. unfold k. rewrite Nat.sub_diag. reflexivity. }
  assert (SO : gatherNDShape (length sB) (mShape data) (mShape ind) = sB ++ sJ ++ sK).
  { unfold gatherNDShape. rewrite LK, FB, FJ. do 2 f_equal. destruct (Nat.ltb_spec k (length (mShape data) - length sB)); [exact FK|].
    destruct sK; auto. cbn in L2. lia. }
  rewrite LK, FB, FJ, FD, FK, SO, !fold_mul_prod.
  replace ((1 <=? k)%nat && (k <=? length (mShape data) - length sB)%nat) with true by (symmetry; apply andb_true_intro; split; apply Nat.leb_le; lia).
  fold rind rdata. unfold iterate at 1. rewrite indices_pair, foldM_map by auto.
  match goal with |- context [foldM ?f (list_prod _ _) _] =>
    replace (foldM f (list_prod (indices sB) (indices sJ)) (alloc [size (sB ++ sJ ++ sK)], 0))
      with (foldM (fun o st => append o st) (map (fun o => Some (element o)) (indices (sB ++ sJ ++ sK))) (alloc [size (sB ++ sJ ++ sK)], 0)) end.
  - pose proof (valid_okshape) as VO.
    assert (Ok : okshape (sB ++ sJ ++ sK)) by (unfold okshape in *; rewrite !Forall_app; auto).
    destruct (append_ok (map (fun o => Some (element o)) (indices (sB ++ sJ ++ sK))) (map element (indices (sB ++ sJ ++ sK)))) with (m := alloc (T := T) [size (sB ++ sJ ++ sK)]) (n := size (sB ++ sJ ++ sK)) (c := 0) as (m' & E & Sh & _ & K).
    { rewrite map_map. reflexivity. }
    { reflexivity. }
    { lia. }
    { rewrite map_length, indices_length by auto. lia. }
    rewrite E. cbn [obind fst]. eexists. split; [reflexivity|]. split; [reflexivity|]. intros bb jj kk V1 V2 V3.
    assert (V : valid (sB ++ sJ ++ sK) (bb ++ jj ++ kk)) by (apply valid_app; [now apply valid_length|]; split; auto; apply valid_app; [now apply valid_length|]; auto).
    pose proof (rm_bound _ _ V) as RB. cbn [reinterpret mAt]. rewrite Sh. cbn [unrm]. rewrite size_nil, Z.div_1_r.
    rewrite map_length, indices_length in K by auto. specialize (K (rm (sB ++ sJ ++ sK) (bb ++ jj ++ kk)) ltac:(lia)). rewrite Z.add_0_l in K. rewrite K.
    rewrite zget_map, indices_nth by auto. cbn. f_equal. now apply element_ok.
  - rewrite indices_triple. rewrite flat_map_concat_map, concat_map, !map_map, <- flat_map_concat_map. rewrite <- foldM_flat. apply foldM_ext. intros [bb jj] st Hin.
    apply in_prod_iff in Hin as [H1 H2]. apply indices_In in H1, H2. cbn [fst snd]. rewrite tuple_read by auto. cbn [obind nth].
    assert (G : forall kk, In kk (indices sK) -> Some (element (bb ++ jj ++ kk)) = load rdata (rm sB bb :: tuple bb jj ++ kk)).
    { intros kk H3. apply indices_In in H3. rewrite rdata_at, element_ok by auto. reflexivity. }
    destruct (Nat.eqb_spec k (length (mShape data) - length sB)) as [E|N].
    + assert (sK = []) as EK by (destruct sK; auto; cbn in L2; lia). rewrite EK in G |- *. cbn [indices map foldM]. rewrite (G []) by (now left). rewrite app_nil_r. destruct (append _ st); reflexivity.
    + unfold iterate. rewrite map_map, foldM_map. apply foldM_ext. intros kk st' H3. rewrite G by auto. reflexivity.
Qed.
End ND.

End Gather.
