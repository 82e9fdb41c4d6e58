(** Properties C06-C09 and C11-C13: folding of data-movement and elementwise
    operations on constants.

    [const junk e s data] (ElementsViews.v) says: [e] is a well-formed constant
    of shape [s], and reading it out in row-major order (getWideNums) yields
    [data].  [elem s data idx] (TensorSpec.v) is then the element at the
    multi-index [idx].  How [e] is stored (strides, buffer, pending elementwise
    transformation) is left open in every theorem. *)
From Coq Require Import List ZArith Lia Bool Arith Permutation.
From Verif Require Import Util TensorSpec TensorLemmas StridesModel StridesProofs StridesReshape
  ElementsModel ElementsSpec ElementsBase ElementsViews ElementsConcat ElementsPad ElementsGather.
Import ListNotations.
Open Scope Z_scope.

(** ** Reachability of the hypotheses: every dense or splat constant is [const]. *)
Lemma dense_const {W} (junk : W) s data : okshape s -> is_data s data ->
  const junk (Elements s (getDefaultStrides s) data None) s data.
Proof.
  intros Ok D. destruct (fresh_wf s data Ok D) as [F1 F2]. apply const_iff. auto.
Qed.

Lemma splat_const {W} (junk v : W) s : okshape s ->
  const junk (Elements s (getSplatStrides s) [v] None) s (repeat v (Z.to_nat (size s))).
Proof.
  intros Ok. pose proof (size_nonneg _ Ok) as Hn.
  assert (H : wf (Elements s (getSplatStrides s) [v] None)).
  { constructor; simpl; unfold getSplatStrides.
    - apply repeat_length.
    - auto.
    - clear Hn. induction Ok; simpl; constructor; auto.
    - clear. induction s; simpl; constructor; auto; lia.
    - intros idx V. rewrite pos_repeat0. lia.
    - intros Hs p Hp. destruct (unrm_spec s 0 Ok) as [V _]; [lia|]. exists (unrm s 0).
      rewrite pos_repeat0. split; auto; lia.
    - intros _ _. clear. induction s; simpl; constructor; auto. }
  apply const_iff. split; auto. split; auto. split.
  - unfold is_data. rewrite repeat_length. simpl. lia.
  - simpl. intros idx V. rewrite elem_rm by auto. pose proof (rm_bound _ _ V).
    rewrite zget_repeat by lia. unfold den; simpl. unfold getSplatStrides. now rewrite pos_repeat0.
Qed.

(** Every accessor of a constant agrees with its row-major content. *)
Theorem C05_readers_agree : forall (W : Type) (junk : W) e s data,
  const junk e s data ->
  is_data s data /\
  (forall junk', getWideNums junk' e = Some data) /\
  (forall dst, is_data s dst -> readWideNums e dst = Some data) /\
  (forall idx, valid s idx -> atFlatIndex e (rowmajor s idx) = elem s data idx) /\
  (isSplat e = true -> exists v, splatValue e = Some v /\ forall idx, valid s idx -> elem s data idx = Some v).
Proof.
  intros W junk e s data C. destruct (const_data _ _ _ _ C) as [Ok D]. split; auto. split; [|split; [|split]].
  - intros junk'. apply const_iff in C. apply (const_iff junk') in C. apply C.
  - intros dst Hd. eapply read_any; eauto.
  - intros idx V. pose proof (valid_length _ _ V). rewrite elem_rm, rowmajor_rm by auto.
    eapply atFlat_correct; eauto. now apply rm_bound.
  - intros Hs. destruct (isSplat_some _ Hs) as (v & E). exists v. split; auto.
    intros idx V. rewrite (const_elem _ _ _ _ _ C V), splat_den; auto.
Qed.

Example C05_readers_example :
  const 99 (Elements [2;3] [0;1] [7;8;9] (Some (Z.mul 2))) [2;3] [14;16;18;14;16;18].
Proof.
  split; [|split; reflexivity].
  constructor; simpl.
  - reflexivity.
  - repeat constructor; lia.
  - repeat constructor; lia.
  - repeat constructor; lia.
  - intros idx V. inversion V as [|? x ? ? Hx V1]; subst. inversion V1 as [|? y ? ? Hy V2]; subst.
    inversion V2; subst. simpl. lia.
  - intros _ p Hp. exists [0;p]. split; [repeat constructor; lia|]. cbn. lia.
  - intros H. exfalso. compute in H. discriminate.
Qed.

(** ** Folded Reshape, end to end. *)
Theorem C04_constant_reshape : forall (W : Type) (junk : W) e s data r,
  const junk e s data -> okshape r -> size r = size s -> 0 < size s ->
  exists e', reshape junk e r = Some e' /\ const junk e' r data.
Proof.
  intros W junk e s data r C Okr Hsz Hs. destruct (const_data _ _ _ _ C) as [Ok D].
  assert (C' := C). apply const_iff in C' as (We & Se & _).
  destruct (reshape_spec junk e r) as (e' & E & S & We' & G); auto; rewrite ?Se; auto; try lia.
  exists e'. split; auto. apply const_iff. split; auto. split; auto. rewrite Se in G. split.
  - unfold is_data in *. rewrite S. lia.
  - rewrite S. intros j V. destruct (unrm_spec s (rm r j) Ok) as [V2 E2].
    { pose proof (rm_bound _ _ V). lia. }
    rewrite (G (unrm s (rm r j)) j) by auto.
    rewrite <- (const_elem _ _ _ _ _ C V2). rewrite !elem_rm by auto. congruence.
Qed.

(** ** Elementwise unary transformation (kept pending in the constant). *)
Theorem C08_unary : forall (W : Type) (junk : W) e s data f,
  const junk e s data -> const junk (transform e f) s (map f data).
Proof.
  intros W junk e s data f C. destruct (const_data _ _ _ _ C) as [Ok D].
  assert (C' := C). apply const_iff in C' as (We & Se & _).
  apply const_iff. split; [now apply transform_wf|]. split; auto. split.
  - unfold is_data in *. rewrite map_length. simpl. rewrite Se. auto.
  - simpl. rewrite Se. intros idx V. rewrite transform_den, <- (const_elem _ _ _ _ _ C V), !elem_rm by auto.
    apply zget_map.
Qed.

(** ** C06 Transpose *)
Theorem C06_transpose : forall (W : Type) (junk : W) e s data perm,
  const junk e s data -> Permutation perm (seq 0 (length s)) ->
  exists out, const junk (transpose e perm) (permute perm s) out /\
    (forall idx, valid s idx -> valid (permute perm s) (permute perm idx) /\
       elem (permute perm s) out (permute perm idx) = elem s data idx) /\
    (forall j, valid (permute perm s) j -> exists idx, valid s idx /\ permute perm idx = j).
Proof.
  intros W junk e s data perm C HP. destruct (const_data _ _ _ _ C) as [Ok D].
  assert (C' := C). apply const_iff in C' as (We & Se & _). subst s.
  fold (is_perm (length (e_shape e)) perm) in HP.
  assert (Wt := transpose_wf e perm We HP).
  destruct (wf_const junk (transpose e perm) (permute perm (e_shape e))) as (out & CO & _ & GO); auto.
  { rewrite transpose_eq; auto. }
  exists out. split; auto. split.
  - intros idx V. assert (V2 := transpose_valid _ _ _ HP V). split; [exact V2|].
    rewrite GO by exact V2. rewrite (const_elem _ _ _ _ _ C V). now apply transpose_den.
  - intros j V. exists (untransposeDims j perm). split; [eapply untranspose_valid; eauto|].
    apply (transpose_untranspose (length (e_shape e)) j perm); auto.
    apply valid_length in V. unfold permute in V. rewrite map_length in V.
    rewrite <- (is_perm_length _ _ HP). auto.
Qed.

(** Transposing by a permutation and then by its inverse. *)
Theorem C06_transpose_roundtrip : forall (W : Type) (junk : W) e s data perm inv,
  const junk e s data -> Permutation perm (seq 0 (length s)) ->
  length inv = length perm -> (forall k, (k < length perm)%nat -> nth (nth k inv O) perm O = k /\ (nth k inv O < length perm)%nat) ->
  const junk (transpose (transpose e perm) inv) s data.
Proof.
  intros W junk e s data perm inv C HP LI HI.
  pose proof (is_perm_length _ _ HP) as LP.
  destruct (C06_transpose W junk e s data perm C HP) as (o1 & C1 & G1 & _).
  assert (HPI : Permutation inv (seq 0 (length (permute perm s)))).
  { unfold permute. rewrite map_length. apply NoDup_Permutation_bis.
    - apply (NoDup_nth inv O). intros i j Hi Hj E.
      destruct (HI i) as [A _]; [lia|]. destruct (HI j) as [B _]; [lia|]. congruence.
    - rewrite seq_length. lia.
    - intros x Hx. apply In_nth with (d := O) in Hx as (k & Hk & <-). apply in_seq.
      destruct (HI k); lia. }
  destruct (C06_transpose W junk _ _ _ inv C1 HPI) as (o2 & C2 & G2 & _).
  assert (PP : forall l : list Z, length l = length s -> permute inv (permute perm l) = l).
  { intros l Hl. unfold permute. apply nth_ext with (d := 0) (d' := 0); rewrite map_length; [lia|].
    intros k Hk. destruct (HI k) as [A B]; [lia|].
    rewrite nth_indep with (d' := nth O (map (fun p => nth p l 0) perm) 0) by (rewrite map_length; lia).
    rewrite (map_nth (fun p => nth p (map (fun p0 => nth p0 l 0) perm) 0) inv O k).
    rewrite nth_indep with (d' := nth O l 0) by (rewrite map_length; lia).
    rewrite (map_nth (fun p => nth p l 0) perm O). now rewrite A. }
  rewrite PP in * by auto. replace data with o2; auto.
  destruct (const_data _ _ _ _ C) as [Ok D]. destruct (const_data _ _ _ _ C2) as [_ D2].
  eapply data_ext; eauto. intros idx V. destruct (G1 _ V) as [V1 E1]. destruct (G2 _ V1) as [V2 E2].
  rewrite PP in E2 by (symmetry; now apply valid_length). congruence.
Qed.

Example C06_example :
  let e := Elements [2;3] (getDefaultStrides [2;3]) [1;2;3;4;5;6] None in
  const 0 e [2;3] [1;2;3;4;5;6] /\ Permutation [1;0]%nat (seq 0 (length [2;3])) /\
  const 0 (transpose e [1;0]%nat) [3;2] [1;4;2;5;3;6].
Proof.
  cbn zeta. assert (C : const 0 (Elements [2;3] (getDefaultStrides [2;3]) [1;2;3;4;5;6] None) [2;3] [1;2;3;4;5;6]).
  { apply dense_const; [repeat constructor; lia|reflexivity]. }
  assert (P : Permutation [1;0]%nat (seq 0 (length [2;3]))) by (simpl; constructor).
  split; auto. split; auto.
  destruct (C06_transpose Z 0 _ _ _ _ C P) as (out & CO & _).
  destruct CO as (A & B & G). split; auto.
Qed.

(** ** C07 Expand *)
Theorem C07_expand : forall (W : Type) (junk : W) e s data t,
  const junk e s data -> okshape t -> broadcastable s t ->
  exists e' out, expand e t = Some e' /\ const junk e' t out /\
    forall idx, valid t idx -> valid s (bsel s idx) /\ elem t out idx = elem s data (bsel s idx).
Proof.
  intros W junk e s data t C Ot HB. assert (C' := C). apply const_iff in C' as (We & Se & _). subst s.
  destruct (expand_spec e t) as (e' & E & S & We' & G); auto.
  destruct (wf_const junk e' t We' S) as (out & CO & _ & GO). exists e', out. split; auto. split; auto.
  intros idx V. assert (V2 := bsel_valid _ _ _ HB V). split; auto.
  rewrite GO, G by auto. symmetry. now apply (const_elem junk).
Qed.

Example C07_example :
  let e := Elements [2;1] (getDefaultStrides [2;1]) [5;6] None in
  broadcastable [2;1] [3;2;2] /\
  (e' <- expand e [3;2;2] ;; getWideNums 0 e') = Some [5;5;6;6;5;5;6;6;5;5;6;6].
Proof. split; [split; simpl; [lia|constructor; [now right|constructor; [now left|constructor]]]|reflexivity]. Qed.

(** ** C08 Elementwise binary ops, Where, Equal *)
Theorem C08_binary : forall (W : Type) (junk : W) (f : W -> W -> W) l r sl sr dl dr t,
  const junk l sl dl -> const junk r sr dr -> okshape t -> broadcastable sl t -> broadcastable sr t ->
  exists e out, combine2 junk l r t f = Some e /\ const junk e t out /\
    forall idx x y, valid t idx -> elem sl dl (bsel sl idx) = Some x -> elem sr dr (bsel sr idx) = Some y ->
      elem t out idx = Some (f x y).
Proof.
  intros W junk f l r sl sr dl dr t Cl Cr Ot Bl Br.
  assert (C1 := Cl). assert (C2 := Cr). apply const_iff in C1 as (Wl & Sl & _), C2 as (Wr & Sr & _). subst sl sr.
  destruct (combine_spec junk l r t f) as (e & E & S & We & G); auto.
  destruct (wf_const junk e t We S) as (out & CO & _ & GO). exists e, out. split; auto. split; auto.
  intros idx x y V Ex Ey. rewrite GO, G by auto.
  rewrite (const_elem _ _ _ _ _ Cl) in Ex by (eapply bsel_valid; eauto).
  rewrite (const_elem _ _ _ _ _ Cr) in Ey by (eapply bsel_valid; eauto).
  rewrite Ex, Ey. reflexivity.
Qed.

(** The operands of [C08_binary] are defined at every index. *)
Theorem C08_operands_defined : forall (W : Type) (junk : W) e s data t idx,
  const junk e s data -> broadcastable s t -> valid t idx ->
  exists x, elem s data (bsel s idx) = Some x.
Proof.
  intros W junk e s data t idx C B V. assert (V2 := bsel_valid _ _ _ B V).
  rewrite (const_elem _ _ _ _ _ C V2). apply const_iff in C as (We & Se & _). subst. now apply den_some.
Qed.

Theorem C08_where : forall (W : Type) (junk : W) (truth : W -> bool) c l r sc sl sr dc dl dr t,
  const junk c sc dc -> const junk l sl dl -> const junk r sr dr -> okshape t ->
  broadcastable sc t -> broadcastable sl t -> broadcastable sr t ->
  exists e out, where_ junk truth c l r t = Some e /\ const junk e t out /\
    forall idx b, valid t idx -> elem sc dc (bsel sc idx) = Some b ->
      elem t out idx = if truth b then elem sl dl (bsel sl idx) else elem sr dr (bsel sr idx).
Proof.
  intros W junk truth c l r sc sl sr dc dl dr t Cc Cl Cr Ot Bc Bl Br.
  assert (C0 := Cc). assert (C1 := Cl). assert (C2 := Cr).
  apply const_iff in C0 as (Wc & Sc & _), C1 as (Wl & Sl & _), C2 as (Wr & Sr & _). subst sc sl sr.
  destruct (where_spec junk truth c l r t) as (e & E & S & We & G); auto.
  destruct (wf_const junk e t We S) as (out & CO & _ & GO). exists e, out. split; auto. split; auto.
  intros idx b V Eb. rewrite GO, G by auto.
  rewrite (const_elem _ _ _ _ _ Cc) in Eb by (eapply bsel_valid; eauto).
  rewrite (const_elem _ _ _ _ _ Cl), (const_elem _ _ _ _ _ Cr) by (eapply bsel_valid; eauto).
  rewrite Eb. reflexivity.
Qed.

(** Comparison of two constants of the same shape, however stored. *)
Theorem C08_equal : forall (W : Type) (junk : W) (eqw : W -> W -> bool) l r s dl dr,
  const junk l s dl -> const junk r s dr ->
  exists b, equal eqw s l r = Some b /\
    (b = true <-> Forall2 (fun x y => eqw x y = true) dl dr).
Proof.
  intros W junk eqw l r s dl dr Cl Cr.
  destruct (const_data _ _ _ _ Cl) as [Ok Dl]. destruct (const_data _ _ _ _ Cr) as [_ Dr].
  assert (C1 := Cl). assert (C2 := Cr). apply const_iff in C1 as (Wl & Sl & _), C2 as (Wr & Sr & _).
  assert (BB : broadcastable s s).
  { split; auto. rewrite Nat.sub_diag. simpl. clear. induction s; constructor; auto. }
  destruct (equal_spec eqw l r s) as (b & E & I); rewrite ?Sl, ?Sr; auto.
  exists b. split; auto. rewrite I. rewrite Sl, Sr. clear I.
  pose proof (size_nonneg _ Ok) as Hn. unfold is_data in *. split.
  - intros H. assert (LL : length dl = length dr) by lia.
    assert (P : forall k x y, nth_error dl k = Some x -> nth_error dr k = Some y -> eqw x y = true).
    { intros k x y Ex Ey. assert (k < length dl)%nat by (apply nth_error_Some; congruence).
      destruct (unrm_spec s (Z.of_nat k) Ok) as [V EV]; [lia|].
      apply (H (unrm s (Z.of_nat k))); auto; rewrite bsel_self by auto.
      - rewrite <- (const_elem _ _ _ _ _ Cl V), elem_rm, EV, zget_spec, Nat2Z.id by (auto; lia). auto.
      - rewrite <- (const_elem _ _ _ _ _ Cr V), elem_rm, EV, zget_spec, Nat2Z.id by (auto; lia). auto. }
    clear - LL P. revert dr LL P. induction dl; intros [|y dr] LL P; try discriminate; constructor.
    + apply (P O); auto.
    + apply IHdl; auto. intros k. apply (P (S k)).
  - intros HF idx x y V. rewrite bsel_self by auto.
    rewrite <- (const_elem _ _ _ _ _ Cl V), <- (const_elem _ _ _ _ _ Cr V), !elem_rm by auto.
    pose proof (rm_bound _ _ V). rewrite !zget_spec by lia. generalize (Z.to_nat (rm s idx)).
    clear - HF. intros k; revert k. induction HF; intros [|k]; simpl; try discriminate.
    + congruence.
    + apply IHHF.
Qed.

Theorem C08_allEqual : forall (W : Type) (junk : W) (eqw : W -> W -> bool) e s data n,
  const junk e s data -> 0 < size s ->
  (allEqual eqw e n = true <-> Forall (fun x => eqw n x = true) data).
Proof.
  intros W junk eqw e s data n C Hs. destruct (const_data _ _ _ _ C) as [Ok D].
  assert (C1 := C). apply const_iff in C1 as (We & Se & _). subst s.
  rewrite allEqual_spec by auto. rewrite Forall_forall. split.
  - intros H x Hx. apply In_nth_error in Hx as (k & E).
    assert (k < length data)%nat by (apply nth_error_Some; congruence). unfold is_data in D.
    destruct (unrm_spec (e_shape e) (Z.of_nat k) Ok) as [V EV]; [lia|].
    apply (H (unrm (e_shape e) (Z.of_nat k))); auto.
    rewrite <- (const_elem _ _ _ _ _ C V), elem_rm, EV, zget_spec, Nat2Z.id by (auto; lia). auto.
  - intros H idx x V E. rewrite <- (const_elem _ _ _ _ _ C V), elem_rm in E by auto.
    apply H. unfold zget in E. destruct (_ <? 0); [discriminate|]. eapply nth_error_In; eauto.
Qed.

(** For an empty splat constant allEqual compares the (unused) splat value
    instead of being vacuously true. *)
Theorem C08_allEqual_empty_refuted :
  exists (e : elements Z) data, const 0 e [0] data /\ data = [] /\ allEqual Z.eqb e 1 = false.
Proof.
  exists (Elements [0] (getSplatStrides [0]) [7] None), [].
  split; [apply (splat_const 0 7 [0]); repeat constructor; lia|]. split; reflexivity.
Qed.

Example C08_example :
  let a := Elements [2;3] [1;2] [1;2;3;4;5;6] None in   (* a transposed view *)
  let b := Elements [3] (getSplatStrides [3]) [10] None in
  (e <- combine2 0 a b [2;3] Z.add ;; getWideNums 0 e) = Some [11;13;15;12;14;16].
Proof. reflexivity. Qed.

(** ** C09 Concat and Split *)

(** All inputs agree outside the axis; [kds] lists their axis dimensions and contents. *)
Theorem C09_concat : forall (W : Type) (junk : W) pre post elms (kds : list (Z * list W)),
  elms <> [] ->
  Forall2 (fun e kd => const junk e (pre ++ fst kd :: post) (snd kd)) elms kds ->
  exists e out, concat junk elms (length pre) = Some e /\
    const junk e (pre ++ sumZ (map fst kds) :: post) out /\
    forall before k d after, kds = before ++ (k, d) :: after ->
      forall i c j, valid pre i -> 0 <= c < k -> valid post j ->
      elem (pre ++ sumZ (map fst kds) :: post) out (i ++ (sumZ (map fst before) + c) :: j) =
      elem (pre ++ k :: post) d (i ++ c :: j).
Proof.
  intros W junk pre post elms kds NE HF. destruct elms as [|e1 [|e2 rest]]; [congruence| |].
  - inversion HF as [|? [k d] ? ? C HF']; subst. inversion HF'; subst. simpl in C.
    exists e1, d. assert (C' := C). apply const_iff in C' as (_ & Se & _).
    unfold concat. rewrite Se, app_length. cbn [length].
    replace (length pre <? length pre + S (length post))%nat with true by (symmetry; apply Nat.ltb_lt; lia).
    cbn [negb map fst]. replace (sumZ [k]) with k by (unfold sumZ; simpl; lia).
    split; auto. split; auto. intros [|b0 [|]] k' d' after EQ i c j; inversion EQ; subst.
    intros. replace (sumZ (map fst [])) with 0 by reflexivity. reflexivity.
  - apply concat_spec; auto. simpl. lia.
Qed.

Theorem C09_split : forall (W : Type) (junk : W) e data pre K post sizes,
  const junk e (pre ++ K :: post) data -> 0 < K ->
  Forall (fun z => 0 <= z) sizes -> sumZ sizes = K ->
  exists es, split junk e (length pre) sizes = Some es /\ length es = length sizes /\
    forall before z after, sizes = before ++ z :: after ->
      exists e' d, nth_error es (length before) = Some e' /\ const junk e' (pre ++ z :: post) d /\
        forall i c j, valid pre i -> 0 <= c < z -> valid post j ->
          elem (pre ++ z :: post) d (i ++ c :: j) =
          elem (pre ++ K :: post) data (i ++ (sumZ before + c) :: j).
Proof. intros. now apply split_spec. Qed.

Lemma Forall2_nth_error {A B} (R : A -> B -> Prop) l m k a b :
  Forall2 R l m -> nth_error l k = Some a -> nth_error m k = Some b -> R a b.
Proof.
  intros H; revert k; induction H; intros [|k]; simpl; try discriminate; eauto. congruence.
Qed.

Lemma Forall2_length' {A B} (R : A -> B -> Prop) l m : Forall2 R l m -> length l = length m.
Proof. induction 1; simpl; auto. Qed.

(** Splitting a concatenation with the same sizes returns the inputs' contents. *)
Theorem C09_split_of_concat : forall (W : Type) (junk : W) pre post elms (kds : list (Z * list W)) e,
  elms <> [] -> 0 < sumZ (map fst kds) ->
  Forall2 (fun e kd => const junk e (pre ++ fst kd :: post) (snd kd)) elms kds ->
  concat junk elms (length pre) = Some e ->
  exists es, split junk e (length pre) (map fst kds) = Some es /\
    Forall2 (fun e kd => const junk e (pre ++ fst kd :: post) (snd kd)) es kds.
Proof.
  intros W junk pre post elms kds e NE HK HF EC.
  destruct (C09_concat W junk pre post elms kds NE HF) as (e' & out & EC' & CO & GC).
  rewrite EC in EC'. injection EC' as <-.
  destruct (C09_split W junk e out pre (sumZ (map fst kds)) post (map fst kds)) as (es & ES & LES & GS); auto.
  { clear - HF. induction HF; simpl; constructor; auto. destruct (const_data _ _ _ _ H) as [Ok _].
    apply okshape3 in Ok. lia. }
  exists es. split; auto. rewrite map_length in LES.
  assert (P : forall before k d after, kds = before ++ (k, d) :: after ->
     exists e', nth_error es (length before) = Some e' /\ const junk e' (pre ++ k :: post) d).
  { intros before k d after EQ.
    destruct (GS (map fst before) k (map fst after)) as (e' & d' & N & C' & G').
    { rewrite EQ, map_app. reflexivity. }
    rewrite map_length in N. exists e'. split; auto. replace d with d'; auto.
    assert (CD : exists el, const junk el (pre ++ k :: post) d).
    { assert (NK : nth_error kds (length before) = Some (k, d)).
      { rewrite EQ, nth_error_app2, Nat.sub_diag by lia. reflexivity. }
      pose proof (Forall2_length' _ _ _ HF) as LF.
      destruct (nth_error elms (length before)) as [el|] eqn:NE'.
      2:{ apply nth_error_None in NE'. assert (length before < length kds)%nat by (apply nth_error_Some; congruence). lia. }
      exists el. apply (Forall2_nth_error _ _ _ _ _ _ HF NE' NK). }
    destruct CD as (el & CD). destruct (const_data _ _ _ _ CD) as [Ok D]. destruct (const_data _ _ _ _ C') as [_ D'].
    eapply data_ext; eauto. intros idx V. apply valid3 in V as (i & c & j & -> & Vi & Hc & Vj).
    rewrite G' by auto. rewrite <- (GC before k d after) by auto. reflexivity. }
  clear - P LES. revert es LES P. induction kds as [|[k d] kds IH]; intros [|e es] L P; try discriminate; constructor.
  - destruct (P [] k d kds eq_refl) as (e' & N & C). simpl in N. injection N as <-. auto.
  - apply IH; [simpl in L; lia|]. intros before k' d' after EQ.
    destruct (P ((k, d) :: before) k' d' after) as (e' & N & C); [rewrite EQ; auto|]. simpl in N. eauto.
Qed.

(** Splitting an axis of dimension 0 into two or more parts divides by zero
    (the model returns None = undefined behaviour), though ONNX allows it. *)
Theorem C09_split_zero_axis_refuted : forall (W : Type) (junk : W) e pre post data sizes,
  const junk e (pre ++ 0 :: post) data -> (2 <= length sizes)%nat ->
  split junk e (length pre) sizes = None.
Proof.
  intros W junk e pre post data sizes C HL. destruct C as (We & Se & Gw).
  unfold split. rewrite Se, nth_mid, app_length, Gw. destruct (negb _); auto.
  destruct (negb (sumZ sizes =? 0)); auto. destruct sizes as [|? [|]]; simpl in HL; try lia. reflexivity.
Qed.

Example C09_example :
  let a := Elements [2;1] (getDefaultStrides [2;1]) [1;2] None in
  let b := Elements [2;2] [1;2] [3;4;5;6] None in
  (e <- concat 0 [a;b] 1 ;; getWideNums 0 e) = Some [1;3;5;2;4;6] /\
  (e <- concat 0 [a;b] 1 ;; es <- split 0 e 1 [1;2] ;; Some (map (getWideNums 0) es)) =
  Some [Some [1;2]; Some [3;5;4;6]].
Proof. split; reflexivity. Qed.

(** ** C11 Pad (constant mode, non-negative pads) *)
Theorem C11_pad : forall (W : Type) (junk : W) e s data l r v,
  const junk e s data -> length l = length s -> length r = length s ->
  Forall (fun x => 0 <= x) l -> Forall (fun x => 0 <= x) r ->
  let o := map2 Z.add s (map2 Z.add l r) in
  exists e' out, pad junk e (l ++ r) v = Some e' /\ const junk e' o out /\
    forall j, valid o j ->
      (forall i, valid s i -> j = map2 Z.add i l -> elem o out j = elem s data i) /\
      ((forall i, valid s i -> j <> map2 Z.add i l) -> elem o out j = Some v).
Proof.
  intros W junk e s data l r v C Ll Lr Hl Hr o.
  destruct (const_data _ _ _ _ C) as [Ok D].
  assert (C' := C). apply const_iff in C' as (We & Se & Re).
  assert (Oo : okshape o).
  { unfold o. clear - Ok Ll Lr Hl Hr. revert l r Ll Lr Hl Hr.
    induction Ok; intros [|x0 l0] [|y0 r0] Ll Lr Hl Hr; try discriminate; simpl; constructor.
    - inversion Hl; inversion Hr; subst. lia.
    - inversion Hl; inversion Hr; subst. apply IHOk; auto. }
  pose proof (size_nonneg _ Ok) as Hn.
  destruct s as [|d0 s'].
  - destruct l; [|discriminate]. destruct r; [|discriminate]. exists e, data. unfold pad. rewrite Se. cbn [length].
    split; auto. split; auto. intros j V. inversion V; subst. split.
    + intros i Vi _. inversion Vi; subst. reflexivity.
    + intros H. exfalso. apply (H []); [constructor|reflexivity].
  - destruct (Z.eq_dec (size (d0 :: s')) 0) as [Z0|NZ].
    + assert (PE : pad junk e (l ++ r) v = Some (Elements o (getSplatStrides o) [v] None)).
      { unfold pad. rewrite Se. cbn [length]. unfold getNumElements. fold (size (d0 :: s')). rewrite Z0.
        cbn [Z.eqb]. simpl in Ll, Lr.
        replace (firstn (S (length s')) (l ++ r)) with l.
        2:{ rewrite <- Ll, firstn_app, Nat.sub_diag, firstn_all. simpl. now rewrite app_nil_r. }
        replace (skipn (length (l ++ r) - S (length s')) (l ++ r)) with r; auto.
        rewrite app_length. replace (length l + length r - S (length s'))%nat with (length l) by lia.
        now rewrite skipn_len. }
      exists (Elements o (getSplatStrides o) [v] None), (repeat v (Z.to_nat (size o))).
      split; auto. split; [now apply splat_const|]. intros j V. split.
      * intros i Vi _. pose proof (rm_bound _ _ Vi). lia.
      * intros _. rewrite elem_rm by auto. pose proof (rm_bound _ _ V). apply zget_repeat. lia.
    + destruct (pad_main junk e data l r v) as (e' & E & S & We' & G); rewrite ?Se; auto; try lia; try congruence.
      destruct (wf_const junk e' o We') as (out & CO & _ & GO). { rewrite S, Se. reflexivity. }
      exists e', out. split; auto. split; auto. rewrite Se in G. intros j V. destruct (G j V) as [G1 G2]. split.
      * intros i Vi EQ. rewrite GO, (G1 i) by auto. symmetry. now apply (const_elem junk).
      * intros Hno. rewrite GO, G2 by auto. reflexivity.
Qed.

(** ONNX allows negative pads (cropping); folding them does not compute the
    cropped tensor: cropping one element off the end of [1;2;3] writes outside
    the output (the model's distinct failure outcome). *)
Theorem C11_negative_pads_refuted :
  let e := Elements [3] (getDefaultStrides [3]) [1;2;3] None in
  const 0 e [3] [1;2;3] /\ pad 0 e [0;-1] 0 = None.
Proof.
  split; [apply dense_const; [repeat constructor; lia|reflexivity]|reflexivity].
Qed.

Example C11_example :
  let e := Elements [2;2] [1;2] [1;2;3;4] None in
  (e' <- pad 0 e [1;0;0;1] 9 ;; getWideNums 0 e') = Some [9;9;9; 1;3;9; 2;4;9].
Proof. reflexivity. Qed.

(** ** C12 Gather *)
Theorem C12_gather : forall (W : Type) (junk : W) (toZ : W -> Z) e ei pre K post t data ids,
  const junk e (pre ++ K :: post) data -> const junk ei t ids ->
  (forall j w, valid t j -> elem t ids j = Some w -> - K <= toZ w < K) ->
  exists e' out, gather junk toZ e ei (length pre) = Some e' /\ const junk e' (pre ++ t ++ post) out /\
    forall i j k w, valid pre i -> valid t j -> valid post k -> elem t ids j = Some w ->
      elem (pre ++ t ++ post) out (i ++ j ++ k) = elem (pre ++ K :: post) data (i ++ wrap K (toZ w) :: k).
Proof.
  intros. apply gather_spec; auto. intros j w V E. specialize (H1 j w V E). unfold wrap.
  destruct (Z.ltb_spec (toZ w) 0); lia.
Qed.

Example C12_example :
  let e := Elements [2;3] (getDefaultStrides [2;3]) [1;2;3;4;5;6] None in
  let i := Elements [2] (getDefaultStrides [2]) [-1;0] None in
  (e' <- gather 0 (fun x => x) e i 1 ;; getWideNums 0 e') = Some [3;1;6;4].
Proof. reflexivity. Qed.

(** ** C13 ScatterND, for indices that need no wrapping *)

(** Row [o] of the indices tensor: the coordinates it addresses. *)
Theorem C13_scatterND_partial : forall (W : Type) (junk : W) (toZ : W -> Z) e ei eu s1 s2 outer data ids ups,
  const junk e (s1 ++ s2) data ->
  const junk ei (outer ++ [Z.of_nat (length s1)]) ids ->
  const junk eu (outer ++ s2) ups ->
  (forall o, valid outer o -> valid s1 (index_row toZ outer (length s1) ids o)) ->
  exists e' out, scatterND junk toZ e ei eu = Some e' /\ const junk e' (s1 ++ s2) out /\
    forall a b, valid s1 a -> valid s2 b ->
      elem (s1 ++ s2) out (a ++ b) =
      fold_left (fun acc o => if list_eq_dec Z.eq_dec (index_row toZ outer (length s1) ids o) a
                              then elem (outer ++ s2) ups (o ++ b) else acc)
        (indices outer) (elem (s1 ++ s2) data (a ++ b)).
Proof. intros. now apply scatter_spec. Qed.

(** What is missing for the full property is false: an index -1, legal in ONNX
    (last element), is not normalised.  In a 2x2 tensor, (1,-1) overwrites
    element (0,1) instead of (1,1); in a vector, -1 writes out of bounds. *)
Theorem C13_negative_index_refuted :
  let e := Elements [2;2] (getDefaultStrides [2;2]) [0;0;0;0] None in
  let i := Elements [1;2] (getDefaultStrides [1;2]) [1;-1] None in
  let u := Elements [1] (getDefaultStrides [1]) [5] None in
  const 0 e ([2;2] ++ []) [0;0;0;0] /\ const 0 i ([1] ++ [2]) [1;-1] /\ const 0 u ([1] ++ []) [5] /\
  (forall o, valid [1] o -> valid [2;2] (map (wrap 2) (index_row (fun x => x) [1] 2 [1;-1] o))) /\
  (e' <- scatterND 0 (fun x => x) e i u ;; getWideNums 0 e') = Some [0;5;0;0] /\
  scatterND 0 (fun x => x) (Elements [4] (getDefaultStrides [4]) [0;0;0;0] None)
    (Elements [1;1] (getDefaultStrides [1;1]) [-1] None) u = None.
Proof.
  cbn zeta.
  split; [apply dense_const; [repeat constructor; lia|reflexivity]|].
  split; [apply (dense_const 0 [1;2]); [repeat constructor; lia|reflexivity]|].
  split; [apply (dense_const 0 [1]); [repeat constructor; lia|reflexivity]|].
  split; [|split; reflexivity].
  intros o V. inversion V as [|? x ? ? H V']; subst. inversion V'; subst. assert (x = 0) by lia. subst.
  replace (map (wrap 2) (index_row (fun x => x) [1] 2 [1;-1] [0])) with [1;1] by reflexivity.
  repeat constructor; lia.
Qed.

Example C13_example :
  let e := Elements [3;2] (getDefaultStrides [3;2]) [1;2;3;4;5;6] None in
  let i := Elements [3;1] (getDefaultStrides [3;1]) [2;0;2] None in
  let u := Elements [3;2] (getDefaultStrides [3;2]) [10;11;12;13;14;15] None in
  (e' <- scatterND 0 (fun x => x) e i u ;; getWideNums 0 e') = Some [12;13;3;4;14;15].
Proof. reflexivity. Qed.

Print Assumptions C05_readers_agree.
Print Assumptions C04_constant_reshape.
Print Assumptions C06_transpose.
Print Assumptions C06_transpose_roundtrip.
Print Assumptions C07_expand.
Print Assumptions C08_binary.
Print Assumptions C08_where.
Print Assumptions C08_equal.
Print Assumptions C09_concat.
Print Assumptions C09_split.
Print Assumptions C09_split_of_concat.
Print Assumptions C11_pad.
Print Assumptions C12_gather.
Print Assumptions C13_scatterND_partial.
