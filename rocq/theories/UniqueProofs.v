(** Proofs about the runtime Unique. *)
From Coq Require Import List ZArith Lia Bool Arith Permutation Sorted.
From Verif Require Import Util TensorSpec TensorLemmas OMTensorLayoutModel OMTensorLayoutProofs UniqueModel UniqueSpec.
Import ListNotations.
Open Scope Z_scope.

Lemma zlen {A} (l : list A) i v : zget l i = Some v -> 0 <= i < Z.of_nat (length l).
Proof. apply zget_inv. Qed.
Lemma zget_none_ge {A} (l : list A) i : Z.of_nat (length l) <= i -> zget l i = None.
Proof. intros H. destruct (zget l i) eqn:E; auto. apply zlen in E. lia. Qed.
Lemma zget_In {A} (l : list A) x : In x l <-> exists i, zget l i = Some x.
Proof.
  split.
  - intros H. apply In_nth_error in H as (n & E). exists (Z.of_nat n). rewrite zget_spec, Nat2Z.id by lia. auto.
  - intros (i & E). pose proof (zlen _ _ _ E). rewrite zget_spec in E by lia. eapply nth_error_In; eauto.
Qed.
Lemma zget_snoc {A} (l : list A) x i : zget (l ++ [x]) i = if i =? Z.of_nat (length l) then Some x else zget l i.
Proof.
  destruct (Z.eqb_spec i (Z.of_nat (length l))) as [->|NE].
  - rewrite zget_app2 by lia. now rewrite Z.sub_diag.
  - destruct (Z_lt_ge_dec i 0); [rewrite !zget_neg by lia; auto|].
    destruct (Z_lt_ge_dec i (Z.of_nat (length l))); [apply zget_app1; lia|].
    rewrite !zget_none_ge; auto; rewrite ?app_length; simpl; lia.
Qed.
Lemma zget_ext' {A} (l m : list A) : (forall i, zget l i = zget m i) -> l = m.
Proof.
  intros H. apply nth_error_ext. intros n. specialize (H (Z.of_nat n)). rewrite !zget_spec, Nat2Z.id in H by lia. auto.
Qed.

(** ** Inserting into an array prefix *)
Definition ins_at {A} (i : Z) (x : A) (l : list A) : list A := firstn (Z.to_nat i) l ++ x :: skipn (Z.to_nat i) l.

Lemma ins_at_length {A} i (x : A) l : 0 <= i <= Z.of_nat (length l) -> length (ins_at i x l) = S (length l).
Proof. intros. unfold ins_at. rewrite app_length. cbn [length]. rewrite firstn_length, skipn_length. lia. Qed.

Lemma zget_ins_at {A} i (x : A) l j : 0 <= i <= Z.of_nat (length l) ->
  zget (ins_at i x l) j = if j <? i then zget l j else if j =? i then Some x else zget l (j - 1).
Proof.
  intros H. unfold ins_at. destruct (Z_lt_ge_dec j 0).
  { rewrite !zget_neg by lia. destruct (Z.ltb_spec j i); auto. lia. }
  assert (LF : length (firstn (Z.to_nat i) l) = Z.to_nat i) by (rewrite firstn_length; lia).
  destruct (Z.ltb_spec j i).
  - rewrite zget_app1 by lia. rewrite !zget_spec by lia.
    rewrite <- (firstn_skipn (Z.to_nat i) l) at 2. rewrite nth_error_app1 by lia. auto.
  - rewrite zget_app2 by lia. rewrite LF. destruct (Z.eqb_spec j i).
    + subst. replace (i - Z.of_nat (Z.to_nat i)) with 0 by lia. reflexivity.
    + rewrite !zget_spec by lia. replace (Z.to_nat (j - Z.of_nat (Z.to_nat i))) with (S (Z.to_nat (j - 1) - Z.to_nat i)) by lia.
      cbn [nth_error]. rewrite <- (firstn_skipn (Z.to_nat i) l) at 2. rewrite nth_error_app2 by lia. f_equal. lia.
Qed.

Lemma shift_loop {A} m : forall (a : list A) ins, 0 <= ins -> ins + Z.of_nat m < Z.of_nat (length a) ->
  exists a', foldM (fun j a => v <- zget a (j - 1) ;; zset a j v) (rev (zseq (ins + 1) m)) a = Some a' /\
    length a' = length a /\
    forall j, zget a' j = if (ins <? j) && (j <=? ins + Z.of_nat m) then zget a (j - 1) else zget a j.
Proof.
  induction m; intros a ins H0 HL.
  - exists a. split; auto. split; auto. intros j. destruct (Z.ltb_spec ins j), (Z.leb_spec j (ins + Z.of_nat 0)); cbn [andb]; auto. lia.
  - replace (S m) with (m + 1)%nat by lia. rewrite zseq_app, rev_app_distr. cbn [zseq rev app foldM].
    replace (ins + 1 + Z.of_nat m - 1) with (ins + Z.of_nat m) by lia.
    destruct (zget_some a (ins + Z.of_nat m)) as (v & Ev); [lia|]. rewrite Ev. cbn [obind].
    rewrite zset_some by lia. cbn [obind].
    destruct (IHm (upd (Z.to_nat (ins + 1 + Z.of_nat m)) v a) ins) as (a' & E & L & G); auto.
    { rewrite upd_length. lia. }
    exists a'. split; auto. split; [now rewrite L, upd_length|]. intros j. rewrite G, !zget_upd by lia.
    destruct (Z.ltb_spec ins j), (Z.leb_spec j (ins + Z.of_nat m)), (Z.leb_spec j (ins + Z.of_nat (m + 1))); cbn [andb]; try lia; auto.
    + destruct (Z.eqb_spec (j - 1) (ins + 1 + Z.of_nat m)); [lia|auto].
    + destruct (Z.eqb_spec j (ins + 1 + Z.of_nat m)); [|lia]. subst. rewrite <- Ev. f_equal. lia.
    + destruct (Z.eqb_spec j (ins + 1 + Z.of_nat m)); [lia|auto].
    + destruct (Z.eqb_spec j (ins + 1 + Z.of_nat m)); [lia|auto].
Qed.

Lemma shift_insert {A} (u r : list A) ins x : 0 <= ins <= Z.of_nat (length u) -> r <> [] ->
  exists a1, shift (u ++ r) ins (Z.of_nat (length u)) = Some a1 /\
    zset a1 ins x = Some (ins_at ins x u ++ tl r).
Proof.
  intros Hi HR. destruct r as [|r0 r]; [congruence|]. unfold shift.
  destruct (shift_loop (Z.to_nat (Z.of_nat (length u) - ins)) (u ++ r0 :: r) ins) as (a1 & E & L & G); [lia|rewrite app_length; simpl; lia|].
  exists a1. split; auto. rewrite zset_some by (rewrite L, app_length; simpl; lia). f_equal. apply zget_ext'. intros j.
  rewrite zget_upd by (rewrite L, app_length; simpl; lia). rewrite G. cbn [tl].
  pose proof (ins_at_length ins x u Hi) as LI.
  replace (ins + Z.of_nat (Z.to_nat (Z.of_nat (length u) - ins))) with (Z.of_nat (length u)) by lia.
  destruct (Z_lt_ge_dec j 0).
  { destruct (Z.eqb_spec j ins); [lia|]. destruct (Z.ltb_spec ins j); [lia|]. cbn [andb]. now rewrite !zget_neg by lia. }
  destruct (Z_lt_ge_dec j (Z.of_nat (S (length u)))) as [LT|GE].
  - rewrite (zget_app1 (ins_at ins x u)) by lia. rewrite zget_ins_at by auto.
    destruct (Z.eqb_spec j ins).
    + destruct (Z.ltb_spec j ins); [lia|auto].
    + destruct (Z.ltb_spec ins j), (Z.ltb_spec j ins), (Z.leb_spec j (Z.of_nat (length u))); cbn [andb]; try lia;
        apply zget_app1; lia.
  - rewrite (zget_app2 (ins_at ins x u)) by lia. rewrite LI.
    destruct (Z.eqb_spec j ins); [lia|]. destruct (Z.ltb_spec ins j), (Z.leb_spec j (Z.of_nat (length u))); cbn [andb]; try lia.
    rewrite zget_app2 by lia. rewrite !zget_spec by lia.
    replace (Z.to_nat (j - Z.of_nat (length u))) with (S (Z.to_nat (j - Z.of_nat (S (length u))))) by lia. reflexivity.
Qed.

(** ** Renumbering *)
Lemma renumber_loop m : forall inv rest ins, (m <= length inv)%nat ->
  foldM (fun j inv => v <- zget inv j ;; if ins <=? v then zset inv j (v + 1) else Some inv) (zseq 0 m) (inv ++ rest)
  = Some (map (fun v => if ins <=? v then v + 1 else v) (firstn m inv) ++ skipn m inv ++ rest).
Proof.
  induction m; intros inv rest ins HL; [reflexivity|].
  replace (S m) with (m + 1)%nat by lia. rewrite zseq_app, foldM_app, IHm by lia. cbn [zseq foldM obind].
  destruct (nth_error inv m) as [v|] eqn:EV; [|apply nth_error_None in EV; lia].
  assert (SK : skipn m inv = v :: skipn (S m) inv).
  { clear - EV. revert inv EV. induction m; destruct inv; simpl; intros; try discriminate; [injection EV as ->; auto|]. now apply IHm. }
  assert (FK : firstn (m + 1) inv = firstn m inv ++ [v]).
  { replace (m + 1)%nat with (S m) by lia. clear - EV. revert inv EV. induction m; destruct inv; cbn [nth_error]; intros EV; try discriminate; [injection EV as ->; auto|].
    cbn [firstn app]. f_equal. now apply IHm. }
  set (P := map _ (firstn m inv)). assert (LP : length P = m) by (unfold P; rewrite map_length, firstn_length; lia).
  rewrite Z.add_0_l. rewrite SK. cbn [app].
  assert (GV : zget (P ++ v :: skipn (S m) inv ++ rest) (Z.of_nat m) = Some v).
  { rewrite zget_app2 by lia. rewrite LP, Z.sub_diag. reflexivity. }
  rewrite GV. cbn [obind]. rewrite FK, map_app. cbn [map]. fold P. replace (m + 1)%nat with (S m) by lia.
  destruct (ins <=? v) eqn:C.
  - rewrite zset_some by (rewrite app_length; cbn [length]; lia). cbn [obind]. rewrite Nat2Z.id, upd_app_r by lia. rewrite LP, Nat.sub_diag. cbn [upd].
    now rewrite <- !app_assoc.
  - cbn [obind]. now rewrite <- !app_assoc.
Qed.

Lemma renumber_spec inv rest ins :
  renumber (inv ++ rest) (Z.of_nat (length inv)) ins = Some (map (fun v => if ins <=? v then v + 1 else v) inv ++ rest).
Proof.
  unfold renumber, zrange. rewrite Nat2Z.id, renumber_loop by auto. now rewrite firstn_all, skipn_all.
Qed.

(** ** Items *)
Section Items.
Context {V : Type}.
Variables veqb vlt : V -> V -> bool.
Hypothesis EQ : forall x y, veqb x y = true <-> x = y.
Hypothesis LT_irr : forall x, vlt x x = false.
Hypothesis LT_trans : forall x y z, vlt x y = true -> vlt y z = true -> vlt x z = true.
Hypothesis LT_total : forall x y, x <> y -> vlt x y = false -> vlt y x = true.
Notation less := (lex_less (fun x y => vlt x y = true)).

Lemma sliceEq_iff a b : sliceEq veqb a b = true <-> a = b.
Proof.
  revert b; induction a; destruct b; simpl; split; intros H; auto; try discriminate.
  - apply andb_true_iff in H as [H1 H2]. apply EQ in H1. apply IHa in H2. congruence.
  - injection H as -> ->. apply andb_true_iff. split; [now apply EQ|now apply IHa].
Qed.
Lemma isLess_iff a b : length a = length b -> (isLessSlice veqb vlt a b = true <-> less a b).
Proof.
  revert b; induction a; destruct b; simpl; intros HL; try discriminate.
  - split; [discriminate|inversion 1].
  - destruct (veqb a v) eqn:E.
    + apply EQ in E. subst. rewrite IHa by lia. split.
      * now apply lex_next.
      * inversion 1; subst; auto. exfalso. now rewrite LT_irr in *.
    + split.
      * intros. constructor; auto.
      * inversion 1; subst; auto. exfalso. assert (veqb v v = true) by now apply EQ. congruence.
Qed.
Lemma less_irr a : ~ less a a.
Proof. induction a; inversion 1; subst; auto. now rewrite LT_irr in *. Qed.
Lemma less_len a b : less a b -> length a = length b.
Proof. induction 1; simpl; auto. Qed.
Lemma less_trans a b c : less a b -> less b c -> less a c.
Proof.
  intros H; revert c; induction H; intros c H2.
  - inversion H2; subst.
    + apply lex_here; [eapply LT_trans; eassumption|lia].
    + constructor; auto. match goal with H : less _ _ |- _ => apply less_len in H; lia end.
  - inversion H2; subst.
    + constructor; auto. apply less_len in H. lia.
    + apply lex_next. auto.
Qed.
Lemma less_total a b : length a = length b -> a <> b -> ~ less a b -> less b a.
Proof.
  revert b; induction a; destruct b; simpl; intros HL NE NL; try discriminate; [congruence|].
  destruct (veqb a v) eqn:E.
  - apply EQ in E. subst. apply lex_next. apply IHa; auto; [congruence|]. intros H. apply NL. now apply lex_next.
  - apply lex_here; [|lia]. apply LT_total.
    + intros ->. assert (veqb v v = true) by now apply EQ. congruence.
    + destruct (vlt a v) eqn:D; auto. exfalso. apply NL. apply lex_here; auto.
Qed.

Definition item_eq_dec (a b : list V) : {a = b} + {a <> b}.
Proof.
  destruct (sliceEq veqb a b) eqn:E; [left; now apply sliceEq_iff|right]. intros ->.
  assert (sliceEq veqb b b = true) by now apply sliceEq_iff. congruence.
Qed.

Lemma search_spec (sorted : bool) s : forall u k, 0 <= k -> Forall (fun x => length x = length s) u ->
  (sorted = true -> StronglySorted less u) ->
  forall ins found, search veqb vlt sorted u s k = (ins, found) ->
  k <= ins /\
  (found = true -> zget u (ins - k) = Some s) /\
  (found = false -> ~ In s u /\ ins - k <= Z.of_nat (length u) /\
     (sorted = false -> ins - k = Z.of_nat (length u)) /\
     (sorted = true -> (forall j x, j < ins - k -> zget u j = Some x -> less x s) /\
                       (forall j x, ins - k <= j -> zget u j = Some x -> less s x))).
Proof.
  induction u as [|a u IH]; intros k Hk HL HS ins found E; cbn [search] in E.
  - injection E as <- <-. split; [lia|]. split; [discriminate|]. intros _. split; auto. split; [simpl; lia|]. split; [simpl; lia|].
    intros _. split; intros j x Hj Ex; apply zlen in Ex; simpl in Ex; lia.
  - inversion HL as [|? ? La HL']; subst.
    destruct (sliceEq veqb a s) eqn:EE.
    { injection E as <- <-. split; [lia|]. split; [|discriminate]. intros _. apply sliceEq_iff in EE. subst. now rewrite Z.sub_diag. }
    assert (NE : a <> s). { intros ->. assert (sliceEq veqb s s = true) by now apply sliceEq_iff. congruence. }
    destruct (sorted && negb (isLessSlice veqb vlt a s)) eqn:B.
    { injection E as <- <-. apply andb_true_iff in B as [-> B]. apply negb_true_iff in B.
      split; [lia|]. split; [discriminate|]. intros _. specialize (HS eq_refl). inversion HS as [|? ? HS1 HS2]; subst.
      assert (SA : less s a). { apply less_total; auto. intros H. apply isLess_iff in H; [|lia]. congruence. }
      assert (ALL : forall x, In x (a :: u) -> less s x).
      { intros x [<-|Hx]; auto. rewrite Forall_forall in HS2. eapply less_trans; eauto. }
      split.
      { intros HI. apply ALL in HI. now apply less_irr in HI. }
      split; [simpl; lia|]. split; [discriminate|]. intros _. split.
      - intros j x Hj Ex. apply zlen in Ex. lia.
      - intros j x Hj Ex. apply ALL. apply zget_In. eauto. }
    destruct (IH (k + 1) ltac:(lia) HL') with (ins := ins) (found := found) as (A1 & A2 & A3); auto.
    { intros H. specialize (HS H). inversion HS; auto. }
    split; [lia|].
    assert (SH : forall j, 0 <= j -> zget (a :: u) (j + 1) = zget u j).
    { intros j Hj. rewrite !zget_spec by lia. replace (Z.to_nat (j + 1)) with (S (Z.to_nat j)) by lia. reflexivity. }
    split.
    { intros HF. specialize (A2 HF). rewrite <- A2. replace (ins - k) with (ins - (k + 1) + 1) by lia. apply SH. lia. }
    intros HF. destruct (A3 HF) as (B1 & B2 & B3 & B4). split; [|split; [simpl length; lia|split]].
    { intros [->|HI]; auto. }
    { intros HH. specialize (B3 HH). simpl length. lia. }
    intros HH. destruct (B4 HH) as [C1 C2].
    assert (AS : less a s).
    { subst sorted. cbn [andb] in B. apply negb_false_iff in B. apply isLess_iff; auto. }
    split.
    + intros j x Hj Ex. pose proof (zlen _ _ _ Ex). destruct (Z.eq_dec j 0) as [->|].
      * injection Ex as <-. auto.
      * apply (C1 (j - 1)); [lia|]. rewrite <- SH by lia. rewrite <- Ex. f_equal. lia.
    + intros j x Hj Ex. pose proof (zlen _ _ _ Ex). apply (C2 (j - 1)); [lia|]. rewrite <- SH by lia. rewrite <- Ex. f_equal. lia.
Qed.
End Items.

(** ** Specification lemmas *)
Section SpecLemmas.
Context {A : Type}.
Variable dec : forall a b : A, {a = b} + {a <> b}.

Lemma first_occ_app (p : list A) s x i : first_occ p x i -> first_occ (p ++ [s]) x i.
Proof.
  intros [E H]. pose proof (zlen _ _ _ E). split.
  - rewrite zget_snoc. destruct (Z.eqb_spec i (Z.of_nat (length p))); auto. lia.
  - intros j Hj. rewrite zget_snoc. destruct (Z.eqb_spec j (Z.of_nat (length p))); [lia|auto].
Qed.
Lemma first_occ_new (p : list A) s : ~ In s p -> first_occ (p ++ [s]) s (Z.of_nat (length p)).
Proof.
  intros H. split; [now rewrite zget_snoc, Z.eqb_refl|].
  intros j Hj E. rewrite zget_snoc in E. destruct (Z.eqb_spec j (Z.of_nat (length p))); [lia|].
  apply H. apply zget_In. eauto.
Qed.
Lemma first_occ_fun (p : list A) x i j : first_occ p x i -> first_occ p x j -> i = j.
Proof.
  intros [E1 H1] [E2 H2]. destruct (Z.lt_total i j) as [L|[L|L]]; auto; exfalso; [eapply H2|eapply H1]; eauto.
Qed.
Lemma occurs_app (p : list A) s x c : occurs x p c -> occurs x (p ++ [s]) (if dec s x then c + 1 else c).
Proof.
  induction 1; cbn [app].
  - destruct (dec s x); [subst; replace (0 + 1) with (0 + 1) by lia; repeat constructor|repeat constructor; auto].
  - destruct (dec s x); constructor; auto.
  - destruct (dec s x); constructor; auto.
Qed.
Lemma occurs_none (p : list A) x : ~ In x p -> occurs x p 0.
Proof. induction p; simpl; intros; constructor; auto. Qed.

Lemma NoDup_zget (u : list A) i j x : NoDup u -> zget u i = Some x -> zget u j = Some x -> i = j.
Proof.
  intros ND E1 E2. pose proof (zlen _ _ _ E1). pose proof (zlen _ _ _ E2). rewrite zget_spec in E1, E2 by lia.
  assert (Z.to_nat i = Z.to_nat j); [|lia]. eapply NoDup_nth_error; eauto; [|congruence]. lia.
Qed.

Lemma SS_positions {B} (R : B -> B -> Prop) (l : list B) :
  StronglySorted R l <-> (forall a b v w, a < b -> zget l a = Some v -> zget l b = Some w -> R v w).
Proof.
  split.
  - induction 1 as [|x l HSS IH F]; intros a b v w Hab Ev Ew; [apply zlen in Ev; simpl in Ev; lia|].
    pose proof (zlen _ _ _ Ev). pose proof (zlen _ _ _ Ew).
    assert (SH : forall j, 0 < j -> zget (x :: l) j = zget l (j - 1)).
    { intros j Hj. rewrite !zget_spec by lia. replace (Z.to_nat j) with (S (Z.to_nat (j - 1))) by lia. reflexivity. }
    rewrite SH in Ew by lia. destruct (Z.eq_dec a 0) as [->|].
    + injection Ev as <-. rewrite Forall_forall in F. apply F. apply zget_In. eauto.
    + rewrite SH in Ev by lia. apply (IH (a - 1) (b - 1)); auto. lia.
  - induction l as [|x l IH]; intros H; constructor.
    + apply IH. intros a b v w Hab Ev Ew. pose proof (zlen _ _ _ Ev). pose proof (zlen _ _ _ Ew).
      apply (H (a + 1) (b + 1)); [lia| |]; rewrite zget_spec in * by lia;
        [replace (Z.to_nat (a + 1)) with (S (Z.to_nat a)) by lia|replace (Z.to_nat (b + 1)) with (S (Z.to_nat b)) by lia]; auto.
    + apply Forall_forall. intros y Hy. apply zget_In in Hy as (i & Ei). pose proof (zlen _ _ _ Ei).
      apply (H 0 (i + 1)); [lia|reflexivity|]. rewrite zget_spec in * by lia.
      replace (Z.to_nat (i + 1)) with (S (Z.to_nat i)) by lia. auto.
Qed.

Lemma In_ins_at (u : list A) i s x : 0 <= i <= Z.of_nat (length u) -> (In x (ins_at i s u) <-> x = s \/ In x u).
Proof.
  intros H. unfold ins_at. rewrite in_app_iff. cbn [In]. rewrite <- (firstn_skipn (Z.to_nat i) u) at 3. rewrite in_app_iff.
  intuition congruence.
Qed.
Lemma NoDup_ins_at (u : list A) i s : 0 <= i <= Z.of_nat (length u) -> NoDup u -> ~ In s u -> NoDup (ins_at i s u).
Proof.
  intros H ND NI. unfold ins_at. apply NoDup_Add with (a := s) (l := firstn (Z.to_nat i) u ++ skipn (Z.to_nat i) u).
  - apply Add_app.
  - rewrite firstn_skipn. auto.
Qed.
End SpecLemmas.
