(** The registration loop of Unique meets the specification. *)
From Coq Require Import List ZArith Lia Bool Arith Permutation Sorted.
From Verif Require Import Util TensorSpec TensorLemmas OMTensorLayoutModel OMTensorLayoutProofs UniqueModel UniqueSpec UniqueProofs.
Import ListNotations.
Open Scope Z_scope.

Section Loop.
Context {V : Type}.
Variables veqb vlt : V -> V -> bool.
Hypothesis EQ : forall x y, veqb x y = true <-> x = y.
Hypothesis LT_irr : forall x, vlt x x = false.
Hypothesis LT_trans : forall x y z, vlt x y = true -> vlt y z = true -> vlt x z = true.
Hypothesis LT_total : forall x y, x <> y -> vlt x y = false -> vlt y x = true.
Notation less := (lex_less (fun x y => vlt x y = true)).
Notation dec := (item_eq_dec veqb EQ).

(** [arr] is a buffer of [cap] cells whose first cells satisfy [P]. *)
Definition filled {A} (cap : nat) (P : list A -> Prop) (arr : list A) : Prop :=
  exists c r, arr = c ++ r /\ length arr = cap /\ P c.

Record tinv (T n : nat) (sorted : bool) (wi wv wc : bool) (p u : list (list V)) (t : sliceTable V) : Prop := {
  ti_sorted : t_sorted t = sorted;
  ti_items : unique_items less sorted p u;
  ti_num : t_num t = Z.of_nat (length u);
  ti_data : filled T (fun c => c = u) (t_data t);
  ti_wi : wi = true <-> t_indices t <> None;
  ti_wv : wv = true <-> t_inverse t <> None;
  ti_wc : wc = true <-> t_counts t <> None;
  ti_ind : opt_out (filled T (unique_indices p u)) (t_indices t);
  ti_inv : opt_out (filled n (unique_inverse p u)) (t_inverse t);
  ti_cnt : opt_out (filled T (unique_counts p u)) (t_counts t)
}.

Lemma items_found sorted p u s : unique_items less sorted p u -> In s u -> unique_items less sorted (p ++ [s]) u.
Proof.
  intros [ND SM OR] HI. constructor; auto.
  - intros x. rewrite in_app_iff, SM. simpl. split; [tauto|]. intros [?|[<-|[]]]; auto. now apply SM.
  - destruct sorted; auto. apply SS_positions. intros a b v w Hab Ev Ew.
    rewrite SS_positions in OR. destruct (OR a b v w Hab Ev Ew) as (i & j & F1 & F2 & L).
    exists i, j. repeat split; auto; now apply first_occ_app.
Qed.

Lemma items_new (sorted : bool) p u s ins : unique_items less sorted p u -> ~ In s u -> 0 <= ins <= Z.of_nat (length u) ->
  (sorted = false -> ins = Z.of_nat (length u)) ->
  (sorted = true -> (forall j x, j < ins -> zget u j = Some x -> less x s) /\ (forall j x, ins <= j -> zget u j = Some x -> less s x)) ->
  unique_items less sorted (p ++ [s]) (ins_at ins s u).
Proof.
  intros [ND SM OR] NI Hi H1 H2. constructor.
  - now apply NoDup_ins_at.
  - intros x. rewrite In_ins_at, in_app_iff, SM by auto. simpl. intuition congruence.
  - destruct sorted.
    + destruct (H2 eq_refl) as [B1 B2]. apply SS_positions. intros a b v w Hab Ev Ew. rewrite SS_positions in OR.
      rewrite zget_ins_at in Ev, Ew by auto.
      destruct (Z.ltb_spec a ins), (Z.ltb_spec b ins); try lia.
      * apply (OR a b); auto.
      * destruct (Z.eqb_spec b ins); [injection Ew as <-; apply (B1 a); auto|]. apply (OR a (b - 1)); auto. lia.
      * destruct (Z.eqb_spec b ins); [lia|]. destruct (Z.eqb_spec a ins).
        -- injection Ev as <-. apply (B2 (b - 1)); auto. lia.
        -- apply (OR (a - 1) (b - 1)); auto. lia.
    + specialize (H1 eq_refl). subst ins. apply SS_positions. intros a b v w Hab Ev Ew. rewrite SS_positions in OR.
      pose proof (zlen _ _ _ Ev) as La. pose proof (zlen _ _ _ Ew) as Lb. rewrite ins_at_length in La, Lb by lia.
      rewrite zget_ins_at in Ev, Ew by auto.
      destruct (Z.ltb_spec a (Z.of_nat (length u))); [|lia].
      destruct (Z.ltb_spec b (Z.of_nat (length u))).
      * destruct (OR a b v w Hab Ev Ew) as (i & j & F1 & F2 & L). exists i, j. repeat split; auto; now apply first_occ_app.
      * destruct (Z.eqb_spec b (Z.of_nat (length u))); [|lia]. injection Ew as <-.
        assert (HVp : In v p) by (apply SM; apply zget_In; eauto).
        (* v has a first occurrence *)
        assert (exists i, first_occ p v i) as (i & Fi).
        { clear - HVp EQ. induction p as [|x p IH] using rev_ind; [destruct HVp|].
          destruct (in_dec dec v p) as [I|N].
          - destruct (IH I) as (i & Fi). exists i. now apply first_occ_app.
          - apply in_app_or in HVp as [?|[<-|[]]]; [contradiction|]. eexists. now apply first_occ_new. }
        exists i, (Z.of_nat (length p)). repeat split.
        -- apply (first_occ_app p s); auto.
        -- apply (first_occ_app p s); auto.
        -- apply (first_occ_new p s). rewrite <- SM. auto.
        -- apply (first_occ_new p s). rewrite <- SM. auto.
        -- destruct Fi as [Fi _]. apply zlen in Fi. lia.
Qed.

Lemma register_spec T n sorted wi wv wc p u t s : tinv T n sorted wi wv wc p u t ->
  Forall (fun x => length x = length s) u -> (length p < n)%nat -> (~ In s u -> length u < T)%nat ->
  exists t' u' (found : bool), sliceTableRegister veqb vlt t s (Z.of_nat (length p)) = Some (t', found) /\
    tinv T n sorted wi wv wc (p ++ [s]) u' t' /\ length u' = (if found then length u else S (length u)).
Proof.
  intros [E0 E1 E2 E3 W1 W2 W3 E4 E5 E6] HL HP HT. unfold sliceTableRegister.
  destruct E3 as (c & r & ED & LD & ->). rewrite E2, ED, Nat2Z.id, E0.
  rewrite firstn_app, firstn_all, Nat.sub_diag, app_nil_r.
  destruct (search veqb vlt sorted u s 0) as [ins found] eqn:ES.
  destruct (search_spec veqb vlt EQ LT_irr LT_trans LT_total sorted s u 0 ltac:(lia) HL) with (ins := ins) (found := found) as (S1 & S2 & S3); auto.
  { intros ->. apply (ui_order _ _ _ _ E1). }
  rewrite Z.sub_0_r in *.
  destruct found.
  - specialize (S2 eq_refl). pose proof (zlen _ _ _ S2) as LI.
    assert (exists c', onPtr (t_counts t) (fun c => v <- zget c ins ;; zset c ins (v + 1)) = Some c' /\
      (wc = true <-> c' <> None) /\ opt_out (filled T (unique_counts (p ++ [s]) u)) c') as (c' & -> & C1 & C2).
    { destruct (t_counts t) as [cc|]; cbn [onPtr opt_out] in *; [|exists None; auto].
      destruct E6 as (c & r' & -> & Lc & LU & UC).
      destruct (UC ins s S2) as (v & Ev & Ov).
      assert (0 <= ins < Z.of_nat (length c)) by lia.
      rewrite zget_app1 by lia. rewrite Ev. cbn [obind]. rewrite zset_some by (rewrite app_length; lia). cbn [obind].
      eexists. split; [reflexivity|]. split; [split; [congruence|intros; apply W3; congruence]|].
      exists (upd (Z.to_nat ins) (v + 1) c), r'. split; [|split; [rewrite upd_length; auto|split; [rewrite upd_length; auto|]]].
      { clear - H. assert (K : (Z.to_nat ins < length c)%nat) by lia. revert K. generalize (Z.to_nat ins). clear.
        induction c; destruct n; simpl; intros; auto; try lia. f_equal. apply IHc. lia. }
      intros k x Ex. rewrite zget_upd by lia. destruct (Z.eqb_spec k ins) as [->|].
      - assert (x = s) by congruence. subst x. exists (v + 1). split; auto.
        pose proof (occurs_app dec p s s v Ov) as O. destruct (dec s s); [auto|congruence].
      - destruct (UC k x Ex) as (v' & Ev' & Ov'). exists v'. split; auto.
        pose proof (occurs_app dec p s x v' Ov') as O. destruct (dec s x); [|auto].
        subst x. exfalso. assert (k = ins); [|contradiction]. apply (NoDup_zget u k ins s); auto. apply (ui_nodup _ _ _ _ E1). }
    cbn [obind].
    assert (exists i', onPtr (t_inverse t) (fun a => zset a (Z.of_nat (length p)) ins) = Some i' /\
      (wv = true <-> i' <> None) /\ opt_out (filled n (unique_inverse (p ++ [s]) u)) i') as (i' & -> & I1 & I2).
    { destruct (t_inverse t) as [cc|]; cbn [onPtr opt_out] in *; [|exists None; auto].
      destruct E5 as (c & r' & -> & Lc & LU & UC).
      rewrite zset_some by lia. cbn [obind]. eexists. split; [reflexivity|]. split; [split; [congruence|intros; apply W2; congruence]|].
      rewrite app_length in Lc. destruct r' as [|r0 r']; [simpl in Lc; lia|].
      exists (c ++ [ins]), r'. rewrite Nat2Z.id. split; [|split; [|split]].
      - rewrite upd_app_r by lia. rewrite LU, Nat.sub_diag. cbn [upd]. now rewrite <- app_assoc.
      - rewrite upd_length, app_length. auto.
      - rewrite !app_length. simpl. lia.
      - intros i x Ex. rewrite zget_snoc in Ex. rewrite zget_snoc. rewrite LU. destruct (Z.eqb_spec i (Z.of_nat (length p))).
        + injection Ex as <-. exists ins. auto.
        + apply UC; auto. }
    cbn [obind]. eexists; exists u; exists true. split; [reflexivity|]. split; auto.
    constructor; cbn [t_sorted t_num t_data t_indices t_inverse t_counts]; auto.
    + apply items_found; auto. apply zget_In. eauto.
    + exists u, r. rewrite <- ED. auto.
    + destruct (t_indices t) as [cc|]; cbn [opt_out] in *; auto.
      destruct E4 as (c & r' & -> & Lc & LU & UC). exists c, r'. split; auto. split; auto. split; auto.
      intros k x Ex. destruct (UC k x Ex) as (i & Ei & Fi). exists i. split; auto. now apply first_occ_app.
  - destruct (S3 eq_refl) as (NI & LI & SU & SO).
    assert (LT : (length u < T)%nat) by auto.
    assert (NIp : ~ In s p). { rewrite <- (ui_same _ _ _ _ E1). auto. }
    assert (HI : 0 <= ins <= Z.of_nat (length u)) by lia.
    assert (INS : forall (A : Type) (P P' : list A -> Prop) (a : option (list A)) (w : bool) x,
       (forall c, P c -> length c = length u) -> (forall c, P c -> P' (ins_at ins x c)) ->
       (w = true <-> a <> None) -> opt_out (filled T P) a ->
       exists a1 a2, onPtr a (fun c => shift c ins (Z.of_nat (length u))) = Some a1 /\
         onPtr a1 (fun c => zset c ins x) = Some a2 /\ (w = true <-> a2 <> None) /\ opt_out (filled T P') a2).
    { intros A P P' a w x PL PP W F. destruct a as [a|]; cbn [onPtr opt_out] in *; [|exists None, None; auto].
      destruct F as (c & r' & -> & Lc & Pc). pose proof (PL _ Pc) as Lu. rewrite app_length in Lc.
      destruct (shift_insert c r' ins x) as (a1 & Es & Ez); [lia| |].
      { intros ->. simpl in Lc. lia. }
      rewrite Lu in Es. rewrite Es. cbn [obind]. exists (Some a1), (Some (ins_at ins x c ++ tl r')). split; [reflexivity|]. split; [cbn [onPtr]; now rewrite Ez|].
      split; [split; [congruence|intros; apply W; congruence]|].
      exists (ins_at ins x c), (tl r'). split; auto. split; [|auto].
      rewrite app_length, ins_at_length by lia. destruct r'; simpl in *; lia. }
    assert (r <> []). { intros ->. rewrite ED, app_nil_r in LD. lia. }
    destruct (shift_insert u r ins s HI H) as (d1 & -> & Ed2). cbn [obind].
    destruct (INS Z (unique_counts p u) (unique_counts (p ++ [s]) (ins_at ins s u)) (t_counts t) wc 1) as (c1 & c2 & -> & Ec2 & Wc & Fc); auto.
    { intros c [L _]. auto. }
    { intros c [L UC]. split; [rewrite !ins_at_length; lia|]. intros k x Ex. rewrite zget_ins_at in Ex by lia. rewrite zget_ins_at by lia.
      destruct (Z.ltb_spec k ins).
      - destruct (UC k x Ex) as (v & Ev & Ov). exists v. split; auto. pose proof (occurs_app dec p s x v Ov) as O.
        destruct (dec s x); auto. subst. exfalso. apply NI. apply zget_In. eauto.
      - destruct (Z.eqb_spec k ins).
        + injection Ex as <-. exists 1. split; auto. pose proof (occurs_app dec p s s 0 (occurs_none p s NIp)) as O.
          destruct (dec s s); [auto|congruence].
        + destruct (UC (k - 1) x Ex) as (v & Ev & Ov). exists v. split; auto. pose proof (occurs_app dec p s x v Ov) as O.
          destruct (dec s x); auto. subst. exfalso. apply NI. apply zget_In. eauto. }
    cbn [obind].
    destruct (INS Z (unique_indices p u) (unique_indices (p ++ [s]) (ins_at ins s u)) (t_indices t) wi (Z.of_nat (length p))) as (i1 & i2 & -> & Ei2 & Wi & Fi); auto.
    { intros c [L _]. auto. }
    { intros c [L UC]. split; [rewrite !ins_at_length; lia|]. intros k x Ex. rewrite zget_ins_at in Ex by lia. rewrite zget_ins_at by lia.
      destruct (Z.ltb_spec k ins).
      - destruct (UC k x Ex) as (v & Ev & Ov). exists v. split; auto. now apply first_occ_app.
      - destruct (Z.eqb_spec k ins).
        + injection Ex as <-. eexists. split; [reflexivity|]. now apply first_occ_new.
        + destruct (UC (k - 1) x Ex) as (v & Ev & Ov). exists v. split; auto. now apply first_occ_app. }
    cbn [obind].
    assert (exists v1 v2, onPtr (t_inverse t) (fun a => renumber a (Z.of_nat (length p)) ins) = Some v1 /\
      onPtr v1 (fun a => zset a (Z.of_nat (length p)) ins) = Some v2 /\
      (wv = true <-> v2 <> None) /\ opt_out (filled n (unique_inverse (p ++ [s]) (ins_at ins s u))) v2) as (v1 & v2 & -> & Ev2 & Wv & Fv).
    { destruct (t_inverse t) as [cc|]; cbn [onPtr opt_out] in *; [|exists None, None; auto].
      destruct E5 as (c & r' & -> & Lc & LU & UC). rewrite <- LU. rewrite renumber_spec. cbn [obind].
      eexists. rewrite app_length in Lc.
      eexists. split; [reflexivity|]. cbn [onPtr].
      rewrite zset_some by (rewrite app_length, map_length; lia). cbn [obind]. split; [reflexivity|].
      split; [split; [congruence|intros; apply W2; congruence]|].
      destruct r' as [|r0 r']; [simpl in Lc; lia|].
      exists (map (fun v => if ins <=? v then v + 1 else v) c ++ [ins]), r'. rewrite Nat2Z.id. split; [|split; [|split]].
      - rewrite upd_app_r by (rewrite map_length; lia). rewrite map_length, Nat.sub_diag. cbn [upd]. now rewrite <- app_assoc.
      - rewrite upd_length, app_length, map_length. auto.
      - rewrite !app_length, map_length. simpl. lia.
      - intros i x Ex. rewrite zget_snoc in Ex. rewrite zget_snoc. rewrite map_length, LU.
        destruct (Z.eqb_spec i (Z.of_nat (length p))).
        + injection Ex as <-. exists ins. split; auto. rewrite zget_ins_at by lia. destruct (Z.ltb_spec ins ins); [lia|]. now rewrite Z.eqb_refl.
        + destruct (UC i x Ex) as (k & Ek & Uk). rewrite zget_map, Ek. cbn [option_map]. eexists. split; [reflexivity|].
          rewrite zget_ins_at by lia. destruct (Z.leb_spec ins k).
          * destruct (Z.ltb_spec (k + 1) ins); [lia|]. destruct (Z.eqb_spec (k + 1) ins); [lia|]. rewrite <- Uk. f_equal. lia.
          * destruct (Z.ltb_spec k ins); [auto|lia]. }
    cbn [obind]. rewrite Ed2. cbn [obind]. rewrite Ec2. cbn [obind]. rewrite Ei2. cbn [obind]. rewrite Ev2. cbn [obind].
    eexists; exists (ins_at ins s u); exists false. split; [reflexivity|]. split; [|rewrite ins_at_length; lia].
    constructor; cbn [t_sorted t_num t_data t_indices t_inverse t_counts]; auto.
    + apply items_new; auto.
    + rewrite ins_at_length by lia. lia.
    + exists (ins_at ins s u), (tl r). split; auto. split; auto. rewrite app_length, ins_at_length by lia.
      rewrite ED, app_length in LD. destruct r; simpl in *; [congruence|lia].
Qed.

(** Registering a whole sequence. *)
Theorem registerAll_spec T n (sorted : bool) (slices : Z -> option (list V)) (ss : list (list V)) t L :
  n = length ss -> (forall i, 0 <= i < Z.of_nat n -> slices i = zget ss i) ->
  Forall (fun x => length x = L) ss ->
  (forall u, NoDup u -> incl u ss -> (length u <= T)%nat) ->
  t_sorted t = sorted -> t_num t = 0 -> length (t_data t) = T ->
  opt_out (fun a => length a = T) (t_indices t) -> opt_out (fun a => length a = n) (t_inverse t) ->
  opt_out (fun a => length a = T) (t_counts t) ->
  exists t' u, registerAll veqb vlt slices (Z.of_nat n) t = Some (t', Z.of_nat (length u)) /\
    unique_items less sorted ss u /\
    filled T (fun c => c = u) (t_data t') /\
    (t_indices t' = None <-> t_indices t = None) /\ (t_inverse t' = None <-> t_inverse t = None) /\ (t_counts t' = None <-> t_counts t = None) /\
    opt_out (filled T (unique_indices ss u)) (t_indices t') /\
    opt_out (filled n (unique_inverse ss u)) (t_inverse t') /\
    opt_out (filled T (unique_counts ss u)) (t_counts t').
Proof.
  intros Hn HSL HLEN HCAP T1 T2 T3 T4 T5 T6.
  set (isS := fun (o : option (list Z)) => match o with Some _ => true | None => false end).
  assert (K : forall rest p u t, p ++ rest = ss ->
    tinv T n sorted (isS (t_indices t)) (isS (t_inverse t)) (isS (t_counts t)) p u t ->
    exists t' u', foldM (fun off st => let '(t, count) := st in s <- slices off ;; r <- sliceTableRegister veqb vlt t s off ;;
        let '(t', found) := r in Some (t', if found : bool then count else count + 1))
      (zseq (Z.of_nat (length p)) (length rest)) (t, Z.of_nat (length u)) = Some (t', Z.of_nat (length u')) /\
      tinv T n sorted (isS (t_indices t)) (isS (t_inverse t)) (isS (t_counts t)) ss u' t').
  { clear t T1 T2 T3 T4 T5 T6. induction rest as [|s rest IH]; intros p u t E I.
    - rewrite app_nil_r in E. subst p. exists t, u. auto.
    - cbn [length zseq foldM].
      assert (LP : (length p + S (length rest) = n)%nat) by (rewrite Hn, <- E, app_length; reflexivity).
      assert (ES : slices (Z.of_nat (length p)) = Some s).
      { rewrite HSL by lia. rewrite <- E. rewrite zget_app2 by lia. now rewrite Z.sub_diag. }
      rewrite ES. cbn [obind].
      assert (INP : forall x, In x u -> In x ss). { intros x Hx. rewrite <- E. apply in_or_app. left. now apply (ui_same _ _ _ _ (ti_items _ _ _ _ _ _ _ _ _ I)). }
      rewrite Forall_forall in HLEN.
      destruct (register_spec T n sorted _ _ _ p u t s I) as (t1 & u1 & found & ER & I1 & L1); try lia.
      { apply Forall_forall. intros x Hx. rewrite (HLEN x) by auto. symmetry. apply HLEN. rewrite <- E. apply in_or_app. right. now left. }
      { intros NI. assert (length (s :: u) <= T)%nat; [|simpl in *; lia]. apply HCAP.
        - constructor; auto. apply (ui_nodup _ _ _ _ (ti_items _ _ _ _ _ _ _ _ _ I)).
        - intros x [<-|Hx]; auto. rewrite <- E. apply in_or_app. right. now left. }
      rewrite ER. cbn [obind].
      assert (W1 : isS (t_indices t1) = isS (t_indices t)).
      { destruct I1. unfold isS in *. destruct (t_indices t1), (t_indices t); auto; [symmetry; apply ti_wi0; congruence|destruct ti_wi0 as [X _]; exfalso; now apply X]. }
      assert (W2 : isS (t_inverse t1) = isS (t_inverse t)).
      { destruct I1. unfold isS in *. destruct (t_inverse t1), (t_inverse t); auto; [symmetry; apply ti_wv0; congruence|destruct ti_wv0 as [X _]; exfalso; now apply X]. }
      assert (W3 : isS (t_counts t1) = isS (t_counts t)).
      { destruct I1. unfold isS in *. destruct (t_counts t1), (t_counts t); auto; [symmetry; apply ti_wc0; congruence|destruct ti_wc0 as [X _]; exfalso; now apply X]. }
      destruct (IH (p ++ [s]) u1 t1) as (t' & u' & EF & I').
      { now rewrite <- app_assoc. }
      { now rewrite W1, W2, W3. }
      exists t', u'. rewrite W1, W2, W3 in I'. split; auto. rewrite <- EF.
      rewrite app_length. cbn [length].
      replace (Z.of_nat (length p) + 1) with (Z.of_nat (length p + 1)) by lia.
      destruct found; rewrite L1; [reflexivity|]. now rewrite Nat2Z.inj_succ, Z.add_1_r. }
  destruct (K ss [] [] t) as (t' & u & EF & I); auto.
  { constructor; auto.
    - constructor; [constructor|tauto|]. destruct sorted; constructor.
    - exists [], (t_data t). auto.
    - unfold isS. destruct (t_indices t); split; congruence.
    - unfold isS. destruct (t_inverse t); split; congruence.
    - unfold isS. destruct (t_counts t); split; congruence.
    - destruct (t_indices t); cbn [opt_out] in *; auto. exists [], l. repeat split; auto. intros k x Ex. apply zlen in Ex. simpl in Ex. lia.
    - destruct (t_inverse t); cbn [opt_out] in *; auto. exists [], l. repeat split; auto. intros k x Ex. apply zlen in Ex. simpl in Ex. lia.
    - destruct (t_counts t); cbn [opt_out] in *; auto. exists [], l. repeat split; auto. intros k x Ex. apply zlen in Ex. simpl in Ex. lia. }
  exists t', u. unfold registerAll, zrange. rewrite Nat2Z.id, Hn. cbn [length Z.of_nat] in EF. rewrite EF. split; auto.
  rewrite <- Hn. destruct I as [A1 A2 A3 A4 A5 A6 A7 A8 A9 A10]. split; auto. split; auto.
  assert (X : forall (a b : option (list Z)), (isS b = true <-> a <> None) -> (a = None <-> b = None)).
  { intros [a|] [b|]; unfold isS; intros [H1 H2]; split; intros; auto; try congruence.
    - exfalso. assert (false = true) by (apply H2; congruence). discriminate.
    - exfalso. now apply H1. }
  split; [now apply X|]. split; [now apply X|]. split; [now apply X|]. auto.
Qed.
End Loop.
