(** Proofs about the perfect hash construction. *)
From Coq Require Import List ZArith Lia Bool Arith Permutation Sorted.
From Verif Require Import Util UniqueProofs HashModel.
Import ListNotations.
Open Scope Z_scope.

Lemma zget_inI {A} (l : list A) i x : zget l i = Some x -> In x l.
Proof. intros H. apply zget_In. eauto. Qed.

Definition ok {A} (r : res A) (P : A -> Prop) : Prop :=
  match r with Done a => P a | OutOfFuel => True | Overflow => True | Fault => False end.
Lemma ok_bind {A B} (r : res A) (f : A -> res B) Q P : ok r Q -> (forall a, Q a -> ok (f a) P) -> ok (rbind r f) P.
Proof. destruct r; cbn; auto. Qed.
Lemma ok_ofo {A} (o : option A) a (P : A -> Prop) : o = Some a -> P a -> ok (ofo o) P.
Proof. intros ->. auto. Qed.
Lemma ok_mono {A} (r : res A) (P Q : A -> Prop) : ok r P -> (forall a, P a -> Q a) -> ok r Q.
Proof. destruct r; cbn; auto. Qed.

Definition sumlen {A} (l : list (list A)) : nat := list_sum (map (@length A) l).
Lemma sumlen_app {A} (l m : list (list A)) : sumlen (l ++ m) = (sumlen l + sumlen m)%nat.
Proof. unfold sumlen. rewrite map_app, list_sum_app. reflexivity. Qed.
Lemma sumlen_cons {A} (b : list A) l : sumlen (b :: l) = (length b + sumlen l)%nat.
Proof. reflexivity. Qed.
Lemma sumlen_perm {A} (l m : list (list A)) : Permutation l m -> sumlen l = sumlen m.
Proof. unfold sumlen. induction 1; simpl; lia. Qed.

Definition used (V : list Z) : nat := length (filter (fun v => negb (v =? -1)) V).
Lemma used_upd V : forall s v, nth_error V s = Some (-1) -> v <> -1 -> used (upd s v V) = S (used V).
Proof.
  unfold used. induction V as [|x V IH]; intros s v E N; [destruct s; discriminate|]. destruct s as [|s]; cbn [nth_error upd filter] in *.
  - injection E as ->. cbn. destruct (Z.eqb_spec v (-1)); [lia|]. reflexivity.
  - destruct (negb (x =? -1)); cbn [length]; rewrite IH; auto.
Qed.
Lemma used_full V : used V = length V -> forall s v, zget V s = Some v -> v <> -1.
Proof.
  intros E s v H. apply zget_inI in H. unfold used in E. intros ->.
  assert (forall W, (length (filter (fun v : Z => negb (v =? -1)%Z) W) <= length W)%nat) as LE.
  { induction W as [|a W IW]; cbn; auto. destruct (negb (a =? -1)); cbn; lia. }
  induction V as [|x V IH]; [destruct H|]. cbn [filter length] in E. destruct (Z.eqb_spec x (-1)); cbn [negb] in E.
  - specialize (LE V). cbn in E. lia.
  - destruct H as [->|H]; [lia|]. cbn [length] in E. apply IH; auto.
Qed.
Lemma filter_pred_len {A} (f : A -> bool) l : (length (filter f l) + length (filter (fun x => negb (f x)) l) = length l)%nat.
Proof. induction l as [|a l IH]; cbn; auto. destruct (f a); cbn; lia. Qed.

Lemma FOP_perm {A} (R : A -> A -> Prop) l m : (forall x y, R x y -> R y x) -> Permutation l m -> ForallOrdPairs R l -> ForallOrdPairs R m.
Proof.
  intros SY P. induction P; intros F; auto.
  - inversion F; subst. constructor; auto. rewrite Forall_forall in *. intros z Hz. apply H1. eapply Permutation_in; [symmetry; eauto|auto].
  - inversion F as [|? ? F1 F2]; subst. inversion F2 as [|? ? F3 F4]; subst. inversion F1; subst.
    constructor; [constructor; auto|constructor; auto].
Qed.

Section Proofs.
Variable K : Type.
Variable hsh : Z -> K -> Z.
Variable keq : K -> K -> bool.
Hypothesis keq_spec : forall a b, keq a b = true <-> a = b.
Variable dict : list (K * Z).
Hypothesis NDK : NoDup (map fst dict).
Hypothesis vals : forall k v, In (k, v) dict -> 0 <= v.
Notation n := (length dict).
Notation size := (Z.of_nat (length dict)).
Hypothesis npos : (0 < n)%nat.
Definition keys := map fst dict.
Definition addr (k : K) : Z := hsh 0 k mod size.

Lemma addr_range h k : 0 <= hsh h k mod size < size.
Proof. apply Z.mod_pos_bound. lia. Qed.

Lemma at_in k v : In (k, v) dict -> at_ K keq dict k = Done v.
Proof.
  unfold at_. clear vals npos. revert NDK. induction dict as [|[k' v'] d IH]; intros ND H; [destruct H|]. cbn [find fst].
  cbn [map fst] in ND. inversion ND; subst. destruct H as [H|H].
  - injection H as -> ->. rewrite (proj2 (keq_spec k k) eq_refl). reflexivity.
  - destruct (keq k' k) eqn:E.
    + apply keq_spec in E. subst. exfalso. apply H2. apply in_map_iff. exists (k, v). auto.
    + auto.
Qed.

(** *** Buckets *)
Definition bucketOf (pre : list K) (i : Z) : list K := filter (fun k => addr k =? i) pre.
Lemma bucketOf_snoc pre k i : bucketOf (pre ++ [k]) i = bucketOf pre i ++ (if addr k =? i then [k] else []).
Proof. unfold bucketOf. rewrite filter_app. cbn [filter]. reflexivity. Qed.

Lemma mkBuckets_spec ks : forall pre,
  foldM (fun k bs => b <- zget bs (hsh 0 k mod size) ;; zset bs (hsh 0 k mod size) (b ++ [k])) ks (map (bucketOf pre) (zrange size))
  = Some (map (bucketOf (pre ++ ks)) (zrange size)).
Proof.
  induction ks as [|k ks IH]; intros pre; cbn [foldM]. { now rewrite app_nil_r. }
  pose proof (addr_range 0 k) as R. fold (addr k) in *.
  assert (Zr : forall i, 0 <= i < size -> zget (zrange size) i = Some i).
  { intros i Hi. unfold zrange. rewrite zget_zseq by lia. f_equal; lia. }
  rewrite zget_map, (Zr _ R). cbn [option_map obind].
  rewrite zset_some by (rewrite map_length, zrange_length; lia). cbn [obind].
  assert (E : upd (Z.to_nat (addr k)) (bucketOf pre (addr k) ++ [k]) (map (bucketOf pre) (zrange size)) = map (bucketOf (pre ++ [k])) (zrange size)).
  { apply zget_ext; [rewrite upd_length, !map_length; auto|]. intros i Hi. rewrite upd_length, map_length, zrange_length in Hi.
    rewrite zget_upd by (rewrite map_length, zrange_length; lia). rewrite !zget_map, Zr by lia. cbn [option_map]. rewrite bucketOf_snoc.
    rewrite (Z.eqb_sym i). destruct (Z.eqb_spec (addr k) i) as [->|N]; auto. now rewrite app_nil_r. }
  rewrite E, (IH (pre ++ [k])), <- app_assoc. reflexivity.
Qed.
Lemma mkBuckets_eq : mkBuckets K hsh size keys = Some (map (bucketOf keys) (zrange size)).
Proof.
  unfold mkBuckets. pose proof (mkBuckets_spec keys []) as E. cbn [app] in E. rewrite <- E. f_equal.
  apply zget_ext; rewrite ?repeat_length, ?map_length, ?zrange_length; auto.
  intros i Hi. rewrite zget_repeat by lia. rewrite zget_map. unfold zrange. rewrite zget_zseq by lia. reflexivity.
Qed.

Lemma sumlen_buckets pre : sumlen (map (bucketOf pre) (zrange size)) = length pre.
Proof.
  induction pre as [|k pre IH] using rev_ind.
  - unfold sumlen. rewrite map_map. cbn. induction (zrange size); auto.
  - rewrite app_length, <- IH. cbn [length]. pose proof (addr_range 0 k) as R. fold (addr k) in R.
    unfold sumlen. rewrite !map_map. 
    rewrite (map_ext (fun x => length (bucketOf (pre ++ [k]) x)) (fun x => length (bucketOf pre x) + (if (addr k =? x)%Z then 1 else 0))%nat).
    2: { intros x. rewrite bucketOf_snoc, app_length. destruct (addr k =? x); reflexivity. }
    assert (G : forall l, NoDup l -> list_sum (map (fun x => length (bucketOf pre x) + (if (addr k =? x)%Z then 1 else 0))%nat l) =
       (list_sum (map (fun x => length (bucketOf pre x)) l) + (if in_dec Z.eq_dec (addr k) l then 1 else 0))%nat).
    { induction l as [|x l IHl]; intros ND; [reflexivity|]. inversion ND; subst. cbn [map list_sum fold_right]. cbn in IHl. 
      unfold list_sum in *. rewrite IHl by auto. destruct (Z.eqb_spec (addr k) x) as [E|E].
      - destruct (in_dec Z.eq_dec (addr k) l) as [I|I]; [congruence|]. destruct (in_dec Z.eq_dec (addr k) (x :: l)) as [J|J]; [lia|exfalso; apply J; left; auto].
      - destruct (in_dec Z.eq_dec (addr k) l) as [I|I]; destruct (in_dec Z.eq_dec (addr k) (x :: l)) as [J|J]; try lia.
        + exfalso; apply J; now right.
        + destruct J; congruence. }
    rewrite G by apply NoDup_zseq. destruct (in_dec Z.eq_dec (addr k) (zrange size)) as [I|I]; auto.
    exfalso. apply I, zrange_In. lia.
Qed.

(** what is needed of the sorted list of buckets *)
Record good (bs : list (list K)) : Prop := {
  g_len : length bs = n;
  g_sum : sumlen bs = n;
  g_addr : forall b, In b bs -> forall k k', In k b -> In k' b -> addr k = addr k';
  g_sep : ForallOrdPairs (fun b b' => forall k k', In k b -> In k' b' -> addr k <> addr k') bs;
  g_in : forall b, In b bs -> forall k, In k b -> exists v, In (k, v) dict;
  g_all : forall k, In k keys -> exists b, In b bs /\ In k b;
  g_sort : StronglySorted (fun a b => (length b <= length a)%nat) bs
}.
Lemma good_buckets bs : Permutation bs (map (bucketOf keys) (zrange size)) -> StronglySorted (fun a b => (length b <= length a)%nat) bs -> good bs.
Proof.
  intros P SS. constructor; auto.
  - rewrite (Permutation_length P), map_length, zrange_length. lia.
  - rewrite (sumlen_perm _ _ P), sumlen_buckets. unfold keys. now rewrite map_length.
  - intros b Hb k k' Hk Hk'. eapply Permutation_in in Hb; [|exact P]. apply in_map_iff in Hb as (i & <- & _).
    unfold bucketOf in *. apply filter_In in Hk as [_ Hk], Hk' as [_ Hk']. apply Z.eqb_eq in Hk, Hk'. congruence.
  - eapply FOP_perm; [|symmetry; exact P|].
    { intros x y H k k' Hk Hk' E. eapply H; eauto. }
    clear P SS. pose proof (NoDup_zseq 0 (Z.to_nat size)) as ND. fold (zrange size) in ND. induction ND as [|i l NI ND IH]; cbn [map]; constructor; auto.
    apply Forall_forall. intros b Hb k k' Hk Hk' E. apply in_map_iff in Hb as (j & <- & Hj).
    unfold bucketOf in *. apply filter_In in Hk as [_ Hk], Hk' as [_ Hk']. apply Z.eqb_eq in Hk, Hk'. congruence.
  - intros b Hb k Hk. eapply Permutation_in in Hb; [|exact P]. apply in_map_iff in Hb as (i & <- & _).
    unfold bucketOf in Hk. apply filter_In in Hk as [Hk _]. unfold keys in Hk. apply in_map_iff in Hk as ((k', v) & <- & H). eauto.
  - intros k Hk. exists (bucketOf keys (addr k)). split.
    + eapply Permutation_in; [symmetry; exact P|]. apply in_map. apply zrange_In. apply addr_range.
    + unfold bucketOf. apply filter_In. split; auto. apply Z.eqb_refl.
Qed.

(** *** The search loop *)
Definition slotOf (h : Z) (k : K) : Z := hsh h k mod size.
Lemma firstn_snoc {A} (l : list A) i x : nth_error l i = Some x -> firstn (S i) l = firstn i l ++ [x].
Proof.
  revert i. induction l as [|a l IH]; intros [|i] E; try discriminate; cbn in *; [congruence|]. now rewrite (IH i E).
Qed.
Lemma search_ok fuel V bucket : length V = n -> forall hval item slots, 1 <= hval < 2 ^ 31 -> (item <= length bucket)%nat ->
  slots = map (slotOf hval) (firstn item bucket) -> NoDup slots -> (forall s, In s slots -> zget V s = Some (-1)) ->
  ok (search K hsh fuel size V bucket hval item slots) (fun r => let '(h, sl) := r in
     1 <= h < 2 ^ 31 /\ sl = map (slotOf h) bucket /\ NoDup sl /\ (forall s, In s sl -> zget V s = Some (-1))).
Proof.
  intros LV. induction fuel as [|f IH]; intros hval item slots HV LI ES ND FR; cbn [search].
  - destruct (Nat.ltb_spec item (length bucket)); [exact I|]. cbn [ok]. rewrite firstn_all2 in ES by lia. auto.
  - destruct (Nat.ltb_spec item (length bucket)).
    2: { cbn [ok]. rewrite firstn_all2 in ES by lia. auto. }
    destruct (nth_error bucket item) as [k|] eqn:Ek. 2: { apply nth_error_None in Ek. lia. }
    cbn [ofo rbind]. fold (slotOf hval k). pose proof (addr_range hval k) as R. fold (slotOf hval k) in R.
    destruct (zget V (slotOf hval k)) as [v|] eqn:Ev. 2: { destruct (zget_some V (slotOf hval k)) as [v Ev']; [lia|congruence]. }
    cbn [ofo rbind]. destruct (negb (v =? -1) || existsb (Z.eqb (slotOf hval k)) slots) eqn:B.
    + destruct (Z.ltb_spec (hval + 1) (2 ^ 31)); [|exact I]. apply IH; auto; try lia; try constructor. intros s [].
    + apply orb_false_iff in B as [B1 B2]. apply negb_false_iff, Z.eqb_eq in B1. subst v.
      apply IH; auto.
      * rewrite ES, (firstn_snoc _ _ _ Ek), map_app. reflexivity.
      * assert (NI : ~ In (slotOf hval k) slots).
        { intros HI. assert (existsb (Z.eqb (slotOf hval k)) slots = true); [|congruence]. apply existsb_exists. exists (slotOf hval k). split; auto. apply Z.eqb_refl. }
        clear - ND NI. induction slots as [|s l IHl]; cbn [app]; [constructor; [intros []|constructor]|].
        inversion ND; subst. constructor. 
        -- intros HI. apply in_app_or in HI as [?|[?|[]]]; auto. subst. apply NI. now left.
        -- apply IHl; auto. intros H. apply NI. now right.
      * intros s HI. apply in_app_or in HI as [?|[<-|[]]]; auto.
Qed.

Lemma place_ok h bucket : forall V, length V = n -> NoDup (map (slotOf h) bucket) -> (forall s, In s (map (slotOf h) bucket) -> zget V s = Some (-1)) ->
  (forall k, In k bucket -> exists v, In (k, v) dict) ->
  ok (place K keq dict V (map (slotOf h) bucket) bucket) (fun V' => length V' = n /\ used V' = (used V + length bucket)%nat /\
    (forall k v, In k bucket -> In (k, v) dict -> zget V' (slotOf h k) = Some v) /\
    (forall s, ~ In s (map (slotOf h) bucket) -> zget V' s = zget V s)).
Proof.
  induction bucket as [|k b IH]; intros V LV ND FR IN; cbn [place map].
  - cbn [ok length]. split; auto. split; [lia|]. split; [intros ? ? []|]. auto.
  - destruct (IN k (or_introl eq_refl)) as (v & Hv). rewrite (at_in k v Hv). cbn [rbind].
    pose proof (addr_range h k) as R. fold (slotOf h k) in R. rewrite zset_some by lia. cbn [ofo rbind].
    pose proof (FR (slotOf h k) (or_introl eq_refl)) as F0. inversion ND as [|? ? NI ND']; subst.
    assert (GV : forall s, zget (upd (Z.to_nat (slotOf h k)) v V) s = if s =? slotOf h k then Some v else zget V s).
    { intros s. apply zget_upd. lia. }
    eapply ok_mono; [apply IH|]; auto.
    + now rewrite upd_length.
    + intros s Hs. rewrite GV. destruct (Z.eqb_spec s (slotOf h k)) as [->|N]; [contradiction|]. apply FR. now right.
    + intros k' Hk'. apply IN. now right.
    + intros V' (L' & U' & H1 & H2). split; auto. split.
      { rewrite U'. rewrite used_upd; [cbn [length]; lia| |pose proof (vals _ _ Hv); lia]. rewrite <- zget_spec; auto; lia. }
      split.
      * intros k' v' [<-|Hk'] Hv'.
        -- rewrite H2 by auto. rewrite GV, Z.eqb_refl.
           pose proof (at_in k v Hv) as E1. rewrite (at_in k v' Hv') in E1. congruence.
        -- apply H1; auto.
      * intros s Hs. rewrite H2 by (intros ?; apply Hs; now right). rewrite GV. destruct (Z.eqb_spec s (slotOf h k)) as [->|N]; auto.
        exfalso. apply Hs. now left.
Qed.

(** *** Invariant *)
Record inv (P : list (list K)) (G V : list Z) : Prop := {
  i_G : length G = n;
  i_V : length V = n;
  i_used : used V = sumlen P;
  i_vals : forall s v, zget V s = Some v -> v = -1 \/ exists k, In (k, v) dict;
  i_Gv : forall a d, zget G a = Some d -> 0 <= d < 2 ^ 31 \/ 0 <= - d - 1 < size;
  i_find : forall b k v, In b P -> In k b -> In (k, v) dict ->
     exists d, zget G (addr k) = Some d /\ zget V (if d <? 0 then - d - 1 else slotOf d k) = Some v
}.
Lemma inv_start : inv [] (repeat 0 n) (repeat (-1) n).
Proof.
  constructor; rewrite ?repeat_length; auto.
  - unfold used, sumlen. cbn. clear. induction n; cbn; auto.
  - intros s v H. left. apply zget_inI in H. now apply repeat_spec in H.
  - intros a d H. left. apply zget_inI in H. apply repeat_spec in H. lia.
  - intros b k v [].
Qed.

Lemma FOP_app {A} (R : A -> A -> Prop) P x r : ForallOrdPairs R (P ++ x :: r) -> forall p, In p P -> R p x.
Proof.
  induction P as [|q P IH]; intros F p Hp; [destruct Hp|]. cbn [app] in F. inversion F as [|? ? F1 F2]; subst.
  destruct Hp as [->|Hp]; [|auto]. rewrite Forall_forall in F1. apply F1. apply in_or_app. right. now left.
Qed.

Lemma zget_upd' (L : list Z) a v i : 0 <= a < Z.of_nat (length L) -> zget (upd (Z.to_nat a) v L) i = if i =? a then Some v else zget L i.
Proof. intros H. now apply zget_upd. Qed.

(** a bucket placed at address [addr b0] with displacement [d] *)
Lemma inv_step P G V b0 br rest d V' : good (P ++ (b0 :: br) :: rest) -> inv P G V ->
  (0 <= d < 2 ^ 31 \/ 0 <= - d - 1 < size) -> length V' = n -> used V' = (used V + length (b0 :: br))%nat ->
  (forall s v, zget V s = Some v -> v <> -1 -> zget V' s = Some v) ->
  (forall s v, zget V' s = Some v -> v = -1 \/ exists k, In (k, v) dict) ->
  (forall k v, In k (b0 :: br) -> In (k, v) dict -> zget V' (if d <? 0 then - d - 1 else slotOf d k) = Some v) ->
  inv (P ++ [b0 :: br]) (upd (Z.to_nat (addr b0)) d G) V'.
Proof.
  intros GD I D LV U KEEP VL NEW. pose proof (addr_range 0 b0) as R. fold (addr b0) in R.
  assert (GU : forall a, zget (upd (Z.to_nat (addr b0)) d G) a = if a =? addr b0 then Some d else zget G a).
  { intros a. apply zget_upd'. rewrite (i_G _ _ _ I). lia. }
  constructor; auto.
  - rewrite upd_length. apply (i_G _ _ _ I).
  - rewrite sumlen_app, sumlen_cons, U, (i_used _ _ _ I). change (sumlen (@nil (list K))) with 0%nat. lia.
  - intros a e H. rewrite GU in H. destruct (a =? addr b0); [injection H as <-; auto|]. eapply (i_Gv _ _ _ I); eauto.
  - intros b k v Hb Hk Hv. rewrite GU. apply in_app_or in Hb as [Hb|[<-|[]]].
    + destruct (Z.eqb_spec (addr k) (addr b0)) as [E|E].
      { exfalso. pose proof (FOP_app _ _ _ _ (g_sep _ GD) b Hb) as S0. apply (S0 k b0); auto. now left. }
      destruct (i_find _ _ _ I b k v Hb Hk Hv) as (e & E1 & E2). exists e. split; auto. apply KEEP; auto. pose proof (vals _ _ Hv). lia.
    + assert (E : addr k = addr b0). { eapply (g_addr _ GD); eauto; [apply in_or_app; right; now left|now left]. }
      rewrite E, Z.eqb_refl. exists d. split; auto.
Qed.

Lemma SS_app {A} (R : A -> A -> Prop) l m : StronglySorted R (l ++ m) -> StronglySorted R m /\ forall x y, In x l -> In y m -> R x y.
Proof.
  induction l as [|a l IH]; intros H; cbn [app] in H; [split; [auto|intros ? ? []]|].
  inversion H as [|? ? H1 H2]; subst. destruct (IH H1) as [S1 S2]. split; auto. intros x y [<-|Hx] Hy; auto.
  rewrite Forall_forall in H2. apply H2. apply in_or_app. now right.
Qed.

Lemma loop1_ok fuel bs : forall P G V, good (P ++ bs) -> inv P G V ->
  ok (loop1 K hsh keq fuel size dict bs G V) (fun r => let '(rest, G', V') := r in
     exists P', P ++ bs = P' ++ rest /\ inv P' G' V' /\ Forall (fun b => (length b <= 1)%nat) rest).
Proof.
  induction bs as [|b rest IH]; intros P G V GD I; cbn [loop1].
  - cbn [ok]. exists P. auto.
  - assert (STOP : (length b <= 1)%nat -> Forall (fun b => (length b <= 1)%nat) (b :: rest)).
    { intros L. destruct (SS_app _ _ _ (g_sort _ GD)) as [S1 _]. inversion S1 as [|? ? S2 S3]; subst. constructor; auto.
      rewrite Forall_forall in *. intros x Hx. specialize (S3 x Hx). cbn in S3. lia. }
    destruct b as [|b0 [|b1 br]]; [cbn [ok]; exists P; auto|cbn [ok]; exists P; auto|].
    set (b := b0 :: b1 :: br) in *.
    eapply ok_bind; [apply search_ok; auto|].
    + apply (i_V _ _ _ I).
    + lia.
    + lia.
    + constructor.
    + intros s [].
    + intros [h sl] (HR & -> & ND & FR). cbn [fst snd].
      pose proof (addr_range 0 b0) as R. fold (addr b0) in *. rewrite zset_some by (rewrite (i_G _ _ _ I); lia). cbn [ofo rbind].
      eapply ok_bind; [apply place_ok; auto|].
      * apply (i_V _ _ _ I).
      * intros k Hk. eapply (g_in _ GD); eauto. apply in_or_app. right. now left.
      * intros V' (LV & U & H1 & H2).
        assert (I' : inv (P ++ [b]) (upd (Z.to_nat (addr b0)) h G) V').
        { eapply inv_step; eauto.
          - lia.
          - intros s v Hs N. rewrite H2; auto. intros HI. specialize (FR s HI). congruence.
          - intros s v Hs. destruct (in_dec Z.eq_dec s (map (slotOf h) b)) as [HI|HI].
            + apply in_map_iff in HI as (k & <- & Hk). assert (exists v', In (k, v') dict) as (v' & Hv').
              { eapply (g_in _ GD); eauto. apply in_or_app. right. now left. }
              rewrite (H1 k v' Hk Hv') in Hs. injection Hs as <-. eauto.
            + rewrite H2 in Hs by auto. eapply (i_vals _ _ _ I); eauto.
          - intros k v Hk Hv. destruct (Z.ltb_spec h 0); [lia|]. auto. }
        destruct rest as [|c rest'].
        -- (* every bucket has at least two keys: impossible *)
           exfalso. destruct (SS_app _ _ _ (g_sort _ GD)) as [_ S2].
           assert (A2 : forall x, In x (P ++ [b]) -> (2 <= length x)%nat).
           { intros x Hx. apply in_app_or in Hx as [Hx|[<-|[]]]; [|cbn; lia]. specialize (S2 x b Hx (or_introl eq_refl)). cbn in S2. lia. }
           pose proof (g_len _ GD) as GL. pose proof (g_sum _ GD) as GS.
           assert (forall l : list (list K), (forall x, In x l -> (2 <= length x)%nat) -> (2 * length l <= sumlen l)%nat) as LE.
           { induction l as [|x l IHl]; intros HA; [unfold sumlen; cbn; lia|]. rewrite sumlen_cons. cbn [length].
             pose proof (HA x (or_introl eq_refl)). assert (2 * length l <= sumlen l)%nat by (apply IHl; intros; apply HA; now right). lia. }
           specialize (LE _ A2). lia.
        -- assert (EQ : P ++ b :: c :: rest' = (P ++ [b]) ++ c :: rest') by (rewrite <- app_assoc; reflexivity).
           rewrite EQ in *. apply IH; auto.
Qed.

Lemma empties (l : list (list K)) : Forall (fun b => length b = 0)%nat l -> sumlen l = 0%nat.
Proof. induction 1; [reflexivity|]. rewrite sumlen_cons. lia. Qed.

Lemma loop2_ok bs : forall P G V free, good (P ++ bs) -> inv P G V -> Forall (fun b => (length b <= 1)%nat) bs ->
  NoDup free -> (forall s, In s free -> 0 <= s < size /\ zget V s = Some (-1)) -> length free = sumlen bs ->
  ok (loop2 K hsh keq size dict bs free G V) (fun r => inv (P ++ bs) (fst r) (snd r)).
Proof.
  induction bs as [|b rest IH]; intros P G V free GD I LE ND FR LF; cbn [loop2].
  - cbn [ok fst snd]. now rewrite app_nil_r.
  - destruct b as [|b0 br].
    + cbn [ok fst snd]. destruct (SS_app _ _ _ (g_sort _ GD)) as [S1 _]. inversion S1 as [|? ? S2 S3]; subst.
      assert (E0 : Forall (fun b : list K => length b = 0)%nat ([] :: rest)).
      { constructor; auto. rewrite Forall_forall in *. intros x Hx. specialize (S3 x Hx). cbn in S3. lia. }
      constructor; try apply I.
      * rewrite sumlen_app, (empties _ E0), (i_used _ _ _ I). lia.
      * intros b k v Hb Hk Hv. apply in_app_or in Hb as [Hb|Hb]; [eapply (i_find _ _ _ I); eauto|].
        rewrite Forall_forall in E0. specialize (E0 b Hb). destruct b; [destruct Hk|discriminate].
    + inversion LE as [|? ? LB LE']; subst. destruct br as [|b1 br]; [|cbn in LB; lia].
      rewrite sumlen_cons in LF. cbn [length] in LF. destruct free as [|slot free]; [cbn in LF; lia|].
      pose proof (addr_range 0 b0) as R. fold (addr b0) in *. rewrite zset_some by (rewrite (i_G _ _ _ I); lia). cbn [ofo rbind].
      destruct (g_in _ GD [b0] ltac:(apply in_or_app; right; now left) b0 ltac:(now left)) as (v & Hv).
      rewrite (at_in _ _ Hv). cbn [rbind]. destruct (FR slot (or_introl eq_refl)) as [SR SV].
      rewrite zset_some by (rewrite (i_V _ _ _ I); lia). cbn [ofo rbind].
      assert (GV : forall s, zget (upd (Z.to_nat slot) v V) s = if s =? slot then Some v else zget V s).
      { intros s. apply zget_upd'. rewrite (i_V _ _ _ I). lia. }
      inversion ND as [|? ? NI ND']; subst.
      assert (I' : inv (P ++ [[b0]]) (upd (Z.to_nat (addr b0)) (- slot - 1) G) (upd (Z.to_nat slot) v V)).
      { eapply inv_step; eauto.
        - lia.
        - rewrite upd_length. apply (i_V _ _ _ I).
        - rewrite used_upd; [cbn [length]; lia| |pose proof (vals _ _ Hv); lia]. rewrite <- zget_spec; auto; lia.
        - intros s w Hs N. rewrite GV. destruct (Z.eqb_spec s slot); congruence.
        - intros s w Hs. rewrite GV in Hs. destruct (Z.eqb_spec s slot); [injection Hs as <-; eauto|]. eapply (i_vals _ _ _ I); eauto.
        - intros k w [<-|[]] Hw. destruct (Z.ltb_spec (- slot - 1) 0); [|lia]. replace (- (- slot - 1) - 1) with slot by lia.
          rewrite GV, Z.eqb_refl. pose proof (at_in _ _ Hv) as E1. rewrite (at_in _ _ Hw) in E1. congruence. }
      assert (EQ : P ++ [b0] :: rest = (P ++ [[b0]]) ++ rest) by (rewrite <- app_assoc; reflexivity).
      rewrite EQ in *. apply IH; auto.
      intros s Hs. destruct (FR s (or_intror Hs)) as [SR' SV']. split; auto. rewrite GV. destruct (Z.eqb_spec s slot) as [->|]; [contradiction|auto].
Qed.

Variable sortB : list (list K) -> list (list K).
Hypothesis sort_ok : forall bs, Permutation (sortB bs) bs /\ StronglySorted (fun a b => (length b <= length a)%nat) (sortB bs).

Definition table (G V : list Z) : Prop :=
  length G = n /\ length V = n /\
  (forall s, 0 <= s < size -> exists k v, zget V s = Some v /\ In (k, v) dict) /\
  (forall a d, zget G a = Some d -> 0 <= d < 2 ^ 31 \/ 0 <= - d - 1 < size) /\
  (forall k v, In (k, v) dict -> exists d, zget G (addr k) = Some d /\ zget V (if d <? 0 then - d - 1 else slotOf d k) = Some v).

Lemma free_len V : length V = n -> length (filter (fun i => match zget V i with Some v => v =? -1 | None => false end) (zrange size)) = (n - used V)%nat.
Proof.
  intros LV. 
  assert (G : forall W a, length (filter (fun i => match zget W (i - a) with Some v => v =? -1 | None => false end) (zseq a (length W))) = length (filter (fun v => v =? -1) W)).
  { induction W as [|x W IH]; intros a; cbn [length zseq filter]; auto. rewrite Z.sub_diag. cbn [zget]. 
    replace (zget (x :: W) 0) with (Some x) by reflexivity.
    assert (E : filter (fun i => match zget (x :: W) (i - a) with Some v => v =? -1 | None => false end) (zseq (a + 1) (length W)) =
                filter (fun i => match zget W (i - (a + 1)) with Some v => v =? -1 | None => false end) (zseq (a + 1) (length W))).
    { apply filter_ext_in. intros i Hi. apply zseq_In in Hi. rewrite !zget_spec by lia.
      replace (Z.to_nat (i - a)) with (S (Z.to_nat (i - (a + 1)))) by lia. reflexivity. }
    rewrite E. destruct (x =? -1); cbn [length]; rewrite IH; reflexivity. }
  specialize (G V 0). unfold zrange. rewrite Nat2Z.id, <- LV.
  rewrite (filter_ext _ (fun i => match zget V (i - 0) with Some v => v =? -1 | None => false end)) by (intros i; now rewrite Z.sub_0_r).
  rewrite G. unfold used. pose proof (filter_pred_len (fun v => v =? -1) V). lia.
Qed.

Theorem create_ok fuel : ok (createPerfectHash K hsh keq sortB fuel dict) (fun r => table (fst r) (snd r)).
Proof.
  unfold createPerfectHash. destruct dict as [|p0 d0] eqn:ED; [cbn in npos; lia|]. rewrite <- ED in *.
  fold keys. rewrite mkBuckets_eq. cbn [ofo rbind].
  destruct (sort_ok (map (bucketOf keys) (zrange size))) as [SP SS].
  set (bs := sortB _) in *. assert (GD : good bs) by (apply good_buckets; auto).
  eapply ok_bind; [apply (loop1_ok fuel bs []); auto; apply inv_start|].
  intros [[rest G] V] (P & E & I & LE). cbn [app] in E.
  eapply ok_mono; [apply (loop2_ok rest P); auto|].
  - now rewrite <- E.
  - apply NoDup_rev. apply NoDup_filter. apply NoDup_zseq.
  - intros s Hs. apply in_rev in Hs. apply filter_In in Hs as [H1 H2]. apply zrange_In in H1. split; auto.
    destruct (zget V s) as [v|]; [|discriminate]. apply Z.eqb_eq in H2. now subst.
  - rewrite rev_length, free_len by apply (i_V _ _ _ I). rewrite (i_used _ _ _ I).
    pose proof (g_sum _ GD) as GS. rewrite E, sumlen_app in GS. lia.
  - intros [G' V'] I'. cbn [fst snd] in *. rewrite <- E in I'. unfold table.
    split; [apply I'|]. split; [apply I'|]. split; [|split].
    + intros s Hs. destruct (zget_some V' s) as [v Hv]; [rewrite (i_V _ _ _ I'); lia|].
      destruct (i_vals _ _ _ I' s v Hv) as [->|(k & Hk)]; [|eauto].
      exfalso. eapply (used_full V'); eauto. rewrite (i_used _ _ _ I'), (g_sum _ GD), (i_V _ _ _ I'). reflexivity.
    + apply I'.
    + intros k v Hv. destruct (g_all _ GD k) as (b & Hb & Hk). { unfold keys. apply in_map_iff. exists (k, v). auto. }
      eapply (i_find _ _ _ I'); eauto.
Qed.
End Proofs.
