(** Proofs about the sorting of nodes. *)
From Coq Require Import String List Bool Arith ZArith Lia Permutation Sorted.
From Verif Require Import Util NodeOrderModel NodeOrderSpec.
Import ListNotations.
Open Scope list_scope.

Lemma mem_in x l : mem x l = true <-> In x l.
Proof. unfold mem. rewrite existsb_exists. split; [intros (y & H & E); apply String.eqb_eq in E; now subst|]. intros H. exists x. split; [auto|apply String.eqb_refl]. Qed.

Lemma NoDup_snoc {A} (l : list A) x : NoDup l -> ~ In x l -> NoDup (l ++ [x]).
Proof. induction l as [|y l IH]; cbn; intros H1 H2; [constructor; auto; constructor|]. inversion H1; subst. constructor; [rewrite in_app_iff; cbn; intuition congruence|]. apply IH; tauto. Qed.

(** ** The multiset *)
Lemma insert_in v q k : In k (insert v q) <-> k = v \/ In k q.
Proof. induction q as [|w q IH]; cbn; [intuition|]. destruct (Nat.leb_spec v w); cbn; [intuition|]. rewrite IH. intuition. Qed.
Lemma insert_nodup v q : ~ In v q -> NoDup q -> NoDup (insert v q).
Proof.
  induction q as [|w q IH]; cbn; intros H ND; [constructor; auto|]. destruct (Nat.leb_spec v w); [now constructor|]. inversion ND; subst. constructor; [rewrite insert_in; intuition|]. apply IH; tauto.
Qed.
Lemma insert_sorted v q : StronglySorted le q -> StronglySorted le (insert v q).
Proof.
  induction q as [|w q IH]; cbn; intros H; [constructor; constructor|]. inversion H as [|? ? H1 H2]; subst. destruct (Nat.leb_spec v w).
  - constructor; [auto|]. constructor; [auto|]. eapply Forall_impl; [|exact H2]. cbn. intros; lia.
  - constructor; [auto|]. apply Forall_forall. intros k Hk. apply insert_in in Hk as [->|Hk]; [lia|]. rewrite Forall_forall in H2. auto.
Qed.
Lemma initial_ok n D : (forall k, In k (initial n D) <-> (k < n)%nat /\ D k = 0%Z) /\ NoDup (initial n D) /\ StronglySorted le (initial n D).
Proof.
  unfold initial.
  assert (G : forall l q, NoDup (l ++ q) -> StronglySorted le q -> let r := fold_left (fun q i => if (D i =? 0)%Z then insert i q else q) l q in
    (forall k, In k r <-> In k q \/ (In k l /\ D k = 0%Z)) /\ NoDup r /\ StronglySorted le r).
  { induction l as [|i l IH]; intros q ND SS; cbn; [split; [intuition|auto]|]. cbn in ND. inversion ND as [|? ? H1 H2]; subst. destruct (Z.eqb_spec (D i) 0) as [E|E].
    - destruct (IH (insert i q)) as (A & B & C); [|now apply insert_sorted|].
      { clear - H1 H2. induction l as [|x l IH]; cbn in *; [apply insert_nodup; auto|]. inversion H2; subst. constructor; [|apply IH; tauto]. rewrite in_app_iff, insert_in in *. intuition. }
      split; [|auto]. intros k. rewrite A, insert_in. intuition; subst; auto.
    - destruct (IH q) as (A & B & C); [auto|auto|]. split; [|auto]. intros k. rewrite A. intuition; subst; tauto. }
  destruct (G (seq 0 n) []) as (A & B & C); [rewrite app_nil_r; apply seq_NoDup|constructor|]. split; [|auto]. intros k. rewrite A, in_seq. cbn. intuition lia.
Qed.

(** ** Releasing the users of a node *)
Lemma release_ok vs : forall D q D' q', release vs D q = (D', q') -> (forall v, In v q -> (D v <= 0)%Z) -> NoDup q -> StronglySorted le q ->
  (forall v, D' v = D v - Z.of_nat (count_occ Nat.eq_dec vs v))%Z /\ (forall v, In v q' <-> In v q \/ (0 < D v <= Z.of_nat (count_occ Nat.eq_dec vs v))%Z) /\ NoDup q' /\ StronglySorted le q' .
Proof.
  induction vs as [|u vs IH]; cbn [release]; intros D q D' q' E HQ ND SS.
  - injection E as <- <-. cbn. split; [intros; lia|]. split; [intros; intuition lia|auto].
  - apply IH in E as (A & B & C & F).
    + split; [|split; [|auto]].
      * intros v. rewrite A. cbn [count_occ]. destruct (Nat.eqb_spec v u) as [->|Q]; [destruct (Nat.eq_dec u u); [lia|congruence]|]. destruct (Nat.eq_dec u v); [congruence|lia].
      * intros v. rewrite B. cbn [count_occ]. destruct (Nat.eqb_spec v u) as [->|Q].
        -- destruct (Nat.eq_dec u u); [|congruence]. destruct (Z.eqb_spec (D u - 1) 0) as [Z0|Z0]; [rewrite insert_in; intuition lia|]. intuition lia.
        -- destruct (Nat.eq_dec u v); [congruence|]. destruct (Z.eqb_spec (D u - 1) 0); [rewrite insert_in; intuition; congruence|]. tauto.
    + intros v Hv. destruct (Nat.eqb_spec v u) as [->|Q].
      * destruct (Z.eqb_spec (D u - 1) 0); [lia|]. specialize (HQ u Hv). lia.
      * destruct (Z.eqb_spec (D u - 1) 0); [apply insert_in in Hv as [->|Hv]; [tauto|auto]|auto].
    + destruct (Z.eqb_spec (D u - 1) 0); [|auto]. apply insert_nodup; auto. intros HI. specialize (HQ u HI). lia.
    + destruct (Z.eqb_spec (D u - 1) 0); [now apply insert_sorted|auto].
Qed.
Lemma count_const {A} (f : A -> nat) l i v : (forall x, f x = i) -> count_occ Nat.eq_dec (map f l) v = if Nat.eqb v i then length l else 0%nat.
Proof. intros H. induction l as [|x l IH]; cbn; [now destruct (Nat.eqb v i)|]. rewrite H. destruct (Nat.eq_dec i v), (Nat.eqb_spec v i); try congruence; rewrite IH; lia. Qed.
Lemma filter_count u ps : length (filter (Nat.eqb u) ps) = count_occ Nat.eq_dec ps u.
Proof. induction ps as [|p ps IH]; cbn; auto. destruct (Nat.eqb_spec u p), (Nat.eq_dec p u); cbn; congruence. Qed.
Lemma users_count pars : forall i u v, count_occ Nat.eq_dec (users i pars u) v = if (i <=? v)%nat then count_occ Nat.eq_dec (nth (v - i) pars []) u else 0%nat.
Proof.
  induction pars as [|ps pars IH]; intros i u v; cbn [users].
  - cbn. destruct (i <=? v)%nat; auto. now destruct (v - i)%nat.
  - rewrite count_occ_app, (count_const _ _ i) by auto. rewrite IH, filter_count. destruct (Nat.eqb_spec v i) as [->|Q].
    + rewrite Nat.leb_refl, Nat.sub_diag. destruct (Nat.leb_spec (S i) i); [lia|]. cbn. lia.
    + destruct (Nat.leb_spec (S i) v), (Nat.leb_spec i v); try lia. replace (v - i)%nat with (S (v - S i)) by lia. cbn. lia.
Qed.

(** ** The loop *)
Section Kahn.
Context (pars : list (list nat)) (n : nat) (HL : length pars = n).
(** How many parents of [v] are missing. *)
Definition missing (done : list nat) (v : nat) : nat := length (filter (fun p => negb (existsb (Nat.eqb p) done)) (nth v pars [])).
Lemma exb p l : existsb (Nat.eqb p) l = true <-> In p l.
Proof. rewrite existsb_exists. split; [intros (y & H & E); apply Nat.eqb_eq in E; now subst|]. intros H. exists p. split; [auto|apply Nat.eqb_refl]. Qed.
Lemma missing_snoc done u v : ~ In u done -> missing done v = (missing (done ++ [u]) v + count_occ Nat.eq_dec (nth v pars []) u)%nat.
Proof.
  intros H. unfold missing. induction (nth v pars []) as [|p l IH]; auto. cbn [filter count_occ]. rewrite existsb_app. cbn [existsb]. rewrite orb_false_r. destruct (Nat.eq_dec p u) as [->|Q].
  - destruct (existsb (Nat.eqb u) done) eqn:E; [apply exb in E; tauto|]. rewrite Nat.eqb_refl. cbn [negb orb length]. rewrite IH. lia.
  - destruct (Nat.eqb_spec p u); [congruence|]. rewrite orb_false_r. destruct (existsb (Nat.eqb p) done); cbn [negb length]; rewrite IH; lia.
Qed.
Lemma missing_0 done v : missing done v = 0%nat <-> incl (nth v pars []) done.
Proof.
  unfold missing, incl. induction (nth v pars []) as [|p l IH]; [cbn; intuition|]. cbn [filter]. destruct (existsb (Nat.eqb p) done) eqn:E; cbn [negb length].
  - apply exb in E. rewrite IH. cbn. intuition; subst; auto.
  - split; [lia|]. intros H. assert (In p done) by (apply H; cbn; auto). apply exb in H0. congruence.
Qed.

(** Every node comes after its parents. *)
Definition topological (l : list nat) : Prop := forall a v b, l = a ++ v :: b -> incl (nth v pars []) a.
Record inv (D : nat -> Z) (q done : list nat) : Prop := {
  i_deg : forall v, D v = Z.of_nat (missing done v);
  i_q : forall v, In v q <-> (v < n)%nat /\ ~ In v done /\ missing done v = 0%nat;
  i_nd : NoDup q;
  i_ss : StronglySorted le q;
  i_done : NoDup done;
  i_lt : forall v, In v done -> (v < n)%nat;
  i_top : topological done;
  (* the greedy choice: any other way to go on from a prefix is larger *)
  i_min : forall a u b w, done = a ++ u :: b -> (w < n)%nat -> ~ In w a -> incl (nth w pars []) a -> (u <= w)%nat }.

Lemma topological_snoc l u : topological l -> incl (nth u pars []) l -> topological (l ++ [u]).
Proof.
  intros H1 H2 a v b E. destruct b as [|y b] using rev_ind; [apply app_inj_tail in E as [<- <-]; auto|]. rewrite app_comm_cons, app_assoc in E. apply app_inj_tail in E as [E _]. eapply H1; eauto.
Qed.
Lemma kahn_ok fuel : forall D q done, inv D q done -> (n <= fuel + length done)%nat ->
  exists D' order, kahn fuel pars D q done = Some order /\ inv D' [] order.
Proof.
  induction fuel as [|fuel IH]; intros D q done I HF; destruct q as [|u q].
  - exists D, done. auto.
  - exfalso. assert (L : (length (u :: done) <= n)%nat).
    { rewrite <- (seq_length n 0). apply NoDup_incl_length; [constructor; [|apply I]; apply (i_q _ _ _ I); cbn; auto|]. intros k [<-|Hk]; apply in_seq; [|apply (i_lt _ _ _ I) in Hk; lia]. assert (u < n)%nat by (apply (i_q _ _ _ I); cbn; auto). lia. }
    cbn in L. lia.
  - exists D, done. auto.
  - cbn [kahn]. destruct (release (users 0 pars u) D q) as [D' q'] eqn:ER. pose proof (i_nd _ _ _ I) as ND. pose proof (i_ss _ _ _ I) as SS. inversion ND as [|? ? ND1 ND2]; subst. inversion SS as [|? ? SS1 SS2]; subst.
    destruct (proj1 (i_q _ _ _ I u) (or_introl eq_refl)) as (U1 & U2 & U3).
    apply release_ok in ER as (A & B & C & F); [| |auto|auto].
    2:{ intros v Hv. rewrite (i_deg _ _ _ I). assert (missing done v = 0)%nat by (apply (i_q _ _ _ I); cbn; auto). lia. }
    assert (UC : forall v, count_occ Nat.eq_dec (users 0 pars u) v = count_occ Nat.eq_dec (nth v pars []) u) by (intros v; rewrite users_count; cbn; now rewrite Nat.sub_0_r).
    assert (UU : count_occ Nat.eq_dec (nth u pars []) u = 0%nat).
    { apply count_occ_not_In. intros HI. apply U2. apply missing_0 in U3. auto. }
    apply IH; [|rewrite app_length; cbn; lia]. constructor.
    + intros v. rewrite A, UC, (i_deg _ _ _ I), (missing_snoc done u v U2). lia.
    + intros v. rewrite B, UC, (i_deg _ _ _ I). pose proof (missing_snoc done u v U2) as M. pose proof (i_q _ _ _ I v) as Q. cbn [In] in Q. rewrite in_app_iff. cbn [In]. split.
      * intros [HI|HI].
        -- destruct Q as [Q _]. destruct Q as (Q1 & Q2 & Q3); [auto|]. split; [auto|]. split; [|lia]. intros [HD|[->|[]]]; tauto.
        -- assert (HC : (count_occ Nat.eq_dec (nth v pars []) u > 0)%nat) by lia. split; [|split; [|lia]].
           ++ destruct (Nat.lt_ge_cases v (length pars)) as [LV|LV]; [lia|rewrite nth_overflow in HC by auto; cbn in HC; lia].
           ++ intros [HD|[->|[]]]; [|lia]. apply in_split in HD as (a & b & ->). pose proof (i_top _ _ _ I a v b eq_refl) as T. apply U2, in_app_iff. left. apply T. now apply (count_occ_In Nat.eq_dec).
      * intros (Q1 & Q2 & Q3). destruct (Nat.eq_dec (missing done v) 0) as [Z0|Z0]; [|right; lia]. left. destruct Q as [_ Q]. destruct Q as [Q|Q]; [tauto|subst; tauto|auto].
    + auto.
    + auto.
    + apply NoDup_snoc; [apply I|auto].
    + intros v Hv. apply in_app_iff in Hv as [Hv|[<-|[]]]; [now apply (i_lt _ _ _ I)|auto].
    + apply topological_snoc; [apply I|now apply missing_0].
    + intros a w b k E Hk HN HI. destruct b as [|y b] using rev_ind.
      * apply app_inj_tail in E as [<- <-]. assert (In k (u :: q)) as [->|HQ] by (apply (i_q _ _ _ I); split; [auto|]; split; [auto|now apply missing_0]); [lia|]. rewrite Forall_forall in SS2. auto.
      * rewrite app_comm_cons, app_assoc in E. apply app_inj_tail in E as [E _]. eapply (i_min _ _ _ I); eauto.
Qed.
Lemma kahn_start : exists D' order, kahn n pars (inDegrees pars) (initial n (inDegrees pars)) [] = Some order /\ inv D' [] order.
Proof.
  apply kahn_ok; [|cbn; lia]. destruct (initial_ok n (inDegrees pars)) as (A & B & C).
  assert (M : forall v, missing [] v = length (nth v pars [])).
  { intros v. unfold missing. induction (nth v pars []) as [|p l IH]; cbn in *; congruence. }
  constructor; auto.
  - intros v. unfold inDegrees. now rewrite M.
  - intros v. rewrite A, M. unfold inDegrees. cbn. intuition lia.
  - constructor.
  - intros v [].
  - intros a v b E. now destruct a.
  - intros a u b w E. now destruct a.
Qed.

(** A complete order is a permutation; an incomplete one means there is none. *)
Lemma inv_complete D order : inv D [] order -> length order = n -> Permutation order (seq 0 n).
Proof.
  intros I E. apply NoDup_Permutation_bis; [apply I|rewrite seq_length; lia|]. intros k Hk. apply in_seq. apply (i_lt _ _ _ I) in Hk. lia.
Qed.
Lemma inv_incomplete D order p : inv D [] order -> Permutation p (seq 0 n) -> topological p -> length order = n.
Proof.
  intros I HPm HT.
  assert (G : forall a b, p = a ++ b -> incl a order).
  { induction a as [|v a IH] using rev_ind; intros b E; [intros k []|]. rewrite <- app_assoc in E. cbn in E. specialize (IH _ E). intros k Hk. apply in_app_iff in Hk as [Hk|[<-|[]]]; [auto|].
    pose proof (HT a v b E) as HI. destruct (in_dec Nat.eq_dec v order) as [|HN]; [auto|]. exfalso. apply (proj2 (i_q _ _ _ I v)). split; [|split; [auto|apply missing_0; intros x Hx; auto]].
    assert (In v (seq 0 n)) by (eapply Permutation_in; [exact HPm|]; subst p; apply in_app_iff; cbn; auto). apply in_seq in H. lia. }
  apply Nat.le_antisymm.
  - rewrite <- (seq_length n 0). apply NoDup_incl_length; [apply I|]. intros k Hk. apply in_seq. apply (i_lt _ _ _ I) in Hk. lia.
  - rewrite <- (seq_length n 0), <- (Permutation_length HPm). apply NoDup_incl_length; [eapply Permutation_NoDup; [symmetry; exact HPm|apply seq_NoDup]|]. apply (G p []). now rewrite app_nil_r.
Qed.
Lemma inv_least D order p : inv D [] order -> length order = n -> Permutation p (seq 0 n) -> topological p -> lex_le order p.
Proof.
  intros I EL HPm HT.
  assert (G : forall b a c, order = a ++ b -> p = a ++ c -> lex_le b c).
  { induction b as [|u b IH]; intros a c E1 E2; [exact Logic.I|]. destruct c as [|w c].
    - assert (length p = n) by (rewrite (Permutation_length HPm); apply seq_length). subst. rewrite !app_length in *. cbn in *. lia.
    - cbn. assert (W : (u <= w)%nat).
      { apply (i_min _ _ _ I a u b w E1).
        - assert (In w (seq 0 n)) by (eapply Permutation_in; [exact HPm|]; subst p; apply in_app_iff; cbn; auto). apply in_seq in H. lia.
        - assert (ND : NoDup p) by (eapply Permutation_NoDup; [symmetry; exact HPm|apply seq_NoDup]). rewrite E2 in ND. apply NoDup_remove_2 in ND. intros HI. apply ND, in_app_iff. auto.
        - exact (HT a w c E2). }
      destruct (Nat.eq_dec u w) as [->|]; [right; split; [auto|]|left; lia]. apply (IH (a ++ [w])); rewrite <- app_assoc; auto. }
  apply (G order [] p); auto.
Qed.
End Kahn.

(** ** Moving the nodes *)
Lemma upd_app {A} (a : list A) x b v : upd (length a) v (a ++ x :: b) = a ++ v :: b.
Proof. induction a as [|y a IH]; cbn; [auto|]. now rewrite IH. Qed.
Lemma nth_app {A} (a : list A) x b : nth_error (a ++ x :: b) (length a) = Some x.
Proof. induction a; cbn; auto. Qed.
Lemma swap_app {A} (a : list A) x b y c : swapElements (a ++ x :: b ++ y :: c) (length a) (length a + S (length b)) = Some (a ++ y :: b ++ x :: c).
Proof.
  unfold swapElements. rewrite nth_app. cbn [obind].
  assert (L : (length a + S (length b))%nat = length (a ++ x :: b)) by (rewrite app_length; cbn; lia). assert (L' : length (a ++ x :: b) = length (a ++ y :: b)) by (rewrite !app_length; reflexivity).
  rewrite L. replace (a ++ x :: b ++ y :: c) with ((a ++ x :: b) ++ y :: c) at 1 by now rewrite <- app_assoc. rewrite nth_app. cbn [obind]. rewrite upd_app.
  replace (a ++ y :: b ++ y :: c) with ((a ++ y :: b) ++ y :: c) by now rewrite <- app_assoc. rewrite L', upd_app, <- app_assoc. reflexivity.
Qed.
Lemma upd_comm {A} (i j : nat) (a b : A) l : i <> j -> upd j a (upd i b l) = upd i b (upd j a l).
Proof. revert i j. induction l as [|x l IH]; intros [|i] [|j] H; cbn; auto; try congruence. now rewrite IH by lia. Qed.
Lemma swap_sym {A} (l : list A) i j : i <> j -> swapElements l i j = swapElements l j i.
Proof. intros H. unfold swapElements. destruct (nth_error l i), (nth_error l j); cbn; auto. now rewrite upd_comm. Qed.
Lemma index_in t l : In t l -> exists b c, l = b ++ t :: c /\ index t l = Some (length b).
Proof.
  induction l as [|x l IH]; intros H; [destruct H|]. cbn. destruct (Nat.eqb_spec t x) as [->|Q]; [exists [], l; auto|]. destruct H as [->|H]; [tauto|]. destruct (IH H) as (b & c & -> & E). exists (x :: b), c. rewrite E. auto.
Qed.
Lemma reorder_ok {N} (f : nat -> option N) top : forall res done rest ns, length done = res -> Permutation top rest -> map Some ns = map f (done ++ rest) ->
  exists l, reorder top res (done ++ rest) ns = Some l /\ map Some l = map f (done ++ top).
Proof.
  induction top as [|t top IH]; intros res done rest ns E HP HM.
  - apply Permutation_nil in HP as ->. exists ns. auto.
  - destruct rest as [|c rest]; [now apply Permutation_sym, Permutation_nil in HP|]. cbn [reorder]. rewrite <- E, nth_app. cbn [obind]. destruct (Nat.eqb_spec t c) as [->|Q].
    + apply Permutation_cons_inv in HP. destruct (IH (S (length done)) (done ++ [c]) rest ns) as (l & E1 & E2); [rewrite app_length; cbn; lia|auto|rewrite <- app_assoc; auto|]. rewrite <- app_assoc in E1, E2. cbn [app] in E1, E2. eauto.
    + assert (HI : In t rest). { assert (In t (c :: rest)) as [->|] by (eapply Permutation_in; [exact HP|cbn; auto]); [tauto|auto]. }
      destruct (index_in t rest HI) as (b & d & -> & EI).
      replace (skipn (S (length done)) (done ++ c :: b ++ t :: d)) with (b ++ t :: d).
      2:{ clear. induction done as [|x done IH]; [reflexivity|exact IH]. }
      rewrite EI. cbn [option_map]. replace (S (length done) + length b)%nat with (length done + S (length b))%nat by lia.
      rewrite (swap_sym (done ++ c :: b ++ t :: d)) by lia. rewrite swap_app.
      (* the nodes are moved in the same way *)
      assert (NS : exists na nc nb nt nd, ns = na ++ nc :: nb ++ nt :: nd /\ length na = length done /\ length nb = length b /\ map Some na = map f done /\ Some nc = f c /\ map Some nb = map f b /\ Some nt = f t /\ map Some nd = map f d).
      { rewrite map_app in HM. apply map_eq_app in HM as (na & r1 & -> & M1 & M2). cbn in M2. destruct r1 as [|nc r1]; [discriminate|]. cbn in M2. injection M2 as M2 M3. rewrite map_app in M3. apply map_eq_app in M3 as (nb & r2 & -> & M4 & M5). cbn in M5. destruct r2 as [|nt nd]; [discriminate|]. cbn in M5. injection M5 as M5 M6.
        exists na, nc, nb, nt, nd. repeat split; auto; [pose proof (f_equal (@length _) M1) as L; now rewrite !map_length in L|pose proof (f_equal (@length _) M4) as L; now rewrite !map_length in L]. }
      destruct NS as (na & nc & nb & nt & nd & -> & L1 & L2 & M1 & M2 & M3 & M4 & M5). rewrite <- L1, <- L2, swap_app. cbn [obind].
      destruct (IH (S (length done)) (done ++ [t]) (b ++ c :: d) (na ++ nt :: nb ++ nc :: nd)) as (l & E1 & E2).
      * rewrite app_length. cbn. lia.
      * apply (Permutation_cons_inv (a := t)). rewrite HP. transitivity (c :: t :: b ++ d); [apply perm_skip; symmetry; apply Permutation_middle|]. rewrite perm_swap. apply perm_skip, Permutation_middle.
      * rewrite <- app_assoc. rewrite !map_app. cbn [map app]. rewrite !map_app. cbn [map]. congruence.
      * rewrite <- app_assoc in E1, E2. cbn [app] in E1, E2. rewrite L1. eauto.
Qed.

(** ** Names *)
Section Names.
Context {N : Type} (ins outs : N -> list string).
Lemma isTop_ok nodes : forall known, isTopologicallySorted ins outs known nodes = true <-> in_order ins outs known nodes.
Proof.
  induction nodes as [|n nodes IH]; intros known; cbn.
  - split; [|auto]. intros _ a m b E. now destruct a.
  - rewrite andb_true_iff, forallb_forall, IH. split.
    + intros [H1 H2] a m b E x Hx. destruct a as [|y a]; cbn in E; injection E as <- ->.
      * left. apply mem_in. auto.
      * destruct (H2 a m b eq_refl x Hx) as [H|(k & K1 & K2)]; [apply in_app_iff in H as [H|H]; [auto|right; exists n; cbn; auto]|right; exists k; cbn; auto].
    + intros H. split.
      * intros x Hx. apply mem_in. destruct (H [] n nodes eq_refl x Hx) as [|(m & [] & _)]; auto.
      * intros a m b -> x Hx. rewrite in_app_iff. destruct (H (n :: a) m b eq_refl x Hx) as [|(k & [<-|K1] & K2)]; eauto.
Qed.

Lemma origIndex_some l : forall i x j, origIndex outs i l x = Some j -> exists n, (i <= j)%nat /\ nth_error l (j - i) = Some n /\ In x (outs n).
Proof.
  induction l as [|n l IH]; intros i x j H; cbn in H; [discriminate|]. destruct (origIndex outs (S i) l x) as [k|] eqn:E.
  - injection H as <-. apply IH in E as (m & H1 & H2 & H3). exists m. split; [lia|]. split; [|auto]. now replace (k - i)%nat with (S (k - S i)) by lia.
  - destruct (mem x (outs n)) eqn:M; [|discriminate]. injection H as <-. exists n. rewrite Nat.sub_diag. apply mem_in in M. auto.
Qed.
Lemma origIndex_none l : forall i x, origIndex outs i l x = None -> forall n, In n l -> ~ In x (outs n).
Proof.
  induction l as [|m l IH]; intros i x H n Hn; [destruct Hn|]. cbn in H. destruct (origIndex outs (S i) l x) eqn:E; [discriminate|]. destruct (mem x (outs m)) eqn:M; [discriminate|].
  destruct Hn as [->|Hn]; [|now apply (IH (S i))]. intros HI. apply mem_in in HI. congruence.
Qed.
Lemma parents_some idx free xs ps : parents idx free xs = Some ps -> (forall x, In x xs -> ~ In x free -> exists p, idx x = Some p /\ In p ps) /\ (forall p, In p ps -> exists x, In x xs /\ ~ In x free /\ idx x = Some p).
Proof.
  revert ps. induction xs as [|x xs IH]; cbn; intros ps H; [injection H as <-; split; [intros x []|intros p []]|]. destruct (mem x free) eqn:M.
  - destruct (IH ps H) as [A B]. apply mem_in in M. split; [intros y [<-|Hy] HF; [tauto|auto]|]. intros p Hp. destruct (B p Hp) as (y & Y). exists y. tauto.
  - destruct (idx x) as [p|] eqn:E; [|discriminate]. cbn in H. destruct (parents idx free xs) as [qs|]; [|discriminate]. cbn in H. injection H as <-. destruct (IH qs eq_refl) as [A B]. split.
    + intros y [<-|Hy] HF; [exists p; cbn; auto|]. destruct (A y Hy HF) as (q & Q1 & Q2). exists q. cbn. auto.
    + intros q [<-|Hq]; [exists x; split; [auto|]; split; [|auto]; intros HI; apply mem_in in HI; congruence|]. destruct (B q Hq) as (y & Y). exists y. tauto.
Qed.
Lemma parents_none idx free xs : parents idx free xs = None -> exists x, In x xs /\ ~ In x free /\ idx x = None.
Proof.
  induction xs as [|x xs IH]; cbn; intros H; [discriminate|]. destruct (mem x free) eqn:M.
  - destruct (IH H) as (y & Y). exists y. tauto.
  - destruct (idx x) as [p|] eqn:E; [|exists x; split; [auto|]; split; [|auto]; intros HI; apply mem_in in HI; congruence]. cbn in H. destruct (parents idx free xs); [discriminate|]. destruct (IH eq_refl) as (y & Y). exists y. tauto.
Qed.
Lemma allParents_some idx free nodes : forall pars, allParents ins idx free nodes = Some pars -> length pars = length nodes /\ forall v n, nth_error nodes v = Some n -> parents idx free (ins n) = Some (nth v pars []).
Proof.
  induction nodes as [|m nodes IH]; cbn; intros pars H; [injection H as <-; split; [auto|]; intros [|v] n; discriminate|].
  destruct (parents idx free (ins m)) as [p|] eqn:E; [|discriminate]. cbn in H. destruct (allParents ins idx free nodes) as [ps|]; [|discriminate]. cbn in H. injection H as <-. destruct (IH ps eq_refl) as [A B].
  split; [cbn; congruence|]. intros [|v] n Hv; cbn in *; [congruence|auto].
Qed.
Lemma allParents_none idx free nodes : allParents ins idx free nodes = None -> exists n, In n nodes /\ parents idx free (ins n) = None.
Proof.
  induction nodes as [|m nodes IH]; cbn; intros H; [discriminate|]. destruct (parents idx free (ins m)) as [p|] eqn:E; [|exists m; auto]. cbn in H. destruct (allParents ins idx free nodes); [discriminate|]. destruct (IH eq_refl) as (k & K). exists k. tauto.
Qed.

(** Arrangements *)
Lemma arranged_exists (nodes l : list N) : Permutation l nodes -> exists p, Permutation p (seq 0 (length nodes)) /\ arranged nodes p l.
Proof.
  intros H. assert (E : map Some nodes = map (nth_error nodes) (seq 0 (length nodes))).
  { clear. induction nodes as [|n nodes IH]; cbn; [auto|]. rewrite <- seq_shift, map_map, IH. reflexivity. }
  assert (P : Permutation (map Some l) (map (nth_error nodes) (seq 0 (length nodes)))) by (rewrite <- E; now apply Permutation_map).
  apply Permutation_map_inv in P as (p & P1 & P2). exists p. split; [now symmetry|exact P1].
Qed.
Lemma arranged_perm (nodes l : list N) p : Permutation p (seq 0 (length nodes)) -> arranged nodes p l -> Permutation l nodes.
Proof.
  intros H A. assert (E : map Some nodes = map (nth_error nodes) (seq 0 (length nodes))).
  { clear. induction nodes as [|n nodes IH]; cbn; [auto|]. rewrite <- seq_shift, map_map, IH. reflexivity. }
  assert (P : Permutation (map Some l) (map Some nodes)) by (rewrite E, A; now apply Permutation_map).
  apply Permutation_map_inv in P as (k & P1 & P2). rewrite P2. assert (INJ : l = k); [|now rewrite INJ].
  clear - P1. revert k P1. induction l as [|x l IH]; intros [|y k] H; cbn in H; try discriminate; auto. injection H as -> H. f_equal; auto.
Qed.
Lemma arranged_fun (nodes l k : list N) p : arranged nodes p l -> arranged nodes p k -> l = k.
Proof. unfold arranged. intros <-. revert k. induction l as [|x l IH]; intros [|y k] H; cbn in H; try discriminate; auto. injection H as -> H. f_equal; auto. Qed.

Section Graph.
Context (free : list string) (nodes : list N) (pars : list (list nat)) (HPar : allParents ins (origIndex outs 0 nodes) free nodes = Some pars).
Lemma topological_ordered p l : arranged nodes p l -> topological pars p -> in_order ins outs free l.
Proof.
  intros A T before n after -> x Hx. unfold arranged in A. rewrite map_app in A. symmetry in A. apply map_eq_app in A as (a & r & -> & A1 & A2). cbn in A2. destruct r as [|v b]; [discriminate|]. cbn in A2. injection A2 as A2 A3.
  pose proof (T a v b eq_refl) as T'. destruct (allParents_some _ _ _ _ HPar) as [_ B]. specialize (B v n A2). apply parents_some in B as [B _]. destruct (mem x free) eqn:M; [apply mem_in in M; auto|]. right.
  destruct (B x Hx) as (q & Q1 & Q2); [intros HI; apply mem_in in HI; congruence|]. apply T' in Q2. apply origIndex_some in Q1 as (m & _ & Q3 & Q4). rewrite Nat.sub_0_r in Q3. exists m. split; [|auto].
  assert (HI : In (Some m) (map Some before)) by (rewrite <- A1; apply in_map_iff; eauto). apply in_map_iff in HI as (k & E & HK). injection E as ->. auto.
Qed.
Lemma single_index i j m n x : single_producer outs free nodes -> nth_error nodes i = Some m -> nth_error nodes j = Some n -> In x (outs m) -> In x (outs n) -> ~ In x free -> i = j.
Proof.
  intros HS. assert (G : forall i j m n, (i < j)%nat -> nth_error nodes i = Some m -> nth_error nodes j = Some n -> In x (outs m) -> In x (outs n) -> In x free).
  { clear i j m n. intros i j m n L H1 H2 X1 X2. apply nth_error_split in H1 as (a & b & -> & La). rewrite nth_error_app2 in H2 by lia. replace (j - length a)%nat with (S (j - S i)) in H2 by lia. cbn in H2. apply nth_error_split in H2 as (c & d & -> & _). apply (HS a m c n d x); auto. }
  intros H1 H2 X1 X2 X3. destruct (Nat.lt_total i j) as [L|[L|L]]; [|auto|]; exfalso; apply X3; eauto.
Qed.
Lemma ordered_topological p l : single_producer outs free nodes -> arranged nodes p l -> in_order ins outs free l -> topological pars p.
Proof.
  intros HS A HO a v b -> q Hq. unfold arranged in A. rewrite map_app in A. apply map_eq_app in A as (before & r & -> & A1 & A2). cbn in A2. destruct r as [|n after]; [discriminate|]. cbn in A2. injection A2 as A2 A3.
  destruct (allParents_some _ _ _ _ HPar) as [_ B]. symmetry in A2. specialize (B v n A2). apply parents_some in B as [_ B]. destruct (B q Hq) as (x & X1 & X2 & X3).
  destruct (HO before n after eq_refl x X1) as [|(m & M1 & M2)]; [tauto|]. apply origIndex_some in X3 as (k & _ & K1 & K2). rewrite Nat.sub_0_r in K1.
  assert (HI : In (Some m) (map (nth_error nodes) a)) by (rewrite <- A1; now apply in_map). apply in_map_iff in HI as (j & J1 & J2). now rewrite (single_index q j k m x HS K1 J1 K2 M2 X2).
Qed.
End Graph.

Definition freeNames (inits inputs : list string) : list string := inits ++ inputs ++ [""%string].
Theorem sortGraph_ok inits inputs nodes :
  match sortGraph ins outs inits inputs nodes with
  | Sorted l => exists p, Permutation p (seq 0 (length nodes)) /\ arranged nodes p l /\ in_order ins outs (freeNames inits inputs) l /\
      (single_producer outs (freeNames inits inputs) nodes -> forall q k, Permutation q (seq 0 (length nodes)) -> arranged nodes q k -> in_order ins outs (freeNames inits inputs) k -> lex_le p q)
  | NotSortable => single_producer outs (freeNames inits inputs) nodes -> forall l, Permutation l nodes -> ~ in_order ins outs (freeNames inits inputs) l
  | Stuck => False
  end.
Proof.
  unfold sortGraph. fold (freeNames inits inputs). set (free := freeNames inits inputs). destruct (allParents ins (origIndex outs 0 nodes) free nodes) as [pars|] eqn:HPar.
  - destruct (allParents_some _ _ _ _ HPar) as [HL _]. destruct (kahn_start pars (length nodes) HL) as (D & order & E & I). rewrite E. destruct (Nat.eqb_spec (length order) (length nodes)) as [EL|EL].
    + assert (HP : Permutation order (seq 0 (length nodes))) by (eapply inv_complete; eauto). destruct (reorder_ok (nth_error nodes) order 0 [] (seq 0 (length nodes)) nodes eq_refl HP) as (l & E1 & E2).
      { cbn [app]. clear. induction nodes as [|n ns IH]; cbn; [auto|]. rewrite <- seq_shift, map_map, IH. reflexivity. }
      cbn [app] in E1, E2. rewrite E1. exists order. split; [auto|]. split; [exact E2|]. split; [apply (topological_ordered free nodes pars HPar order l E2); apply I|].
      intros HS q k Hq A HO. eapply inv_least; [exact HL|exact I|exact EL|exact Hq|]. apply (ordered_topological free nodes pars HPar q k HS A HO).
    + intros HS l Hl HO. destruct (arranged_exists nodes l Hl) as (p & P1 & P2). apply EL. eapply inv_incomplete; [exact HL|exact I|exact P1|]. apply (ordered_topological free nodes pars HPar p l HS P2 HO).
  - intros HS l Hl HO. apply allParents_none in HPar as (n & Hn & HN). apply parents_none in HN as (x & X1 & X2 & X3). assert (In n l) by (eapply Permutation_in; [symmetry; exact Hl|auto]). apply in_split in H as (a & b & ->).
    destruct (HO a n b eq_refl x X1) as [|(m & M1 & M2)]; [tauto|]. apply (origIndex_none _ _ _ X3 m); [|auto]. eapply Permutation_in; [exact Hl|]. apply in_app_iff; auto.
Qed.
Lemma lex_antisym_seq a n p : lex_le p (seq a n) -> Permutation p (seq a n) -> p = seq a n.
Proof.
  revert a p. induction n as [|n IH]; intros a p H HP; [cbn in HP; now apply Permutation_sym, Permutation_nil in HP|].
  destruct p as [|x p]; [now apply Permutation_nil in HP|]. cbn in H. destruct H as [H|[-> H]].
  - assert (In x (seq a (S n))) by (eapply Permutation_in; [exact HP|cbn; auto]). apply in_seq in H0. lia.
  - cbn. f_equal. apply IH; [auto|]. cbn in HP. now apply Permutation_cons_inv in HP.
Qed.
Lemma arranged_seq (nodes : list N) : arranged nodes (seq 0 (length nodes)) nodes.
Proof. unfold arranged. induction nodes as [|n nodes IH]; cbn; [auto|]. rewrite <- seq_shift, map_map, IH. reflexivity. Qed.
End Names.
