(** Basic facts about the row-major specification. *)
From Coq Require Import List ZArith Lia Bool.
From Verif Require Import Util TensorSpec.
Import ListNotations.
Open Scope Z_scope.

(** Recursive form of the row-major position. *)
Fixpoint rm (s : shape) (idx : index) : Z :=
  match s, idx with
  | d :: s', i :: idx' => i * size s' + rm s' idx'
  | _, _ => 0
  end.

Lemma valid_length s idx : valid s idx -> length s = length idx.
Proof. induction 1; simpl; auto. Qed.

Lemma size_nil : size [] = 1.
Proof. reflexivity. Qed.

Lemma size_cons d s : size (d :: s) = d * size s.
Proof. reflexivity. Qed.

Lemma rm_acc_rm s idx acc :
  length s = length idx -> rm_acc acc s idx = acc * size s + rm s idx.
Proof.
  revert idx acc; induction s; destruct idx; simpl; intros; try discriminate; rewrite ?size_nil, ?size_cons; try lia.
  rewrite IHs by lia. lia.
Qed.

Lemma rowmajor_rm s idx : length s = length idx -> rowmajor s idx = rm s idx.
Proof. intros; unfold rowmajor. rewrite rm_acc_rm; auto. Qed.

Lemma valid_cons d s i idx : valid (d :: s) (i :: idx) <-> (0 <= i < d /\ valid s idx).
Proof. unfold valid. split; [inversion 1; auto | intros []; constructor; auto]. Qed.

Lemma size_app s t : size (s ++ t) = size s * size t.
Proof. apply prodZ_app. Qed.

Lemma size_nonneg s : okshape s -> 0 <= size s.
Proof. apply prodZ_nonneg. Qed.

Lemma okshape_cons d s : okshape (d :: s) <-> 0 <= d /\ okshape s.
Proof. unfold okshape; split; [inversion 1; auto | intros []; constructor; auto]. Qed.

Lemma rm_bound s idx : valid s idx -> 0 <= rm s idx < size s.
Proof.
  induction 1; simpl; rewrite ?size_nil, ?size_cons; [lia|nia].
Qed.

Lemma rowmajor_bound s idx : valid s idx -> 0 <= rowmajor s idx < size s.
Proof. intros. rewrite rowmajor_rm by (apply valid_length; auto). now apply rm_bound. Qed.

Lemma rm_inj s i j : valid s i -> valid s j -> rm s i = rm s j -> i = j.
Proof.
  intros H; revert j; induction H; intros j Hj E.
  - inversion Hj; auto.
  - destruct j; inversion Hj; subst. simpl in E.
    pose proof (rm_bound _ _ H0). pose proof (rm_bound _ _ H6).
    assert (y = z) by nia. subst. f_equal. apply IHForall2; auto. lia.
Qed.

(** Mixed-radix digits. *)
Fixpoint unrm (s : shape) (k : Z) : index :=
  match s with
  | [] => []
  | _ :: s' => (k / size s') :: unrm s' (k mod size s')
  end.

Lemma size_pos_of s : okshape s -> 0 < size s -> Forall (fun d => 0 < d) s.
Proof.
  induction 1; constructor.
  - rewrite size_cons in H1. pose proof (size_nonneg _ H0). nia.
  - rewrite size_cons in H1. pose proof (size_nonneg _ H0). apply IHForall. nia.
Qed.

Lemma unrm_spec s k :
  okshape s -> 0 <= k < size s -> valid s (unrm s k) /\ rm s (unrm s k) = k.
Proof.
  intros H; revert k; induction H; intros k Hk.
  - rewrite size_nil in Hk; simpl. split; [constructor | lia].
  - rewrite size_cons in Hk. pose proof (size_nonneg _ H0).
    assert (0 < size l) by nia.
    pose proof (Z.mod_pos_bound k (size l) H2).
    destruct (IHForall (k mod size l)) as [IV IE]; [lia|].
    simpl. split.
    + apply valid_cons; split; auto. split.
      * apply Z.div_pos; lia.
      * apply Z.div_lt_upper_bound; nia.
    + rewrite IE. pose proof (Z.div_mod k (size l)). nia.
Qed.

Lemma unrm_rm s idx : okshape s -> valid s idx -> unrm s (rm s idx) = idx.
Proof.
  intros. pose proof (rm_bound _ _ H0).
  destruct (unrm_spec s (rm s idx)); auto.
  eapply rm_inj; eauto.
Qed.

Lemma valid_okshape s idx : valid s idx -> okshape s.
Proof. induction 1; constructor; auto; lia. Qed.

(** The lexicographic enumeration agrees with the row-major position. *)
Lemma indices_length s : okshape s -> Z.of_nat (length (indices s)) = size s.
Proof.
  induction 1; simpl; auto. rewrite size_cons, <- IHForall.
  unfold zrange.
  assert (forall n a, length (flat_map (fun i => map (cons i) (indices l)) (zseq a n))
     = (n * length (indices l))%nat).
  { induction n; simpl; intros; auto. rewrite app_length, map_length, IHn; auto. }
  rewrite H1. lia.
Qed.

Lemma indices_nth s idx :
  valid s idx -> zget (indices s) (rm s idx) = Some idx.
Proof.
  induction 1; simpl; auto.
  pose proof (rm_bound _ _ H0) as HB. pose proof (valid_okshape _ _ H0) as Ok.
  pose proof (indices_length _ Ok) as HL. unfold zrange.
  assert (forall n a z, 0 <= z < Z.of_nat n ->
    zget (flat_map (fun i => map (cons i) (indices l)) (zseq a n)) (z * size l + rm l l')
    = Some ((a + z) :: l')) as G.
  { induction n; simpl; intros; [lia|].
    destruct (Z.eq_dec z 0).
    - subst. rewrite zget_app1 by (rewrite map_length, HL; lia).
      rewrite zget_map. replace (0 * size l + rm l l') with (rm l l') by lia.
      rewrite IHForall2. simpl. do 2 f_equal. lia.
    - rewrite zget_app2 by (rewrite map_length, HL; nia). rewrite map_length, HL.
      replace (z * size l + rm l l' - size l) with ((z - 1) * size l + rm l l') by lia.
      rewrite IHn by lia. do 2 f_equal. lia. }
  rewrite G by lia. do 2 f_equal.
Qed.

Lemma indices_valid s idx : okshape s -> In idx (indices s) -> valid s idx.
Proof.
  intros H; revert idx; induction H; simpl; intros idx Hin.
  - destruct Hin as [<-|[]]; constructor.
  - apply in_flat_map in Hin as (i & Hi & Hin). apply zrange_In in Hi.
    apply in_map_iff in Hin as (r & <- & Hr). constructor; auto. apply IHForall; auto.
Qed.

Lemma valid_app s t i j : length s = length i ->
  valid (s ++ t) (i ++ j) <-> valid s i /\ valid t j.
Proof.
  revert i; induction s; destruct i; simpl; intros HL; try discriminate.
  - split; intros; try tauto. split; auto. constructor.
  - rewrite !valid_cons, IHs by lia. tauto.
Qed.

Lemma rm_app s t i j : length s = length i ->
  rm (s ++ t) (i ++ j) = rm s i * size t + rm t j.
Proof.
  revert i; induction s; destruct i; simpl; intros HL; try discriminate; auto.
  rewrite IHs by lia. rewrite size_app. lia.
Qed.

Lemma valid_split_app s t idx : valid (s ++ t) idx ->
  exists i j, idx = i ++ j /\ valid s i /\ valid t j.
Proof.
  intros H. exists (firstn (length s) idx), (skipn (length s) idx).
  pose proof (valid_length _ _ H) as HL. rewrite app_length in HL.
  rewrite firstn_skipn. split; auto.
  rewrite <- (firstn_skipn (length s) idx) in H.
  apply valid_app in H; auto. rewrite firstn_length. lia.
Qed.

Lemma is_data_elem {A} s (data : list A) idx :
  is_data s data -> valid s idx -> exists v, elem s data idx = Some v.
Proof.
  intros. apply zget_some. rewrite H. now apply rowmajor_bound.
Qed.

(** Two complete buffers with the same elements are equal. *)
Lemma data_ext {A} s (d1 d2 : list A) :
  okshape s -> is_data s d1 -> is_data s d2 ->
  (forall idx, valid s idx -> elem s d1 idx = elem s d2 idx) -> d1 = d2.
Proof.
  intros Ok H1 H2 H. unfold is_data in *. apply zget_ext; [lia|]. intros i Hi.
  destruct (unrm_spec s i) as [V E]; auto; [lia|].
  specialize (H _ V). unfold elem in H. rewrite rowmajor_rm in H by (apply valid_length; auto).
  rewrite E in H. auto.
Qed.
