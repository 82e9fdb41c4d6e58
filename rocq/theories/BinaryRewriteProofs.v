(** Lemmas for the rewriting of elementwise binary operations. *)
From Coq Require Import List ZArith Bool Lia.
From Verif Require Import Util TensorSpec TensorLemmas ShapeOpsModel ShapeOpsSpec BroadcastSpec BroadcastModel BroadcastProofs ReshapeRewriteSpec ShapeRewriteModel PowRnnProofs BinaryRewriteSpec BinaryRewriteModel.
Import ListNotations.
Open Scope Z_scope.

Lemma broadcast_sym s t z : broadcast [s; t] z -> broadcast [t; s] z.
Proof.
  intros (B1 & (u & Bu & B2) & B3). split; [intros v [<- | [<- | []]]; apply B1; cbn; auto|]. split; [exists u; split; auto; destruct Bu as [<- | [<- | []]]; cbn; auto|].
  intros j Hj. destruct (B3 j Hj) as [I K]. cbn [map] in *. split; [destruct I as [E | [E | []]]; cbn; auto|]. intros v [<- | [<- | []]]; apply K; cbn; auto.
Qed.
Lemma scalar_ones {A} (x : tensor A) : isScalarTensor x = true -> Forall (eq 1) (tShape x) /\ (length (tShape x) <= 1)%nat.
Proof. unfold isScalarTensor. destruct (tShape x) as [|d [|e s]]; intros H; [split; [constructor | cbn; lia]| |discriminate]. apply Z.eqb_eq in H. subst d. split; [repeat constructor | cbn; lia]. Qed.
Lemma bindex_zeros s : forall idx, Forall (eq 1) s -> (length s <= length idx)%nat -> bindex s idx = map (fun _ => 0) s.
Proof.
  intros idx F. unfold bindex. intros L. assert (L2 : length (skipn (length idx - length s) idx) = length s) by (rewrite skipn_length; lia). revert L2. generalize (skipn (length idx - length s) idx). clear L idx.
  induction F as [|d s <- F IH]; intros idx L; [reflexivity|]. destruct idx as [|i idx]; [discriminate|]. cbn [map2 map]. cbn [length] in L. rewrite IH by lia. reflexivity.
Qed.
Lemma valid_len s idx : valid s idx -> length idx = length s.
Proof. induction 1; cbn; auto. Qed.

(** A scalar broadcast against anything. *)
Lemma scalar_broadcast s t z : Forall (eq 1) s -> (length s <= 1)%nat -> broadcast [s; t] z -> z = (if (length t =? 0)%nat then s else t).
Proof.
  intros F L B. destruct (Nat.eqb_spec (length t) 0) as [E | N].
  - destruct t; [|discriminate]. apply (broadcast_ones_unique s [] z); auto. cbn. lia.
  - apply (broadcast_ones_unique t s z); auto; [lia|]. apply broadcast_sym, B.
Qed.

(** ** Legacy broadcasting *)
Lemma firstn_skipn_nth (s : list Z) n a : forall i d, (i < n)%nat -> nth i (firstn n (skipn a s)) d = nth (a + i) s d.
Proof.
  intros i d H. rewrite <- (nth_skipn' s a i d). generalize (skipn a s). clear s a. intros s. revert i n H. induction s as [|x s IH]; intros [|i] [|n] H; try lia; cbn; auto. apply IH. lia.
Qed.
Lemma legacy_broadcast s y axis : (axis + length y <= length s)%nat -> y = firstn (length y) (skipn axis s) ->
  broadcast [s; y ++ repeat 1 (length s - axis - length y)] s.
Proof.
  intros L E. set (n := (length s - axis - length y)%nat). assert (LY : length (y ++ repeat 1 n) = (length s - axis)%nat) by (rewrite app_length, repeat_length; lia).
  split; [intros t [<- | [<- | []]]; lia|]. split; [exists s; split; [left|]; auto|]. intros j Hj. cbn [map]. split; [left; auto|]. intros v [<- | [<- | []]]; [auto|].
  destruct (Nat.lt_ge_cases j (length s - axis)) as [H | H].
  - set (w := y ++ repeat 1 n) in *. assert (RW : rdim w j = nth (length s - axis - 1 - j) w 1) by (rewrite <- (rdim_nth w (length s - axis - 1 - j)) by lia; f_equal; lia). rewrite RW. unfold w. set (k := (length s - axis - 1 - j)%nat).
    replace (rdim s j) with (nth (axis + k) s 1). 2:{ unfold k. rewrite <- (rdim_nth s (axis + (length s - axis - 1 - j))) by lia. f_equal. lia. }
    destruct (Nat.lt_ge_cases k (length y)) as [K | K]; [right; rewrite app_nth1 by auto; rewrite E at 1; apply firstn_skipn_nth; auto|]. left. rewrite app_nth2 by auto. apply nth_repeat.
  - left. unfold rdim. apply nth_overflow. rewrite rev_length. lia.
Qed.
Lemma legacy_index s y axis idx : (axis + length y <= length s)%nat -> y = firstn (length y) (skipn axis s) -> valid s idx ->
  firstn (length y) (bindex (y ++ repeat 1 (length s - axis - length y)) idx) = firstn (length y) (skipn axis idx).
Proof.
  intros L E V. pose proof (valid_len _ _ V) as LI. unfold bindex. rewrite app_length, repeat_length. replace (length idx - (length y + (length s - axis - length y)))%nat with axis by lia.
  assert (V' : valid (skipn axis s) (skipn axis idx)). { clear - V. revert axis. induction V as [|d i s idx H V IH]; intros [|a]; try (constructor; auto; fail); cbn; auto. }
  remember (skipn axis s) as S1. remember (skipn axis idx) as I1. clear - E V'. revert y S1 E V'. generalize (length s - axis)%nat. intros m y. generalize (repeat 1 (m - length y)). intros l. revert I1.
  induction y as [|d y IH]; intros I1 S1 E V; [reflexivity|]. destruct S1 as [|d1 S1]; [discriminate|]. cbn [length firstn] in E. injection E as -> E. inversion V as [|? i ? I2 Hi V2]; subst. cbn [app map2 length firstn].
  f_equal; [destruct (Z.eqb_spec d1 1); lia|]. eapply IH; eauto.
Qed.

(** ** Values *)
Lemma evS_Lit s : evS (fun _ => 0) (map Lit s) = s.
Proof. induction s as [|d s IH]; cbn; [auto|]. f_equal. exact IH. Qed.
Lemma bindex_ok s t z idx : broadcast [s; t] z -> valid z idx -> valid s (bindex s idx).
Proof.
  intros B V. pose proof (bindex_valid (fun _ => 0) [map Lit s; map Lit t] z 0 idx) as H. cbn [map nth length] in H. rewrite !evS_Lit in H. apply H; auto.
Qed.
Lemma expand_value {A} (x : tensor A) sh z : isScalarTensor x = true -> isExpanded x sh z -> forall idx, valid (tShape z) idx -> tAt z idx = tAt x (map (fun _ => 0) (tShape x)).
Proof.
  intros S [B V] idx H. destruct (scalar_ones x S) as [F L]. rewrite (V idx H). f_equal. apply bindex_zeros; auto. rewrite (valid_len _ _ H). destruct B as [B _]. apply B. left; auto.
Qed.
Lemma scalar_value {A} (x : tensor A) : isScalarTensor x = true -> forall idx, valid (tShape x) idx -> tAt x idx = tAt x (map (fun _ => 0) (tShape x)).
Proof.
  intros S idx H. destruct (scalar_ones x S) as [F _]. f_equal. clear S. revert F. induction H as [|d i s idx H V IH]; intros F; [reflexivity|]. inversion F as [|? ? E F']; subst. cbn [map]. f_equal; [lia | auto].
Qed.
Lemma binary_value {A B C} (f : A -> B -> C) x y z a b : isBinary f x y z -> (forall i, valid (tShape x) i -> tAt x i = a) -> (forall i, valid (tShape y) i -> tAt y i = b) ->
  forall idx, valid (tShape z) idx -> tAt z idx = f a b.
Proof.
  intros [Bc V] Ha Hb idx H. rewrite (V idx H). f_equal; [apply Ha; eapply bindex_ok; eauto | apply Hb; eapply bindex_ok; [apply broadcast_sym; eauto | auto]].
Qed.
