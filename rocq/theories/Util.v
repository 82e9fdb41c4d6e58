(** Shared helpers: checked array access, bounded loops in the option monad.
    [None] always stands for undefined behaviour of the C/C++ program (an out
    of bounds access or a failed assertion), never for a normal result. *)
From Coq Require Import List ZArith Lia Bool Arith.
Import ListNotations.
Open Scope Z_scope.

(** [l[i]] with a bounds check. *)
Definition zget {A} (l : list A) (i : Z) : option A :=
  if i <? 0 then None else nth_error l (Z.to_nat i).

(** Replace position [n]; no effect when out of range. *)
Fixpoint upd {A} (n : nat) (v : A) (l : list A) {struct l} : list A :=
  match l, n with
  | [], _ => []
  | _ :: r, O => v :: r
  | x :: r, S n' => x :: upd n' v r
  end.

(** [l[i] = v] with a bounds check. *)
Definition zset {A} (l : list A) (i : Z) (v : A) : option (list A) :=
  if (i <? 0) || (Z.of_nat (length l) <=? i) then None
  else Some (upd (Z.to_nat i) v l).

Definition obind {A B} (o : option A) (f : A -> option B) : option B :=
  match o with Some a => f a | None => None end.
Notation "x <- e ;; f" := (obind e (fun x => f))
  (at level 61, e at next level, right associativity).

(** [for (x : l) s = body(x, s)] where the body may fail. *)
Fixpoint foldM {A S} (f : A -> S -> option S) (l : list A) (s : S) : option S :=
  match l with
  | [] => Some s
  | a :: l' => s' <- f a s ;; foldM f l' s'
  end.

(** The integers [a, a+1, ..., a+n-1]. *)
Fixpoint zseq (a : Z) (n : nat) : list Z :=
  match n with O => [] | S m => a :: zseq (a + 1) m end.

(** The integers [0 .. d-1]. *)
Definition zrange (d : Z) : list Z := zseq 0 (Z.to_nat d).

Fixpoint map2 {A B C} (f : A -> B -> C) (l : list A) (m : list B) : list C :=
  match l, m with
  | a :: l', b :: m' => f a b :: map2 f l' m'
  | _, _ => []
  end.

Definition sumZ (l : list Z) : Z := fold_right Z.add 0 l.
Definition prodZ (l : list Z) : Z := fold_right Z.mul 1 l.

Arguments sumZ : simpl never.
Arguments prodZ : simpl never.

(** * Lemmas *)

Lemma upd_length {A} n (v : A) l : length (upd n v l) = length l.
Proof. revert n; induction l; destruct n; simpl; auto. Qed.

Lemma nth_error_upd_same {A} n (v : A) l :
  (n < length l)%nat -> nth_error (upd n v l) n = Some v.
Proof. revert n; induction l; destruct n; simpl; intros; auto; try lia. apply IHl; lia. Qed.

Lemma nth_error_upd_other {A} n m (v : A) l :
  n <> m -> nth_error (upd n v l) m = nth_error l m.
Proof. revert n m; induction l; destruct n, m; simpl; intros; auto; try congruence. Qed.

Lemma nth_upd_same {A} n (v d : A) l : (n < length l)%nat -> nth n (upd n v l) d = v.
Proof. revert n; induction l; destruct n; simpl; intros; auto; try lia. apply IHl; lia. Qed.

Lemma nth_upd_other {A} n m (v d : A) l : n <> m -> nth m (upd n v l) d = nth m l d.
Proof. revert n m; induction l; destruct n, m; simpl; intros; auto; try congruence. Qed.

Lemma upd_app_r {A} n (v : A) l1 l2 :
  (length l1 <= n)%nat -> upd n v (l1 ++ l2) = l1 ++ upd (n - length l1) v l2.
Proof.
  revert n; induction l1; simpl; intros.
  - now rewrite Nat.sub_0_r.
  - destruct n; [lia|]. simpl. f_equal. apply IHl1; lia.
Qed.

Lemma zget_spec {A} (l : list A) i :
  0 <= i -> zget l i = nth_error l (Z.to_nat i).
Proof. intros; unfold zget; destruct (Z.ltb_spec i 0); auto; lia. Qed.

Lemma zget_neg {A} (l : list A) i : i < 0 -> zget l i = None.
Proof. intros; unfold zget; destruct (Z.ltb_spec i 0); auto; lia. Qed.

Lemma zget_some {A} (l : list A) i :
  0 <= i < Z.of_nat (length l) -> exists v, zget l i = Some v.
Proof.
  intros. rewrite zget_spec by lia.
  destruct (nth_error l (Z.to_nat i)) eqn:E; eauto.
  apply nth_error_None in E. lia.
Qed.

Lemma zget_inv {A} (l : list A) i v :
  zget l i = Some v -> 0 <= i < Z.of_nat (length l).
Proof.
  unfold zget. destruct (Z.ltb_spec i 0); [discriminate|]. intros E.
  assert (Z.to_nat i < length l)%nat by (apply nth_error_Some; congruence). lia.
Qed.

Lemma zset_some {A} (l : list A) i v :
  0 <= i < Z.of_nat (length l) -> zset l i v = Some (upd (Z.to_nat i) v l).
Proof.
  intros; unfold zset. destruct (Z.ltb_spec i 0), (Z.leb_spec (Z.of_nat (length l)) i);
    simpl; auto; lia.
Qed.

Lemma zset_inv {A} (l : list A) i v l' :
  zset l i v = Some l' ->
  0 <= i < Z.of_nat (length l) /\ l' = upd (Z.to_nat i) v l.
Proof.
  unfold zset. destruct (Z.ltb_spec i 0), (Z.leb_spec (Z.of_nat (length l)) i);
    simpl; intros E; inversion E; split; auto; lia.
Qed.

Lemma zget_upd {A} (l : list A) i j v :
  0 <= i < Z.of_nat (length l) ->
  zget (upd (Z.to_nat i) v l) j = if j =? i then Some v else zget l j.
Proof.
  intros. unfold zget. destruct (Z.ltb_spec j 0).
  - destruct (Z.eqb_spec j i); auto; lia.
  - destruct (Z.eqb_spec j i).
    + subst. apply nth_error_upd_same; lia.
    + apply nth_error_upd_other; lia.
Qed.

Lemma foldM_app {A S} (f : A -> S -> option S) l1 l2 s :
  foldM f (l1 ++ l2) s = (s' <- foldM f l1 s ;; foldM f l2 s').
Proof.
  revert s; induction l1; simpl; intros; auto.
  destruct (f a s); simpl; auto.
Qed.

Lemma foldM_ext {A S} (f g : A -> S -> option S) l s :
  (forall a s, In a l -> f a s = g a s) -> foldM f l s = foldM g l s.
Proof.
  revert s; induction l; simpl; intros; auto.
  rewrite H by auto. destruct (g a s); simpl; auto.
Qed.

Lemma foldM_map {A B S} (g : B -> A) (f : A -> S -> option S) l s :
  foldM f (map g l) s = foldM (fun b s => f (g b) s) l s.
Proof. revert s; induction l; simpl; intros; auto. destruct (f (g a) s); simpl; auto. Qed.

Lemma zseq_length a n : length (zseq a n) = n.
Proof. revert a; induction n; simpl; auto. Qed.

Lemma zseq_nth a n k : (k < n)%nat -> nth_error (zseq a n) k = Some (a + Z.of_nat k).
Proof.
  revert a k; induction n; intros; [lia|]. destruct k; simpl.
  - f_equal; lia.
  - rewrite IHn by lia. f_equal; lia.
Qed.

Lemma zseq_In a n x : In x (zseq a n) <-> a <= x < a + Z.of_nat n.
Proof.
  revert a; induction n; simpl; intros; [lia|]. rewrite IHn. lia.
Qed.

Lemma zseq_app a n m : zseq a (n + m) = zseq a n ++ zseq (a + Z.of_nat n) m.
Proof.
  revert a; induction n; simpl; intros.
  - f_equal; lia.
  - rewrite IHn. do 3 f_equal; lia.
Qed.

Lemma zrange_In d x : In x (zrange d) <-> 0 <= x < d.
Proof. unfold zrange. rewrite zseq_In. lia. Qed.

Lemma zrange_length d : length (zrange d) = Z.to_nat d.
Proof. apply zseq_length. Qed.

Lemma NoDup_zseq a n : NoDup (zseq a n).
Proof.
  revert a; induction n; simpl; intros; constructor; auto.
  rewrite zseq_In; lia.
Qed.

Lemma map2_length {A B C} (f : A -> B -> C) l m :
  length l = length m -> length (map2 f l m) = length l.
Proof. revert m; induction l; destruct m; simpl; intros; auto; discriminate. Qed.

Lemma nth_error_ext {A} (l m : list A) :
  (forall k, nth_error l k = nth_error m k) -> l = m.
Proof.
  revert m; induction l; destruct m; intros H; auto.
  - specialize (H O); discriminate.
  - specialize (H O); discriminate.
  - f_equal. { specialize (H O); simpl in H; congruence. }
    apply IHl. intros k; apply (H (S k)).
Qed.

Lemma zget_ext {A} (l m : list A) :
  length l = length m ->
  (forall i, 0 <= i < Z.of_nat (length l) -> zget l i = zget m i) -> l = m.
Proof.
  intros HL H. apply nth_error_ext. intros k.
  destruct (Nat.lt_ge_cases k (length l)).
  - specialize (H (Z.of_nat k) ltac:(lia)).
    rewrite !zget_spec, Nat2Z.id in H by lia. exact H.
  - rewrite (proj2 (nth_error_None l k)), (proj2 (nth_error_None m k)); auto; lia.
Qed.

Lemma zget_map {A B} (f : A -> B) l i : zget (map f l) i = option_map f (zget l i).
Proof.
  unfold zget. destruct (i <? 0); auto. apply nth_error_map.
Qed.

Lemma zget_app1 {A} (l m : list A) i :
  i < Z.of_nat (length l) -> zget (l ++ m) i = zget l i.
Proof. intros. unfold zget. destruct (Z.ltb_spec i 0); auto. apply nth_error_app1; lia. Qed.

Lemma zget_app2 {A} (l m : list A) i :
  Z.of_nat (length l) <= i -> zget (l ++ m) i = zget m (i - Z.of_nat (length l)).
Proof.
  intros. unfold zget. destruct (Z.ltb_spec i 0), (Z.ltb_spec (i - Z.of_nat (length l)) 0); try lia.
  rewrite nth_error_app2 by lia. f_equal. lia.
Qed.

Lemma zget_zseq a n i :
  0 <= i < Z.of_nat n -> zget (zseq a n) i = Some (a + i).
Proof. intros. rewrite zget_spec by lia. rewrite zseq_nth by lia. f_equal; lia. Qed.

Lemma zget_repeat {A} (v : A) n i : 0 <= i < Z.of_nat n -> zget (repeat v n) i = Some v.
Proof.
  intros. rewrite zget_spec by lia.
  assert (Z.to_nat i < n)%nat by lia. revert H0. generalize (Z.to_nat i); clear.
  induction n; intros [|k] ?; simpl; auto; try lia. apply IHn; lia.
Qed.

Lemma prodZ_cons d l : prodZ (d :: l) = d * prodZ l.
Proof. reflexivity. Qed.

Lemma sumZ_cons d l : sumZ (d :: l) = d + sumZ l.
Proof. reflexivity. Qed.

Lemma prodZ_app l m : prodZ (l ++ m) = prodZ l * prodZ m.
Proof.
  induction l; cbn [app]; rewrite ?prodZ_cons, ?IHl; [|lia].
  unfold prodZ at 2; cbn [fold_right]; lia.
Qed.

Lemma prodZ_nonneg l : Forall (fun d => 0 <= d) l -> 0 <= prodZ l.
Proof. induction 1; [reflexivity || (unfold prodZ; cbn; lia)|]. rewrite prodZ_cons; nia. Qed.

Lemma prodZ_pos l : Forall (fun d => 0 < d) l -> 0 < prodZ l.
Proof. induction 1; [reflexivity || (unfold prodZ; cbn; lia)|]. rewrite prodZ_cons; nia. Qed.

Lemma sumZ_app l m : sumZ (l ++ m) = sumZ l + sumZ m.
Proof. induction l; cbn [app]; rewrite ?sumZ_cons, ?IHl; [unfold sumZ at 2; cbn|]; lia. Qed.
