(** What a loop nest of stores leaves in a memref. *)
From Coq Require Import List ZArith Lia Bool.
From Verif Require Import Util TensorSpec TensorLemmas LoopModel.
Import ListNotations.
Open Scope Z_scope.

Lemma inb_valid s idx : inb s idx = true <-> valid s idx.
Proof.
  revert idx; induction s as [|d s IH]; intros [|i idx]; cbn [inb]; split; intros H; try discriminate; try constructor; try solve [inversion H].
  - apply andb_true_iff in H as [H _]. lia.
  - apply IH. now apply andb_true_iff in H as [_ H].
  - apply valid_cons in H as [H1 H2]. apply IH in H2. rewrite H2. lia.
Qed.
Lemma ieqb_eq a b : ieqb a b = true <-> a = b.
Proof.
  revert b; induction a as [|x a IH]; intros [|y b]; cbn [ieqb]; split; intros H; try discriminate; auto.
  - apply andb_true_iff in H as [H1 H2]. apply IH in H2. apply Z.eqb_eq in H1. congruence.
  - injection H as <- <-. rewrite Z.eqb_refl. now apply IH.
Qed.
Lemma ieqb_refl a : ieqb a a = true.
Proof. now apply ieqb_eq. Qed.
Lemma ieqb_neq a b : a <> b -> ieqb a b = false.
Proof. intros H. destruct (ieqb a b) eqn:E; auto. apply ieqb_eq in E. contradiction. Qed.

Lemma indices_In s idx : In idx (indices s) <-> valid s idx.
Proof.
  revert idx; induction s as [|d s IH]; intros idx; cbn [indices].
  - cbn. split; [intros [<-|[]]; constructor|inversion 1; auto].
  - rewrite in_flat_map. split.
    + intros (i & Hi & H). apply in_map_iff in H as (r & <- & H). apply valid_cons. split; [now apply zrange_In|now apply IH].
    + intros H. destruct idx as [|i idx]; [inversion H|]. apply valid_cons in H as [H1 H2]. exists i. split; [now apply zrange_In|]. apply in_map_iff. exists idx. split; auto. now apply IH.
Qed.

Section Memref.
Context {T : Type}.

Lemma load_ok (m : mem T) idx : valid (mShape m) idx -> load m idx = mAt m idx.
Proof. intros H. apply inb_valid in H. unfold load. now rewrite H. Qed.
Lemma load_inv (m : mem T) idx v : load m idx = Some v -> valid (mShape m) idx /\ mAt m idx = Some v.
Proof. unfold load. destruct (inb _ _) eqn:E; [|discriminate]. split; auto. now apply inb_valid. Qed.
Lemma store_ok (m : mem T) idx v : valid (mShape m) idx -> store m idx v = Some (Mem (mShape m) (fun j => if ieqb idx j then Some v else mAt m j)).
Proof. intros H. apply inb_valid in H. unfold store. now rewrite H. Qed.

(** The last writer of a cell. *)
Lemma stores_ok (g : list Z -> list Z) (f : list Z -> option T) l : forall m : mem T,
  (forall i, In i l -> valid (mShape m) (g i) /\ exists v, f i = Some v) ->
  exists m', foldM (fun i m => v <- f i ;; store m (g i) v) l m = Some m' /\ mShape m' = mShape m /\
    forall j, mAt m' j = match find (fun i => ieqb (g i) j) (rev l) with Some i => f i | None => mAt m j end.
Proof.
  induction l as [|a l IH]; intros m H; cbn [foldM rev].
  - exists m. auto.
  - destruct (H a (or_introl eq_refl)) as [Ha [v Hv]]. rewrite Hv. cbn [obind]. rewrite store_ok by auto. cbn [obind].
    destruct (IH (Mem (mShape m) (fun j => if ieqb (g a) j then Some v else mAt m j))) as (m' & E & S & R); [intros i Hi; apply H; now right|].
    exists m'. split; [exact E|]. split; [exact S|]. intros j. rewrite R. clear - Hv.
    assert (F : forall p (l1 l2 : list (list Z)), find p (l1 ++ l2) = match find p l1 with Some x => Some x | None => find p l2 end) by (induction l1; cbn; auto; intros; destruct (p a0); auto).
    rewrite F. destruct (find _ (rev l)); auto. cbn. destruct (ieqb (g a) j); auto.
Qed.

(** A nest whose iterations write distinct cells. *)
Lemma iterate_stores ubs (g : list Z -> list Z) (f : list Z -> option T) (m : mem T) :
  (forall i, valid ubs i -> valid (mShape m) (g i) /\ exists v, f i = Some v) ->
  (forall i j, valid ubs i -> valid ubs j -> g i = g j -> i = j) ->
  exists m', iterate ubs (fun i m => v <- f i ;; store m (g i) v) m = Some m' /\ mShape m' = mShape m /\
    (forall i, valid ubs i -> mAt m' (g i) = f i) /\ (forall j, (forall i, valid ubs i -> g i <> j) -> mAt m' j = mAt m j).
Proof.
  intros H I. destruct (stores_ok g f (indices ubs) m) as (m' & E & S & R); [intros i Hi; apply H; now apply indices_In|].
  exists m'. split; [exact E|]. split; [exact S|]. split.
  - intros i Hi. rewrite R. destruct (find _ _) as [k|] eqn:F.
    + apply find_some in F as [F1 F2]. apply in_rev, indices_In in F1. apply ieqb_eq in F2. now rewrite (I k i F1 Hi F2).
    + exfalso. assert (N := find_none _ _ F i). cbn beta in N. rewrite ieqb_refl in N. discriminate N. rewrite <- in_rev. now apply indices_In.
  - intros j Hj. rewrite R. destruct (find _ _) as [k|] eqn:F; auto.
    apply find_some in F as [F1 F2]. apply in_rev, indices_In in F1. apply ieqb_eq in F2. now apply Hj in F2.
Qed.
(** The commonest nest: iteration [i] writes cell [i]. *)
Lemma iterate_fill s (f : list Z -> option T) (m : mem T) :
  mShape m = s -> (forall i, valid s i -> exists v, f i = Some v) ->
  exists m', iterate s (fun i m => v <- f i ;; store m i v) m = Some m' /\ mShape m' = s /\ (forall i, valid s i -> mAt m' i = f i).
Proof.
  intros E H. destruct (iterate_stores s (fun i => i) f m) as (m' & A & B & C & _); auto; [intros i Hi; rewrite E; auto|].
  exists m'. split; [exact A|]. split; [congruence|exact C].
Qed.

End Memref.
