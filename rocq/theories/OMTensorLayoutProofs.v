From Coq Require Import List ZArith Lia Bool.
From Verif Require Import Util TensorSpec TensorLemmas OMTensorLayoutModel.
Import ListNotations.
Open Scope Z_scope.

Lemma fold_mul_acc l a : fold_left Z.mul l a = a * prodZ l.
Proof. revert a; induction l; simpl; intros; [unfold prodZ; simpl; lia|]. rewrite IHl, prodZ_cons; lia. Qed.

Lemma fold_add_acc l a : fold_left Z.add l a = a + sumZ l.
Proof. revert a; induction l; simpl; intros; [unfold sumZ; simpl; lia|]. rewrite IHl, sumZ_cons; lia. Qed.

Lemma getNumElems_size s : getNumElems s = size s.
Proof. unfold getNumElems. rewrite fold_mul_acc. unfold size. lia. Qed.

Lemma omStrides_cons d s : omStrides (d :: s) = size s :: omStrides s.
Proof.
  revert d; induction s as [|d1 s IH]; intros d; [reflexivity|].
  change (omStrides (d :: d1 :: s)) with
    (let st := omStrides (d1 :: s) in match st with s1 :: _ => (s1 * d1) :: st | [] => [1] end).
  rewrite IH. cbv zeta. rewrite size_cons. f_equal; lia.
Qed.

Lemma omStrides_length s : length (omStrides s) = length s.
Proof. induction s; auto. rewrite omStrides_cons; simpl; auto. Qed.

Lemma computeElemOffset_rm s idx : length s = length idx ->
  computeElemOffset (omStrides s) idx = rm s idx.
Proof.
  unfold computeElemOffset. rewrite fold_add_acc.
  revert idx; induction s; destruct idx; intros HL; try discriminate; auto.
  rewrite omStrides_cons. simpl. rewrite sumZ_cons. simpl in HL.
  specialize (IHs idx ltac:(lia)). lia.
Qed.

Lemma denseStridesOk_om s : denseStridesOk s (omStrides s) = true.
Proof.
  induction s; auto. rewrite omStrides_cons. simpl. rewrite fold_mul_acc, IHs.
  fold (size s). rewrite andb_true_r. apply Z.eqb_eq. unfold size. lia.
Qed.

Lemma denseStridesOk_iff s st : length st = length s ->
  denseStridesOk s st = true <-> st = omStrides s.
Proof.
  revert st; induction s; destruct st; simpl; intros HL; try discriminate; [tauto|].
  rewrite fold_mul_acc, andb_true_iff, Z.eqb_eq, IHs by lia.
  change (match omStrides s with [] => _ | _ :: _ => _ end) with (omStrides (a :: s)).
  rewrite omStrides_cons. unfold size.
  split; [intros [-> ->]; f_equal; lia | injection 1; intros; subst; split; auto; lia].
Qed.
