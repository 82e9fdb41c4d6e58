From Coq Require Import List ZArith Lia Bool Arith.
From Verif Require Import Util TensorSpec TensorLemmas LoopModel LoopProofs SeqOpsSpec SeqOpsModel.
Import ListNotations.
Open Scope Z_scope.

Lemma valid1 n k : 0 <= k < n -> valid [n] [k].
Proof. intros; repeat constructor; lia. Qed.
Lemma ieqb1 a b : ieqb [a] [b] = (a =? b).
Proof. cbn [ieqb]. apply andb_true_r. Qed.
Lemma shifted_In lb ub k : In k (map (fun k => lb + k) (zrange (ub - lb))) <-> lb <= k < ub.
Proof.
  rewrite in_map_iff. split.
  - intros (q & <- & H). apply zrange_In in H. lia.
  - intros H. exists (k - lb). split; [lia|]. apply zrange_In. lia.
Qed.
Lemma fixPosition_ok n place pos : 0 <= place <= n -> names_place n place pos -> fixPosition n pos = place.
Proof. intros B [-> | [L ->]]; unfold fixPosition; [destruct (Z.ltb_spec place 0) | destruct (Z.ltb_spec (place - n) 0)]; lia. Qed.

Section S.
Context {T : Type} (seq : mem T) (x : Z -> T) (n : Z).
Hypothesis HS : mShape seq = [n].
Hypothesis HX : forall k, 0 <= k < n -> mAt seq [k] = Some (x k).

Lemma copies (f : Z -> Z) len l : forall m, mShape m = [len] -> (forall k, In k l -> 0 <= k < n /\ 0 <= f k < len) ->
  exists m', foldM (fun k out => element <- load seq [k] ;; store out [f k] element) l m = Some m' /\ mShape m' = [len] /\
    (forall q, (forall k, In k l -> f k <> q) -> mAt m' [q] = mAt m [q]) /\
    (forall q v, (forall k, In k l -> f k = q -> x k = v) -> (exists k, In k l /\ f k = q) -> mAt m' [q] = Some v).
Proof.
  induction l as [|k l IH]; intros m Sm Hl; cbn [foldM].
  - exists m. split; [reflexivity|]. split; [exact Sm|]. split; [reflexivity|]. intros q v _ (k & [] & _).
  - destruct (Hl k (or_introl eq_refl)) as [Bk Bf]. rewrite load_ok, HX by (rewrite ?HS; auto using valid1). cbn [obind].
    rewrite store_ok by (rewrite Sm; auto using valid1). cbn [obind].
    destruct (IH (Mem (mShape m) (fun j => if ieqb [f k] j then Some (x k) else mAt m j)) Sm (fun j Hj => Hl j (or_intror Hj))) as (m' & E & S' & U & W).
    exists m'. split; [exact E|]. split; [exact S'|]. split.
    + intros q Hq. rewrite U by (intros j Hj; apply Hq; now right). cbn [mAt]. rewrite ieqb1. destruct (Z.eqb_spec (f k) q) as [E1|]; [|reflexivity]. now destruct (Hq k (or_introl eq_refl)).
    + intros q v Hv (j & Hj & Ej). destruct (in_dec Z.eq_dec q (map f l)) as [I|I].
      * apply W; [intros; apply Hv; auto; now right|]. apply in_map_iff in I as (j' & E' & I'). eauto.
      * rewrite U; [|intros j' Hj' Ef; apply I, in_map_iff; eauto]. destruct Hj as [<- | Hj]; [|exfalso; apply I, in_map_iff; eauto].
        cbn [mAt]. rewrite ieqb1, Ej, Z.eqb_refl. f_equal. apply Hv; [now left|exact Ej].
Qed.

Lemma insert_ok staticOne tensor pos place : (staticOne = true -> n = 0) -> 0 <= place <= n ->
  match pos with None => place = n | Some p => names_place n place p end ->
  exists out, sequenceInsert staticOne seq tensor pos = Some out /\ mShape out = [n + 1] /\
    forall q, 0 <= q <= n -> mAt out [q] = if q =? place then Some tensor else if place + 1 <? q then Some (x (q - 1)) else None.
Proof.
  intros HO B P. unfold sequenceInsert, seqLen. rewrite HS. cbn [nth].
  replace (match pos with None => n | Some p => fixPosition n p end) with place by (destruct pos; [now rewrite (fixPosition_ok n place) | auto]).
  assert (X : exists m, (if staticOne then Some (alloc [n + 1]) else
          out <- forLoop 0 place (fun k out => element <- load seq [k] ;; store out [place] element) (alloc [n + 1]) ;;
          forLoop (place + 1) n (fun k out => element <- load seq [k] ;; store out [k + 1] element) out) = Some m /\ mShape m = [n + 1] /\
          forall q, 0 <= q <= n -> q <> place -> mAt m [q] = if place + 1 <? q then Some (x (q - 1)) else None).
  { destruct staticOne.
    - specialize (HO eq_refl). eexists. split; [reflexivity|]. split; [reflexivity|]. intros; lia.
    - unfold forLoop. destruct (copies (fun _ => place) (n + 1) (map (fun k => 0 + k) (zrange (place - 0))) (alloc [n + 1]) eq_refl) as (m1 & E1 & S1 & U1 & _).
      { intros k Hk. apply shifted_In in Hk. lia. }
      rewrite E1. cbn [obind]. destruct (copies (fun k => k + 1) (n + 1) (map (fun k => place + 1 + k) (zrange (n - (place + 1)))) m1 S1) as (m2 & E2 & S2 & U2 & W2).
      { intros k Hk. apply shifted_In in Hk. lia. }
      exists m2. split; [exact E2|]. split; [exact S2|]. intros q Bq N. destruct (Z.ltb_spec (place + 1) q).
      + apply W2; [intros k _ <-; f_equal; lia|]. exists (q - 1). split; [apply shifted_In|]; lia.
      + rewrite U2 by (intros k Hk; apply shifted_In in Hk; lia). rewrite U1 by (intros; lia). reflexivity. }
  destruct X as (m & -> & Sm & M). cbn [obind]. rewrite store_ok by (rewrite Sm; apply valid1; lia).
  eexists. split; [reflexivity|]. split; [exact Sm|]. intros q Bq. cbn [mAt]. rewrite ieqb1, (Z.eqb_sym place q). destruct (Z.eqb_spec q place); [reflexivity|]. now apply M.
Qed.

Lemma erase_ok pos place : 0 <= place < n -> place = 0 \/ place < n - 1 ->
  match pos with None => place = n - 1 | Some p => names_place n place p end ->
  exists out, sequenceErase seq pos = Some out /\ mShape out = [n - 1] /\
    forall q, 0 <= q < n - 1 -> mAt out [q] = if place <=? q then Some (x (q + 1)) else None.
Proof.
  intros B L P. unfold sequenceErase, seqLen. rewrite HS. cbn [nth].
  replace (match pos with None => n - 1 | Some p => fixPosition n p end) with place by (destruct pos; [rewrite (fixPosition_ok n place); auto; lia | auto]). cbn zeta.
  unfold forLoop. destruct (copies (fun _ => place) (n - 1) (map (fun k => 0 + k) (zrange (place - 0))) (alloc [n - 1]) eq_refl) as (m1 & E1 & S1 & U1 & _).
  { intros k Hk. apply shifted_In in Hk. lia. }
  rewrite E1. cbn [obind]. destruct (copies (fun k => k - 1) (n - 1) (map (fun k => place + 1 + k) (zrange (n - (place + 1)))) m1 S1) as (m2 & E2 & S2 & U2 & W2).
  { intros k Hk. apply shifted_In in Hk. lia. }
  exists m2. split; [exact E2|]. split; [exact S2|]. intros q Bq. destruct (Z.leb_spec place q).
  - apply W2; [intros k _ <-; f_equal; lia|]. exists (q + 1). split; [apply shifted_In|]; lia.
  - rewrite U2 by (intros k Hk; apply shifted_In in Hk; lia). rewrite U1 by (intros; lia). reflexivity.
Qed.
Lemma erase_last pos : 2 <= n -> match pos with None => True | Some p => names_place n (n - 1) p end -> sequenceErase seq pos = None.
Proof.
  intros B P. unfold sequenceErase, seqLen. rewrite HS. cbn [nth].
  replace (match pos with None => n - 1 | Some p => fixPosition n p end) with (n - 1) by (destruct pos; [rewrite (fixPosition_ok n (n - 1)); auto; lia | auto]). cbn zeta.
  unfold forLoop, zrange. replace (Z.to_nat (n - 1 - 0)) with (S (Z.to_nat (n - 2))) by lia. cbn [zseq map foldM]. rewrite load_ok, HX by (rewrite ?HS; try apply valid1; lia). cbn [obind].
  unfold store, alloc. cbn [mShape inb]. destruct (Z.ltb_spec (n - 1) (n - 1)); [lia|]. rewrite andb_false_r. reflexivity.
Qed.
Lemma at_ok pos place : 0 <= place < n -> names_place n place pos -> sequenceAt seq pos = Some (x place).
Proof. intros B P. unfold sequenceAt, seqLen. rewrite HS. cbn [nth]. rewrite (fixPosition_ok n place) by (auto; lia). rewrite load_ok, HX; auto. rewrite HS. now apply valid1. Qed.
End S.
