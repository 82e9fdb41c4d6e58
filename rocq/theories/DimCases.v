(* Concrete programs and runs for C53: a program that meets all hypotheses, and programs
   for which the analysis says something false or does not end.  The hypotheses are
   checked by boolean functions proved correct here. *)
From Coq Require Import List Arith Bool ZArith Lia.
Import ListNotations.
From Verif Require Import Util DimSpec DimModel DimProofs DimProps DimEnd.
Open Scope Z_scope.

Definition T (l : list (option Z)) : ty := {| tdims := l; tI64 := true |}.
Definition I32 (l : list (option Z)) : ty := {| tdims := l; tI64 := false |}.
Definition O_ (k : kind) (i : list nat) (o : list nat) : op :=
  {| okind := k; ins := map Some i; outs := o; helper := fun _ _ _ _ => false |}.
(* ... whose result has the unknown dimensions of the first operand, axis by axis *)
Definition H_ (k : kind) (i : list nat) (o : list nat) : op :=
  {| okind := k; ins := map Some i; outs := o;
     helper := fun j a n b => Nat.eqb j 0 && Nat.eqb n 0 && Nat.eqb a b |}.

Record text := {
  tTys : list ty; tOps : list op; tArgs : list nat; tRets : list nat;
  tPar : list (nat * nat * nat);     (* argument, axis, parameter *)
  tShp : list (list Z); tDat : list (list Z)
}.
Definition parOf (l : list (nat * nat * nat)) (i a : nat) : option nat :=
  option_map snd (find (fun e => Nat.eqb (fst (fst e)) i && Nat.eqb (snd (fst e)) a) l).
Definition P_ (t : text) : prog :=
  {| types := fun v => nth v (tTys t) (T []); ops := tOps t; targets := fun _ => true;
     args := tArgs t; rets := tRets t; argParam := parOf (tPar t); retParam := fun _ _ => None |}.
Definition R_ (t : text) : run :=
  {| shp := fun v => nth v (tShp t) []; dat := fun v => nth v (tDat t) [] |}.

Definition all_lt (n : nat) (f : nat -> bool) : bool := forallb f (seq 0 n).
Lemma all_lt_ok n f : all_lt n f = true -> forall i, (i < n)%nat -> f i = true.
Proof. unfold all_lt. rewrite forallb_forall. intros H i Hi. apply H, in_seq. lia. Qed.

Fixpoint nodupb (l : list nat) : bool :=
  match l with [] => true | x :: r => negb (existsb (Nat.eqb x) r) && nodupb r end.
Lemma nodupb_ok l : nodupb l = true -> NoDup l.
Proof.
  induction l as [|x l IH]; cbn; intros H; constructor; apply andb_true_iff in H as [H1 H2]; auto.
  intros Hin. apply negb_true_iff in H1.
  assert (existsb (Nat.eqb x) l = true) by (apply existsb_exists; exists x; split; auto; apply Nat.eqb_refl). congruence.
Qed.

Definition oneElemB (p : prog) (v : nat) : bool :=
  match tdims (types p v) with [Some d] => d =? 1 | _ => false end.
Lemma oneElemB_ok p v : oneElemB p v = true <-> oneElem p v.
Proof.
  unfold oneElemB, oneElem. destruct (tdims (types p v)) as [|[d|] [|]]; split; intros H; try discriminate.
  - apply Z.eqb_eq in H. now subst.
  - injection H as ->. reflexivity.
Qed.

Definition staticB (p : prog) (v : nat) : bool := all_lt (length (tdims (types p v))) (fun a => negb (dynDim p v a)).
Lemma staticB_ok p v : staticB p v = true -> forall a, ~ isDyn p v a.
Proof.
  intros H a Ha. assert (L : (a < length (tdims (types p v)))%nat) by (apply nth_error_Some; unfold isDyn in Ha; congruence).
  pose proof (all_lt_ok _ _ H a L) as E. cbn beta in E. apply dynDim_true in Ha. rewrite Ha in E. discriminate.
Qed.

Definition lastDynB (p : prog) (v : nat) : bool :=
  match nth_error (rev (tdims (types p v))) 0 with Some None => true | _ => false end.

Definition typedOpB (p : prog) (o : op) : bool :=
  match okind o, ins o, outs o with
  | KDim a, [Some x], [y] => oneElemB p y && dynDim p x a
  | KCast, [Some x], [y] =>
      if list_eq_dec (fun a b : option Z => ltac:(decide equality; apply Z.eq_dec)) (tdims (types p y)) (tdims (types p x))
      then true else false
  | KRecurrent _, _ :: Some s :: _, _ => negb (oneElemB p s)
  | KConstant _ _, _, [y] => staticB p y
  | KConcat _, l, [y] => forallb (fun x => Bool.eqb (tI64 (types p x)) (tI64 (types p y))) (given l)
  | KExpand, [_; Some s], _ => tI64 (types p s)
  | KAdd, l, [y] | KBroadcast, l, [y] =>
      all_lt (length (given l)) (fun i => all_lt (length (given l)) (fun j =>
        Nat.eqb i j || negb (oneElemB p (nth i (given l) O)) || lastDynB p (nth j (given l) O) || negb (lastDynB p y)))
  | _, _, _ => true
  end.

Definition typedB (t : text) : bool :=
  nodupb (flat_map outs (tOps t)) && forallb (typedOpB (P_ t)) (tOps t).

Lemma nodup_app_l {A} (a b : list A) : NoDup (a ++ b) -> NoDup a.
Proof. induction a; cbn; intros H; constructor; inversion H; subst; auto. intros Hin. apply H2, in_app_iff. auto. Qed.
Lemma nodup_app_r {A} (a b : list A) : NoDup (a ++ b) -> NoDup b.
Proof. induction a; cbn; auto. intros H. inversion H; auto. Qed.
Lemma nodup_app_x {A} (a b : list A) x : NoDup (a ++ b) -> In x a -> In x b -> False.
Proof.
  induction a as [|y a IH]; cbn; intros H; [tauto|]. inversion H; subst. intros [->|Ha] Hb; [|auto].
  apply H2, in_app_iff. auto.
Qed.

Lemma typedB_ok t : typedB t = true -> WellTyped (P_ t).
Proof.
  intros H. apply andb_true_iff in H as [H1 H2]. apply nodupb_ok in H1. rewrite forallb_forall in H2.
  split; [|split].
  - cbn [ops P_]. clear H2. revert H1. generalize (tOps t). induction l as [|o l IH]; intros ND i j oi oj v Hi Hj Vi Vj.
    + destruct i; discriminate.
    + cbn [flat_map] in ND. destruct i as [|i], j as [|j]; cbn in Hi, Hj; auto.
      * injection Hi as ->. exfalso. eapply nodup_app_x; eauto. apply in_flat_map. exists oj. split; auto. eapply nth_error_In; eauto.
      * injection Hj as ->. exfalso. eapply nodup_app_x; eauto. apply in_flat_map. exists oi. split; auto. eapply nth_error_In; eauto.
      * f_equal. eapply IH; eauto. eapply nodup_app_r; eauto.
  - cbn [ops P_]. clear H2. revert H1. generalize (tOps t). induction l as [|o' l IH]; intros ND o Ho; [destruct Ho|].
    cbn [flat_map] in ND. destruct Ho as [->|Ho]; [eapply nodup_app_l; eauto|]. apply IH; auto. eapply nodup_app_r; eauto.
  - intros o Ho. specialize (H2 o Ho). unfold typedOpB in H2.
    assert (B : forall l y, all_lt (length (given l)) (fun i => all_lt (length (given l)) (fun j =>
        Nat.eqb i j || negb (oneElemB (P_ t) (nth i (given l) O)) || lastDynB (P_ t) (nth j (given l) O) || negb (lastDynB (P_ t) y))) = true ->
        forall i j a b, nth_error (given l) i = Some a -> nth_error (given l) j = Some b ->
           i <> j -> oneElem (P_ t) a ->
           nth_error (rev (tdims (types (P_ t) b))) 0 <> Some None ->
           nth_error (rev (tdims (types (P_ t) y))) 0 <> Some None).
    { intros l y HB i j a b Hi Hj Hn H1' H2'.
      assert (Li : (i < length (given l))%nat) by (apply nth_error_Some; congruence).
      assert (Lj : (j < length (given l))%nat) by (apply nth_error_Some; congruence).
      pose proof (all_lt_ok _ _ (all_lt_ok _ _ HB i Li) j Lj) as E. cbn beta in E.
      rewrite (nth_error_nth _ _ _ Hi), (nth_error_nth _ _ _ Hj) in E.
      apply oneElemB_ok in H1'. rewrite H1' in E. apply Nat.eqb_neq in Hn. rewrite Hn in E. cbn [negb orb] in E.
      apply orb_true_iff in E as [E|E].
      - unfold lastDynB in E. destruct (nth_error (rev (tdims (types (P_ t) b))) 0) as [[|]|]; congruence.
      - unfold lastDynB in E. destruct (nth_error (rev (tdims (types (P_ t) y))) 0) as [[|]|]; cbn in E; congruence. }
    destruct (okind o); auto.
    + destruct (outs o) as [|y [|]]; auto. apply staticB_ok. auto.
    + destruct (ins o) as [|[x|] [|]]; auto. destruct (outs o) as [|y [|]]; auto. apply andb_true_iff in H2 as [E1 E2].
      split; [apply oneElemB_ok; auto|apply dynDim_true; auto].
    + destruct (ins o) as [|[x|] [|]]; auto. destruct (outs o) as [|y [|]]; auto.
      destruct (list_eq_dec _ _ _); auto. discriminate.
    + destruct (outs o) as [|y [|]]; auto. rewrite forallb_forall in H2. intros x Hx.
      apply Bool.eqb_prop, H2, given_In. auto.
    + destruct (ins o) as [|x [|[s|] ?]]; auto. intros E. apply oneElemB_ok in E. rewrite E in H2. discriminate.
    + destruct (outs o) as [|y [|]]; auto. exact (B _ _ H2).
    + destruct (outs o) as [|y [|]]; auto. exact (B _ _ H2).
    + destruct (ins o) as [|x [|[s|] [|]]]; auto.
Qed.

(* runs *)
Definition listEqb (a b : list Z) : bool := if list_eq_dec Z.eq_dec a b then true else false.
Lemma listEqb_ok a b : listEqb a b = true -> a = b.
Proof. unfold listEqb. destruct (list_eq_dec Z.eq_dec a b); congruence. Qed.

Definition bcast1B (l : list Z) (d : Z) : bool :=
  existsb (Z.eqb d) l && forallb (fun x => (x =? 1) || (x =? d)) l.
Lemma bcast1B_ok l d : bcast1B l d = true -> bcast1 l d.
Proof.
  intros H. apply andb_true_iff in H as [H1 H2]. split.
  - apply existsb_exists in H1 as (x & Hx & E). apply Z.eqb_eq in E. now subst.
  - rewrite forallb_forall in H2. intros x Hx. specialize (H2 x Hx). apply orb_true_iff in H2 as [E|E]; apply Z.eqb_eq in E; auto.
Qed.
Definition bcastB (l : list (list Z)) (s : list Z) : bool :=
  Nat.eqb (length s) (fold_right Nat.max O (map (@length Z) l)) &&
  all_lt (length s) (fun k => bcast1B (map (fun x => fromEnd x k) l) (fromEnd s k)).
Lemma bcastB_ok l s : bcastB l s = true -> bcast l s.
Proof.
  intros H. apply andb_true_iff in H as [H1 H2]. apply Nat.eqb_eq in H1. split; auto.
  intros k Hk. apply bcast1B_ok. apply (all_lt_ok _ _ H2 k Hk).
Qed.

Definition opRunsB (r : run) (o : op) : bool :=
  match okind o, ins o, outs o with
  | KConstant vals s, _, [y] =>
      listEqb (dat r y) vals &&
      match s, vals with Some z, x :: _ => z =? x | _, _ => true end
  | KDim a, [Some x], [y] => (a <? length (shp r x))%nat && listEqb (dat r y) [at_ (shp r x) a]
  | KCast, [Some x], [y] => listEqb (shp r y) (shp r x) && listEqb (dat r y) (dat r x)
  | KConcat axis, l, [y] =>
      let a := normAxis axis (length (shp r y)) in
      (0 <=? a) && (a <? Z.of_nat (length (shp r y))) &&
      forallb (fun x => Nat.eqb (length (shp r x)) (length (shp r y)) &&
         all_lt (length (shp r y)) (fun i => (Z.of_nat i =? a) || (at_ (shp r x) i =? at_ (shp r y) i))) (given l) &&
      (at_ (shp r y) (Z.to_nat a) =? sumZ (map (fun x => at_ (shp r x) (Z.to_nat a)) (given l))) &&
      (negb (Nat.eqb (length (shp r y)) 1) || listEqb (dat r y) (concat (map (dat r) (given l))))
  | KRecurrent layout, [Some x; Some sl; Some h; Some c], _ =>
      let b := if layout =? 0 then 1%nat else 0%nat in
      Nat.eqb (length (shp r x)) 3 &&
      (Nat.eqb (length (shp r sl)) 1 && (at_ (shp r sl) 0 =? at_ (shp r x) b)) &&
      (Nat.eqb (length (shp r h)) 3 && (at_ (shp r h) b =? at_ (shp r x) b)) &&
      (Nat.eqb (length (shp r c)) 3 && (at_ (shp r c) b =? at_ (shp r x) b))
  | KAdd, [Some a; Some b], [y] =>
      bcastB [shp r a; shp r b] (shp r y) &&
      match dat r a, dat r b with [x], [z] => listEqb (dat r y) [x + z] | _, _ => true end
  | KBroadcast, l, [y] => bcastB (map (shp r) (given l)) (shp r y)
  | KExpand, [Some x; Some s], [y] => Nat.eqb (length (shp r s)) 1 && bcastB [shp r x; dat r s] (shp r y)
  | KReshape az, [Some x; Some s], [y] =>
      Nat.eqb (length (shp r y)) (length (dat r s)) && (prodZ (shp r y) =? prodZ (shp r x)) &&
      listEqb (dat r y) (dat r x) &&
      all_lt (length (dat r s)) (fun i =>
        negb (0 <? at_ (dat r s) i) || (at_ (shp r y) i =? at_ (dat r s) i)) &&
      all_lt (length (dat r s)) (fun i =>
        negb (at_ (dat r s) i =? 0) || (at_ (shp r y) i =? if az =? 0 then at_ (shp r x) i else 0))
  | KConstantOfShape, [Some s], [y] => listEqb (shp r y) (dat r s)
  | KOther, _, _ => true
  | _, _, _ => false
  end.

Ltac bools := repeat match goal with
  | H : _ && _ = true |- _ => apply andb_true_iff in H as [? H]
  | H : listEqb _ _ = true |- _ => apply listEqb_ok in H
  | H : Nat.eqb _ _ = true |- _ => apply Nat.eqb_eq in H
  | H : Z.eqb _ _ = true |- _ => apply Z.eqb_eq in H
  end.

Lemma opRunsB_ok r o : opRunsB r o = true -> opRuns r o.
Proof.
  unfold opRunsB, opRuns. intros H. destruct (okind o); try discriminate; auto.
  - destruct (outs o) as [|y [|]]; try discriminate. apply andb_true_iff in H as [H1 H2]. apply listEqb_ok in H1. split; auto.
    intros x rest -> Hs. destruct scalar as [z|]; [|congruence]. apply Z.eqb_eq in H2. now subst.
  - destruct (ins o) as [|[x|] [|]]; try discriminate. destruct (outs o) as [|y [|]]; try discriminate.
    apply andb_true_iff in H as [H1 H2]. apply Nat.ltb_lt in H1. apply listEqb_ok in H2. auto.
  - destruct (ins o) as [|[x|] [|]]; try discriminate. destruct (outs o) as [|y [|]]; try discriminate.
    apply andb_true_iff in H as [H1 H2]. apply listEqb_ok in H1. apply listEqb_ok in H2. auto.
  - destruct (outs o) as [|y [|]]; try (exfalso; destruct (ins o); discriminate).
    cbn zeta in *. set (a := normAxis axis (length (shp r y))) in *.
    apply andb_true_iff in H as [H H5]. apply andb_true_iff in H as [H H4]. apply andb_true_iff in H as [H H3].
    apply andb_true_iff in H as [H1 H2]. apply Z.leb_le in H1. apply Z.ltb_lt in H2. apply Z.eqb_eq in H4.
    rewrite forallb_forall in H3. split; [lia|]. split; [|split; auto].
    + intros x Hx. apply given_In in Hx. specialize (H3 x Hx). apply andb_true_iff in H3 as [L E]. apply Nat.eqb_eq in L.
      split; auto. intros i Hi Hn. pose proof (all_lt_ok _ _ E i Hi) as E'. cbn beta in E'.
      apply orb_true_iff in E' as [E'|E']; apply Z.eqb_eq in E'; congruence.
    + intros L. apply orb_true_iff in H5 as [H5|H5]; [|apply listEqb_ok; auto].
      apply negb_true_iff, Nat.eqb_neq in H5. congruence.
  - destruct (ins o) as [|[x|] [|[sl|] [|[h|] [|[c|] [|]]]]]; try discriminate.
    cbn zeta in *. apply andb_true_iff in H as [H H4]. apply andb_true_iff in H as [H H3]. apply andb_true_iff in H as [H1 H2].
    apply andb_true_iff in H2 as [A2 B2]. apply andb_true_iff in H3 as [A3 B3]. apply andb_true_iff in H4 as [A4 B4].
    apply Nat.eqb_eq in H1, A2, A3, A4. apply Z.eqb_eq in B2, B3, B4.
    split; auto. split; [|split]; intros v E; injection E as <-; auto.
  - destruct (ins o) as [|[a|] [|[b|] [|]]]; try discriminate. destruct (outs o) as [|y [|]]; try discriminate.
    apply andb_true_iff in H as [H1 H2]. split; [apply bcastB_ok; auto|]. intros x z Ex Ez. rewrite Ex, Ez in H2.
    apply listEqb_ok; auto.
  - destruct (outs o) as [|y [|]]; try (exfalso; destruct (ins o); discriminate). apply bcastB_ok; auto.
  - destruct (ins o) as [|[a|] [|[b|] [|]]]; try discriminate. destruct (outs o) as [|y [|]]; try discriminate.
    apply andb_true_iff in H as [H1 H2]. apply Nat.eqb_eq in H1. split; auto. apply bcastB_ok; auto.
  - destruct (ins o) as [|[a|] [|[b|] [|]]]; try discriminate. destruct (outs o) as [|y [|]]; try discriminate.
    apply andb_true_iff in H as [H H5]. apply andb_true_iff in H as [H H4]. apply andb_true_iff in H as [H H3].
    apply andb_true_iff in H as [H1 H2]. apply Nat.eqb_eq in H1. apply Z.eqb_eq in H2. apply listEqb_ok in H3.
    split; auto. split; auto. split; auto. split.
    + intros i Hi Hp. pose proof (all_lt_ok _ _ H4 i Hi) as E. cbn beta in E. apply orb_true_iff in E as [E|E].
      * apply negb_true_iff, Z.ltb_ge in E. lia.
      * apply Z.eqb_eq in E. auto.
    + intros i Hi Hp. pose proof (all_lt_ok _ _ H5 i Hi) as E. cbn beta in E. apply orb_true_iff in E as [E|E].
      * apply negb_true_iff, Z.eqb_neq in E. lia.
      * apply Z.eqb_eq in E. auto.
  - destruct (ins o) as [|[a|] [|]]; try discriminate. destruct (outs o) as [|y [|]]; try discriminate.
    apply listEqb_ok; auto.
Qed.

Fixpoint agreeB (t : list (option Z)) (s : list Z) : bool :=
  match t, s with
  | [], [] => true
  | x :: t', d :: s' => match x with None => true | Some e => e =? d end && agreeB t' s'
  | _, _ => false
  end.
Lemma agreeB_ok t : forall s, agreeB t s = true -> Forall2 (fun t d => t = None \/ t = Some d) t s.
Proof.
  induction t as [|x t IH]; intros [|d s] H; try discriminate; constructor; apply andb_true_iff in H as [H1 H2]; auto.
  destruct x; auto. apply Z.eqb_eq in H1. subst. auto.
Qed.

(* The parameters: [f] gives their sizes. *)
Definition paramsB (t : text) (f : nat -> Z) : bool :=
  forallb (fun e => match nth_error (tArgs t) (fst (fst e)) with
                    | Some v => at_ (shp (R_ t) v) (snd (fst e)) =? f (snd e)
                    | None => true end) (tPar t).

Definition runsB (t : text) (f : nat -> Z) : bool :=
  Nat.eqb (length (tTys t)) (length (tShp t)) &&
  all_lt (length (tTys t)) (fun v => agreeB (tdims (types (P_ t) v)) (shp (R_ t) v)) &&
  all_lt (length (tTys t)) (fun v => negb (Nat.eqb (length (shp (R_ t) v)) 1) || negb (tI64 (types (P_ t) v)) ||
    (Z.of_nat (length (dat (R_ t) v)) =? at_ (shp (R_ t) v) 0)) &&
  forallb (opRunsB (R_ t)) (tOps t) && paramsB t f.

Lemma runsB_ok t f : runsB t f = true -> Runs (P_ t) (R_ t).
Proof.
  intros H. apply andb_true_iff in H as [H H5]. apply andb_true_iff in H as [H H4]. apply andb_true_iff in H as [H H3].
  apply andb_true_iff in H as [H1 H2]. apply Nat.eqb_eq in H1. rewrite forallb_forall in H4.
  split; [|split; [|split]].
  - intros v. destruct (Nat.lt_ge_cases v (length (tTys t))) as [L|L].
    + apply agreeB_ok. apply (all_lt_ok _ _ H2 v L).
    + cbn. rewrite !nth_overflow by lia. constructor.
  - intros v L1 L2. destruct (Nat.lt_ge_cases v (length (tTys t))) as [L|L].
    + pose proof (all_lt_ok _ _ H3 v L) as E. cbn beta in E. rewrite L1, L2 in E. cbn [negb Nat.eqb orb] in E.
      apply Z.eqb_eq in E. auto.
    + cbn in L1. rewrite nth_overflow in L1 by lia. discriminate.
  - intros o Ho. apply opRunsB_ok. auto.
  - exists f. split.
    + intros i v a q Hi Hq _. cbn in Hi, Hq. unfold parOf in Hq.
      destruct (find _ (tPar t)) as [e|] eqn:E; [|discriminate]. injection Hq as <-. apply find_some in E as [E1 E2].
      unfold paramsB in H5. rewrite forallb_forall in H5. specialize (H5 e E1). apply andb_true_iff in E2 as [E2 E3].
      apply Nat.eqb_eq in E2. apply Nat.eqb_eq in E3. subst. rewrite Hi in H5. apply Z.eqb_eq in H5. auto.
    + discriminate.
Qed.

Definition helpersB (t : text) : bool :=
  let p := P_ t in let r := R_ t in
  forallb (fun o =>
    all_lt (length (outs o)) (fun j => all_lt (length (ins o)) (fun i =>
      match nth_error (outs o) j, nth_error (ins o) i with
      | Some v, Some (Some w) =>
          all_lt (rankOf p v) (fun a => all_lt (rankOf p w) (fun b =>
            negb (helper o j a i b) || negb (dynDim p v a) || negb (dynDim p w b) ||
            (at_ (shp r v) a =? at_ (shp r w) b)))
      | _, _ => true
      end))) (tOps t).

Lemma helpersB_ok t : helpersB t = true -> HelperTrue (P_ t) (R_ t).
Proof.
  intros H o j a i b v w Ho Hv Hw Hh Dv Dw. unfold helpersB in H. rewrite forallb_forall in H.
  assert (Lj : (j < length (outs o))%nat) by (apply nth_error_Some; congruence).
  assert (Li : (i < length (ins o))%nat) by (apply nth_error_Some; congruence).
  pose proof (all_lt_ok _ _ (all_lt_ok _ _ (H o Ho) j Lj) i Li) as E. cbn beta in E. rewrite Hv, Hw in E.
  assert (La : (a < rankOf (P_ t) v)%nat) by (apply nth_error_Some; unfold isDyn in Dv; congruence).
  assert (Lb : (b < rankOf (P_ t) w)%nat) by (apply nth_error_Some; unfold isDyn in Dw; congruence).
  pose proof (all_lt_ok _ _ (all_lt_ok _ _ E a La) b Lb) as E'. cbn beta in E'.
  apply dynDim_true in Dv. apply dynDim_true in Dw. rewrite Hh, Dv, Dw in E'. cbn [negb orb] in E'. apply Z.eqb_eq in E'. auto.
Qed.

(* the three clauses of Ordinary *)
Definition nonEmptyB (t : text) : bool := forallb (forallb (fun d => 0 <? d)) (tShp t).
Definition constB (t : text) (v : nat) : bool :=
  existsb (fun o => existsb (Nat.eqb v) (outs o) && match okind o with KConstant _ _ => true | _ => false end) (tOps t).
Definition entriesB (t : text) : bool :=
  forallb (fun o => match okind o with
    | KConcat _ => forallb (fun w => negb (oneElemB (P_ t) w) || constB t w || forallb (fun d => 0 <? d) (dat (R_ t) w)) (given (ins o))
    | _ => true end) (tOps t).
Definition plainB (t : text) : bool :=
  forallb (fun o => match okind o, ins o, outs o with
    | KBroadcast, l, [y] => (length l <=? 2)%nat || forallb (fun v => listEqb (shp (R_ t) v) (shp (R_ t) y)) (given l)
    | KExpand, [Some x; Some s], [y] => listEqb (shp (R_ t) y) (dat (R_ t) s)
    | _, _, _ => true end) (tOps t).

Lemma constB_ok t v : constB t v = true -> isConstant (P_ t) v.
Proof.
  intros H. apply existsb_exists in H as (o & Ho & E). apply andb_true_iff in E as [E1 E2].
  apply existsb_exists in E1 as (w & Hw & E). apply Nat.eqb_eq in E. subst w.
  destruct (okind o) eqn:K; try discriminate. exists o, vals, scalar. auto.
Qed.

Lemma ordinaryB_ok t : nonEmptyB t && entriesB t && plainB t = true -> Ordinary (P_ t) (R_ t).
Proof.
  intros H. apply andb_true_iff in H as [H H3]. apply andb_true_iff in H as [H1 H2].
  unfold nonEmptyB, entriesB, plainB in *. rewrite forallb_forall in H1, H2, H3.
  split; [|split].
  - intros v d Hd. cbn in Hd. destruct (Nat.lt_ge_cases v (length (tShp t))) as [L|L].
    + specialize (H1 _ (nth_In _ [] L)). rewrite forallb_forall in H1. apply Z.ltb_lt. auto.
    + rewrite nth_overflow in Hd by auto. destruct Hd.
  - intros o w d Ho (a & K) Hw H1' Hc Hd. specialize (H2 o Ho). rewrite K, forallb_forall in H2.
    apply given_In in Hw. specialize (H2 w Hw). apply oneElemB_ok in H1'. rewrite H1' in H2. cbn [negb orb] in H2.
    apply orb_true_iff in H2 as [H2|H2]; [exfalso; apply Hc, constB_ok; auto|].
    rewrite forallb_forall in H2. apply Z.ltb_lt. auto.
  - intros o Ho. specialize (H3 o Ho). destruct (okind o); auto.
    + destruct (outs o) as [|y [|]]; auto. apply orb_true_iff in H3 as [H3|H3]; [left; apply Nat.leb_le; auto|].
      right. intros v Hv. apply listEqb_ok. rewrite forallb_forall in H3. apply H3, given_In. auto.
    + destruct (ins o) as [|[x|] [|[s|] [|]]]; auto. destruct (outs o) as [|y [|]]; auto. apply listEqb_ok. auto.
Qed.

(* OffsetSafe, when Add has no constant operand *)
Definition computedB (t : text) (v : nat) : bool :=
  existsb (fun o => existsb (Nat.eqb v) (outs o) && match okind o with KCast => false | _ => true end) (tOps t).
Definition safeB (t : text) : bool :=
  forallb (fun o => match okind o, ins o with
    | KAdd, [Some a; Some b] => negb (constB t a) && negb (constB t b)
    | KDim _, [Some x] => computedB t x ||
        forallb (fun d => match d with Some z => negb (z =? 1) | None => true end) (tdims (types (P_ t) x))
    | _, _ => true end) (tOps t).

Lemma constB_no t v : constB t v = false -> ~ isConstant (P_ t) v.
Proof.
  intros H (o & vals & s & Ho & Hv & K). assert (constB t v = true); [|congruence].
  apply existsb_exists. exists o. split; auto. rewrite K, andb_true_r. apply existsb_exists. exists v. split; auto.
  apply Nat.eqb_refl.
Qed.

Lemma safeB_ok t : safeB t = true -> OffsetSafe (P_ t) (R_ t).
Proof.
  intros H o Ho. unfold safeB in H. rewrite forallb_forall in H. specialize (H o Ho).
  destruct (okind o); auto.
  - destruct axis; auto. destruct (ins o) as [|[x|] [|]]; auto. destruct (outs o) as [|y [|]]; auto.
    apply orb_true_iff in H as [H|H].
    + left. apply existsb_exists in H as (o' & Ho' & E). apply andb_true_iff in E as [E1 E2].
      apply existsb_exists in E1 as (w & Hw & E). apply Nat.eqb_eq in E. subst w. exists o'. split; auto. split; auto.
      intros K. rewrite K in E2. discriminate.
    + right. rewrite forallb_forall in H. intros i E. apply nth_error_In in E. specialize (H _ E). discriminate.
  - destruct (ins o) as [|[a|] [|[b|] [|]]]; auto. destruct (outs o) as [|y [|]]; auto.
    apply andb_true_iff in H as [Ha Hb]. apply negb_true_iff in Ha, Hb. apply constB_no in Ha, Hb.
    assert (NS : forall v s, ~ isConstant (P_ t) v -> ~ constScalar (P_ t) v s).
    { intros v s Hn (o' & vals & H1 & H2 & H3). apply Hn. exists o', vals, s. auto. }
    split; [|split].
    + intros _. split; intros s Hs; exfalso; [exact (NS _ _ Hb Hs)|exact (NS _ _ Ha Hs)].
    + intros x Hc. contradiction.
    + intros x Hc. contradiction.
Qed.

Definition answers (x : outcome state) (f : state -> bool) : bool :=
  match x with Ok st => f st | _ => false end.
Lemma answers_ok x f : answers x f = true -> exists st, x = Ok st /\ f st = true.
Proof. destruct x; try discriminate. cbn. eauto. Qed.

(* x, y : [n, 4], n a parameter; d = Dim(x, 0); s = [d, 4]; w = ConstantOfShape(s);
   z = Add(x, w); t = Concat(y, 3x4 constant); u = Concat(z, same constant); e = Dim(z, 0). *)
Definition goodT : text := {|
  tTys := [T [None; Some 4]; T [None; Some 4]; T [Some 1]; T [Some 1]; T [Some 2]; T [None; Some 4];
           T [None; Some 4]; T [Some 3; Some 4]; T [None; Some 4]; T [None; Some 4]; T [Some 1]];
  tOps := [O_ (KDim 0) [0]%nat [2]%nat; O_ (KConstant [4] (Some 4)) [] [3]%nat; O_ (KConcat 0) [2; 3]%nat [4]%nat;
           O_ KConstantOfShape [4]%nat [5]%nat; O_ KAdd [0; 5]%nat [6]%nat;
           O_ (KConstant [] (Some 0)) [] [7]%nat; O_ (KConcat 0) [1; 7]%nat [8]%nat; O_ (KConcat 0) [6; 7]%nat [9]%nat;
           O_ (KDim 0) [6]%nat [10]%nat];
  tArgs := [0; 1]%nat; tRets := [8; 9]%nat; tPar := [(0, 0, 7); (1, 0, 7)]%nat;
  tShp := [[5; 4]; [5; 4]; [1]; [1]; [2]; [5; 4]; [5; 4]; [3; 4]; [8; 4]; [8; 4]; [1]];
  tDat := [[]; []; [5]; [4]; [5; 4]; []; []; []; []; []; [5]] |}.

Example goodT_meets_hypotheses :
  WellTyped (P_ goodT) /\ Runs (P_ goodT) (R_ goodT) /\ HelperTrue (P_ goodT) (R_ goodT) /\
  Ordinary (P_ goodT) (R_ goodT) /\ OffsetSafe (P_ goodT) (R_ goodT) /\
  unknownSize (P_ goodT) (R_ goodT) 1 (-2) 5 /\ unknownSize (P_ goodT) (R_ goodT) 8 (-2) 8.
Proof.
  split; [apply typedB_ok; vm_compute; reflexivity|].
  split; [apply (runsB_ok goodT (fun _ => 5)); vm_compute; reflexivity|].
  split; [apply helpersB_ok; vm_compute; reflexivity|].
  split; [apply ordinaryB_ok; vm_compute; reflexivity|].
  split; [apply safeB_ok; vm_compute; reflexivity|].
  split; split; reflexivity.
Qed.

Example goodT_answers :
  answers (analyze 20 (P_ goodT) true) (fun st =>
    sameShape (P_ goodT) st 0 6 && sameDim (P_ goodT) (sSets st) 1 0 5 0 && sameShape (P_ goodT) st 8 9 &&
    sameDynShape (P_ goodT) st 8 9 &&
    sameDimWithOffset (P_ goodT) st 1 (-2) 3 8 (-2) 0 &&
    existsb (fun s => existsb (Nat.eqb 2) (dimValues (P_ goodT) s) &&
                      existsb (Nat.eqb 10) (dimValues (P_ goodT) s)) (sSets st)) = true.
Proof. vm_compute. reflexivity. Qed.

(* [a: n x 1] against [b: n x 4]: broadcastLastDim. *)
Definition lastT : text := {|
  tTys := [T [None; Some 1]; T [None; Some 4]; T [None; Some 4]];
  tOps := [O_ KAdd [0; 1]%nat [2]%nat];
  tArgs := [0; 1]%nat; tRets := [2]%nat; tPar := [(0, 0, 7); (1, 0, 7)]%nat;
  tShp := [[5; 1]; [5; 4]; [5; 4]]; tDat := [] |}.
Example lastT_answers :
  answers (analyze 20 (P_ lastT) true) (fun st => broadcastLastDim (P_ lastT) st 0 1 && sameShape (P_ lastT) st 1 2) = true.
Proof. vm_compute. reflexivity. Qed.

(* ---------- where the analysis is wrong ---------- *)

(* "Two unknown dimensions the analysis calls equal are equal in every run" fails ... *)
Definition saysEqualButDiffer (t : text) (t1 t2 : nat) (x1 x2 : Z) : Prop :=
  exists st, (forall fuel, (20 <= fuel)%nat -> analyze fuel (P_ t) true = Ok st) /\
    sameDim (P_ t) (sSets st) t1 x1 t2 x2 = true /\
    exists n1 n2, unknownSize (P_ t) (R_ t) t1 x1 n1 /\ unknownSize (P_ t) (R_ t) t2 x2 n2 /\ n1 <> n2.

Lemma classify_more p fuel : forall ss k res, classify fuel p ss = Ok res -> classify (fuel + k) p ss = Ok res.
Proof.
  induction fuel as [|f IH]; intros ss k res H; [discriminate|]. cbn [classify Nat.add] in *.
  apply bind_Ok in H as (u & E & H). rewrite E. cbn [bind]. destruct (snd u); auto.
Qed.
Lemma propagate_more p fuel : forall st k res, propagate fuel p st = Ok res -> propagate (fuel + k) p st = Ok res.
Proof.
  induction fuel as [|f IH]; intros st k res H; [discriminate|]. cbn [propagate Nat.add] in *.
  destruct (negb _ || negb _); auto.
Qed.
Lemma analyze_more p whole fuel fuel' st : analyze fuel p whole = Ok st -> (fuel <= fuel')%nat -> analyze fuel' p whole = Ok st.
Proof.
  intros H L. replace fuel' with (fuel + (fuel' - fuel))%nat by lia. unfold analyze in *.
  apply bind_Ok in H as (ss & E1 & H). apply bind_Ok in H as (rs & E2 & H).
  rewrite (classify_more _ _ _ _ _ E1). cbn [bind]. rewrite E2. cbn [bind]. apply propagate_more; auto.
Qed.

Lemma says_differ t t1 t2 x1 x2 n1 n2 :
  answers (analyze 20 (P_ t) true) (fun st => sameDim (P_ t) (sSets st) t1 x1 t2 x2) = true ->
  unknownSize (P_ t) (R_ t) t1 x1 n1 -> unknownSize (P_ t) (R_ t) t2 x2 n2 -> n1 <> n2 ->
  saysEqualButDiffer t t1 t2 x1 x2.
Proof.
  intros H U1 U2 N. apply answers_ok in H as (st & E & H). exists st. split.
  - intros fuel L. eapply analyze_more; eauto.
  - eauto 8.
Qed.

(* ... when a constant is added to a tensor: the analysis takes y = Add(x, 5) to be five
   rows longer than x, like z = Concat(x, 5x4 constant).  All other conditions hold. *)
Definition addT : text := {|
  tTys := [T [None; Some 4]; T []; T [None; Some 4]; T [Some 5; Some 4]; T [None; Some 4]];
  tOps := [O_ (KConstant [5] (Some 5)) [] [1]%nat; H_ KAdd [0; 1]%nat [2]%nat;
           O_ (KConstant [] (Some 0)) [] [3]%nat; O_ (KConcat 0) [0; 3]%nat [4]%nat];
  tArgs := [0]%nat; tRets := [2; 4]%nat; tPar := [];
  tShp := [[1; 4]; []; [1; 4]; [5; 4]; [6; 4]]; tDat := [[]; [5]; []; []; []] |}.

Theorem C53_add_constant_refuted :
  WellTyped (P_ addT) /\ Runs (P_ addT) (R_ addT) /\ HelperTrue (P_ addT) (R_ addT) /\
  Ordinary (P_ addT) (R_ addT) /\ saysEqualButDiffer addT 2 4 0 0.
Proof.
  split; [apply typedB_ok; vm_compute; reflexivity|].
  split; [apply (runsB_ok addT (fun _ => 0)); vm_compute; reflexivity|].
  split; [apply helpersB_ok; vm_compute; reflexivity|].
  split; [apply ordinaryB_ok; vm_compute; reflexivity|].
  apply (says_differ addT 2 4 0 0 1 6); [vm_compute; reflexivity|split; reflexivity|split; reflexivity|discriminate].
Qed.

(* ... when three operands are broadcast: Sum(a, b, c) with a and b of the same length 1. *)
Definition sumT : text := {|
  tTys := [T [None]; T [None]; T [None]; T [None]];
  tOps := [O_ KBroadcast [0; 1; 2]%nat [3]%nat];
  tArgs := [0; 1; 2]%nat; tRets := [3]%nat; tPar := [(0, 0, 7); (1, 0, 7)]%nat;
  tShp := [[1]; [1]; [3]; [3]]; tDat := [[1]; [1]; [1; 1; 1]; [3; 3; 3]] |}.

Theorem C53_three_operands_refuted :
  WellTyped (P_ sumT) /\ Runs (P_ sumT) (R_ sumT) /\ HelperTrue (P_ sumT) (R_ sumT) /\
  OffsetSafe (P_ sumT) (R_ sumT) /\ saysEqualButDiffer sumT 0 3 0 0.
Proof.
  split; [apply typedB_ok; vm_compute; reflexivity|].
  split; [apply (runsB_ok sumT (fun _ => 1)); vm_compute; reflexivity|].
  split; [apply helpersB_ok; vm_compute; reflexivity|].
  split; [apply safeB_ok; vm_compute; reflexivity|].
  apply (says_differ sumT 0 3 0 0 1 3); [vm_compute; reflexivity|split; reflexivity|split; reflexivity|discriminate].
Qed.

(* ... and without any dimension 1: a and b of rank 1, c of rank 2.  The outer dimension
   of the result is taken to be that of a and b. *)
Definition rankT : text := {|
  tTys := [T [None]; T [None]; T [None; None]; T [None; None]];
  tOps := [O_ KBroadcast [0; 1; 2]%nat [3]%nat];
  tArgs := [0; 1; 2]%nat; tRets := [3]%nat; tPar := [(0, 0, 7); (1, 0, 7)]%nat;
  tShp := [[3]; [3]; [5; 3]; [5; 3]]; tDat := [[1; 2; 3]; [1; 2; 3]; []; []] |}.

Theorem C53_different_ranks_refuted :
  WellTyped (P_ rankT) /\ Runs (P_ rankT) (R_ rankT) /\ HelperTrue (P_ rankT) (R_ rankT) /\
  OffsetSafe (P_ rankT) (R_ rankT) /\ saysEqualButDiffer rankT 0 3 0 0.
Proof.
  split; [apply typedB_ok; vm_compute; reflexivity|].
  split; [apply (runsB_ok rankT (fun _ => 3)); vm_compute; reflexivity|].
  split; [apply helpersB_ok; vm_compute; reflexivity|].
  split; [apply safeB_ok; vm_compute; reflexivity|].
  apply (says_differ rankT 0 3 0 0 3 5); [vm_compute; reflexivity|split; reflexivity|split; reflexivity|discriminate].
Qed.

(* ... when Expand is asked for a dimension 1: y = Expand(x, [k]), w = ConstantOfShape([k]). *)
Definition expandT : text := {|
  tTys := [T [None]; T [Some 1]; T [Some 1]; T [None]; T [None]];
  tOps := [O_ (KConcat 0) [1]%nat [2]%nat; O_ KExpand [0; 2]%nat [3]%nat; O_ KConstantOfShape [2]%nat [4]%nat];
  tArgs := [0; 1]%nat; tRets := [3; 4]%nat; tPar := [];
  tShp := [[3]; [1]; [1]; [3]; [1]]; tDat := [[7; 8; 9]; [1]; [1]; [7; 8; 9]; [0]] |}.

Theorem C53_expand_refuted :
  WellTyped (P_ expandT) /\ Runs (P_ expandT) (R_ expandT) /\ HelperTrue (P_ expandT) (R_ expandT) /\
  OffsetSafe (P_ expandT) (R_ expandT) /\ saysEqualButDiffer expandT 3 4 0 0.
Proof.
  split; [apply typedB_ok; vm_compute; reflexivity|].
  split; [apply (runsB_ok expandT (fun _ => 0)); vm_compute; reflexivity|].
  split; [apply helpersB_ok; vm_compute; reflexivity|].
  split; [apply safeB_ok; vm_compute; reflexivity|].
  apply (says_differ expandT 3 4 0 0 3 1); [vm_compute; reflexivity|split; reflexivity|split; reflexivity|discriminate].
Qed.

(* ... when Reshape is asked at run time to copy a dimension: y = Reshape(x, [k, -1]) and
   y' = Reshape(x', [k, -1]) with k = 0. *)
Definition reshapeT : text := {|
  tTys := [T [None; None]; T [None; None]; T [Some 1]; T [Some 1]; T [Some 2]; T [None; None]; T [None; None]];
  tOps := [O_ (KConstant [-1] (Some (-1))) [] [3]%nat; O_ (KConcat 0) [2; 3]%nat [4]%nat;
           O_ (KReshape 0) [0; 4]%nat [5]%nat; O_ (KReshape 0) [1; 4]%nat [6]%nat];
  tArgs := [0; 1; 2]%nat; tRets := [5; 6]%nat; tPar := [];
  tShp := [[2; 3]; [4; 3]; [1]; [1]; [2]; [2; 3]; [4; 3]]; tDat := [[]; []; [0]; [-1]; [0; -1]; []; []] |}.

Theorem C53_reshape_copy_refuted :
  WellTyped (P_ reshapeT) /\ Runs (P_ reshapeT) (R_ reshapeT) /\ HelperTrue (P_ reshapeT) (R_ reshapeT) /\
  OffsetSafe (P_ reshapeT) (R_ reshapeT) /\ saysEqualButDiffer reshapeT 5 6 0 0.
Proof.
  split; [apply typedB_ok; vm_compute; reflexivity|].
  split; [apply (runsB_ok reshapeT (fun _ => 0)); vm_compute; reflexivity|].
  split; [apply helpersB_ok; vm_compute; reflexivity|].
  split; [apply safeB_ok; vm_compute; reflexivity|].
  apply (says_differ reshapeT 5 6 0 0 2 4); [vm_compute; reflexivity|split; reflexivity|split; reflexivity|discriminate].
Qed.

(* ... when the lengths given to a recurrent layer are one known element and are also used
   as a size: w = ConstantOfShape([Cast(len)]), GRU(x, len, h, h). *)
Definition gruT : text := {|
  tTys := [T [None; Some 1; Some 8]; I32 [Some 1]; T [Some 2; None; Some 8]; T [Some 1]; T [Some 1]; T [None]; T [Some 2; None; Some 8]];
  tOps := [O_ KCast [1]%nat [3]%nat; O_ (KConcat 0) [3]%nat [4]%nat; O_ KConstantOfShape [4]%nat [5]%nat;
           O_ (KRecurrent 0) [0; 1; 2; 2]%nat [6]%nat];
  tArgs := [0; 1; 2]%nat; tRets := [5; 6]%nat; tPar := [];
  tShp := [[7; 1; 8]; [1]; [2; 1; 8]; [1]; [1]; [7]; [2; 1; 8]]; tDat := [[]; [7]; []; [7]; [7]; [0; 0; 0; 0; 0; 0; 0]; []] |}.

Theorem C53_sequence_lengths_refuted :
  Runs (P_ gruT) (R_ gruT) /\ HelperTrue (P_ gruT) (R_ gruT) /\ Ordinary (P_ gruT) (R_ gruT) /\
  OffsetSafe (P_ gruT) (R_ gruT) /\ saysEqualButDiffer gruT 5 2 0 1.
Proof.
  split; [apply (runsB_ok gruT (fun _ => 0)); vm_compute; reflexivity|].
  split; [apply helpersB_ok; vm_compute; reflexivity|].
  split; [apply ordinaryB_ok; vm_compute; reflexivity|].
  split; [apply safeB_ok; vm_compute; reflexivity|].
  apply (says_differ gruT 5 2 0 1 7 1); [vm_compute; reflexivity|split; reflexivity|split; reflexivity|discriminate].
Qed.

(* The analysis reads past the end of the shape vector when Expand keeps outer dimensions. *)
Definition shortT : text := {|
  tTys := [T [None; None]; T [Some 1]; T [Some 1]; T [None; None]];
  tOps := [O_ (KConcat 0) [1]%nat [2]%nat; O_ KExpand [0; 2]%nat [3]%nat];
  tArgs := [0; 1]%nat; tRets := [3]%nat; tPar := [];
  tShp := [[2; 4]; [1]; [1]; [2; 4]]; tDat := [[]; [4]; [4]; []] |}.

Theorem C53_expand_out_of_bounds_refuted :
  WellTyped (P_ shortT) /\ Runs (P_ shortT) (R_ shortT) /\ HelperTrue (P_ shortT) (R_ shortT) /\
  OffsetSafe (P_ shortT) (R_ shortT) /\
  forall fuel, (0 < fuel)%nat -> analyze fuel (P_ shortT) true = OutOfBounds.
Proof.
  split; [apply typedB_ok; vm_compute; reflexivity|].
  split; [apply (runsB_ok shortT (fun _ => 0)); vm_compute; reflexivity|].
  split; [apply helpersB_ok; vm_compute; reflexivity|].
  split; [apply safeB_ok; vm_compute; reflexivity|].
  intros fuel L. destruct fuel; [lia|]. vm_compute. reflexivity.
Qed.

(* An Add with a constant of an element type such as int8 or bool and an unknown
   dimension ends the compiler. *)
Definition int8T : text := {|
  tTys := [I32 [None]; I32 []; I32 [None]];
  tOps := [O_ (KConstant [5] None) [] [1]%nat; H_ KAdd [0; 1]%nat [2]%nat];
  tArgs := [0]%nat; tRets := [2]%nat; tPar := [];
  tShp := [[3]; []; [3]]; tDat := [[1; 2; 3]; [5]; [6; 7; 8]] |}.

Theorem C53_add_int8_refuted :
  WellTyped (P_ int8T) /\ Runs (P_ int8T) (R_ int8T) /\ HelperTrue (P_ int8T) (R_ int8T) /\
  Ordinary (P_ int8T) (R_ int8T) /\
  forall fuel, (2 <= fuel)%nat -> analyze fuel (P_ int8T) true = Unreachable.
Proof.
  split; [apply typedB_ok; vm_compute; reflexivity|].
  split; [apply (runsB_ok int8T (fun _ => 0)); vm_compute; reflexivity|].
  split; [apply helpersB_ok; vm_compute; reflexivity|].
  split; [apply ordinaryB_ok; vm_compute; reflexivity|].
  intros fuel L. destruct fuel as [|[|fuel]]; [lia|lia|]. vm_compute. reflexivity.
Qed.

(* The analysis does not end: x : int32[1]; c = Cast(x); s = [c, 4];
   w = ConstantOfShape(s); u = Relu(w). *)
Definition hangT : text := {|
  tTys := [I32 [Some 1]; T [Some 1]; T [Some 1]; T [Some 2]; I32 [None; Some 4]; I32 [None; Some 4]];
  tOps := [O_ KCast [0]%nat [1]%nat; O_ (KConstant [4] (Some 4)) [] [2]%nat; O_ (KConcat 0) [1; 2]%nat [3]%nat;
           O_ KConstantOfShape [3]%nat [4]%nat; H_ KOther [4]%nat [5]%nat];
  tArgs := [0]%nat; tRets := [5]%nat; tPar := [];
  tShp := [[1]; [1]; [1]; [2]; [6; 4]; [6; 4]]; tDat := [[6]; [6]; [4]; [6; 4]; []; []] |}.

Fixpoint steps (n : nat) (p : prog) (st : state) : option state :=
  match n with
  | O => Some st
  | S m =>
      let rs := share (sRels st) (sSets st) in
      let eqs := flat_map (newEqualities p (sSets st) rs) (sSets st) in
      if negb (length rs =? length (sRels st))%nat || negb (length eqs =? 0)%nat then
        steps m p {| sSets := mergeDimSets (sSets st ++ map (fun e => insert [fst e] (snd e)) eqs); sRels := rs |}
      else None
  end.
Lemma steps_run n p : forall st st' fuel, steps n p st = Some st' -> propagate (n + fuel) p st = propagate fuel p st'.
Proof.
  induction n as [|n IH]; intros st st' fuel H; cbn [steps Nat.add propagate] in *; [now injection H as <-|].
  destruct (negb _ || negb _); [auto|discriminate].
Qed.
Lemma steps_less n p : forall st st' k, steps n p st = Some st' -> (k < n)%nat -> propagate k p st = OutOfFuel.
Proof.
  induction n as [|n IH]; intros st st' k H L; [lia|]. destruct k as [|k]; [reflexivity|]. cbn [steps propagate] in *.
  destruct (negb _ || negb _); [|discriminate]. apply (IH _ st'); auto. lia.
Qed.
Lemma loop_forever p st : steps 1 p st = Some st -> forall fuel, propagate fuel p st = OutOfFuel.
Proof.
  intros H. induction fuel as [|fuel IH]; [reflexivity|].
  change (S fuel) with (1 + fuel)%nat. rewrite (steps_run 1 p st st fuel H). exact IH.
Qed.

Definition hangSets : sets := [[(4, 0); (1, 0); (5, 0); (0, 0)]]%nat.
Definition hangRels : list rel := match collect (visitOffsets (P_ hangT) hangSets) (concat hangSets) with Ok rs => rs | _ => [] end.
Definition hangState : state := match steps 1 (P_ hangT) {| sSets := hangSets; sRels := hangRels |} with Some st => st | None => {| sSets := []; sRels := [] |} end.

Theorem C53_analysis_does_not_end_refuted :
  WellTyped (P_ hangT) /\ Runs (P_ hangT) (R_ hangT) /\ HelperTrue (P_ hangT) (R_ hangT) /\
  Ordinary (P_ hangT) (R_ hangT) /\ OffsetSafe (P_ hangT) (R_ hangT) /\
  forall fuel, analyze fuel (P_ hangT) true = OutOfFuel.
Proof.
  split; [apply typedB_ok; vm_compute; reflexivity|].
  split; [apply (runsB_ok hangT (fun _ => 0)); vm_compute; reflexivity|].
  split; [apply helpersB_ok; vm_compute; reflexivity|].
  split; [apply ordinaryB_ok; vm_compute; reflexivity|].
  split; [apply safeB_ok; vm_compute; reflexivity|].
  assert (C : classify 6 (P_ hangT) (initial (P_ hangT) true) = Ok hangSets) by (vm_compute; reflexivity).
  assert (V : collect (visitOffsets (P_ hangT) hangSets) (concat hangSets) = Ok hangRels) by (vm_compute; reflexivity).
  assert (S1 : steps 1 (P_ hangT) {| sSets := hangSets; sRels := hangRels |} = Some hangState) by (vm_compute; reflexivity).
  assert (S2 : steps 1 (P_ hangT) hangState = Some hangState) by (vm_compute; reflexivity).
  intros fuel. destruct (Nat.lt_ge_cases fuel 6) as [L|L].
  - do 6 (destruct fuel as [|fuel]; [vm_compute; reflexivity|]). lia.
  - unfold analyze. replace fuel with (6 + (fuel - 6))%nat by lia. rewrite (classify_more _ _ _ _ _ C). cbn [bind].
    rewrite V. cbn [bind]. change (6 + (fuel - 6))%nat with (1 + (5 + (fuel - 6)))%nat.
    rewrite (steps_run 1 _ _ _ _ S1). apply loop_forever. exact S2.
Qed.

Print Assumptions C53_add_constant_refuted.
Print Assumptions C53_analysis_does_not_end_refuted.

(* The condition of C53_analysis_ends holds of the first program and fails here. *)
Example goodT_no_known : NoKnownEntries (P_ goodT).
Proof.
  intros o Ho. cbn in Ho. repeat (destruct Ho as [<-|Ho]; [cbn; auto|]); [| |destruct Ho];
  intros i; destruct i as [|[|[|i]]]; discriminate.
Qed.
Example hangT_known : ~ NoKnownEntries (P_ hangT).
Proof. intros H. specialize (H (O_ KCast [0]%nat [1]%nat) (or_introl eq_refl)). cbn in H. exact (H O 1 eq_refl). Qed.
Print Assumptions C53_analysis_ends.
