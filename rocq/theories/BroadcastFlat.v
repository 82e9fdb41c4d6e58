(** Flattened accesses and the SIMD loop. *)
From Coq Require Import List ZArith Lia Bool Arith.
From Verif Require Import Util TensorSpec TensorLemmas BroadcastModel BroadcastSpec BroadcastProofs.
Import ListNotations.
Open Scope Z_scope.

Lemma size_ones S : Forall (fun d => d = 1) S -> size S = 1.
Proof. induction 1 as [|d S -> H IH]; auto. rewrite size_cons. lia. Qed.
Lemma rm_small S idx : valid S idx -> size S = 1 -> rm S idx = 0.
Proof. intros V E. pose proof (rm_bound _ _ V). lia. Qed.
Lemma map2_app' {A B C} (f : A -> B -> C) a b c d : length a = length c -> map2 f (a ++ b) (c ++ d) = map2 f a c ++ map2 f b d.
Proof. revert c. induction a as [|x a IH]; intros [|y c] L; cbn in *; try lia; auto. f_equal. apply IH. lia. Qed.
Lemma bident S idx : valid S idx -> map2 (fun d i => if d =? 1 then 0 else i) S idx = idx.
Proof. induction 1 as [|d i S idx H V IH]; cbn [map2]; auto. rewrite IH. f_equal. destruct (Z.eqb_spec d 1); lia. Qed.
Lemma skipn_app_le {A} n (a b : list A) : (n <= length a)%nat -> skipn n (a ++ b) = skipn n a ++ b.
Proof. intros H. rewrite skipn_app. replace (n - length a)%nat with 0%nat by lia. reflexivity. Qed.
Lemma litOne_ones rho s : forallb litOne s = true -> Forall (fun d => d = 1) (evS rho s).
Proof. intros H. rewrite forallb_forall in H. apply Forall_forall. intros z Hz. unfold evS in Hz. apply in_map_iff in Hz as (d & <- & Hd). apply litOne_ev. auto. Qed.
Lemma ev_lit rho d : isLit d = true -> ev (fun _ => 0) d = ev rho d.
Proof. destruct d; cbn; auto; discriminate. Qed.
Lemma staticOne_size rho B : staticOne B = true -> size (evS rho B) = 1.
Proof.
  unfold staticOne. intros H. apply andb_prop in H as [L P]. apply Z.eqb_eq in P. unfold size, evS. rewrite <- P. f_equal.
  apply map_ext_in. intros d Hd. rewrite forallb_forall in L. symmetry. apply ev_lit. auto.
Qed.
Lemma last_snoc {A} (l : list A) x d : last (l ++ [x]) d = x.
Proof. induction l as [|y l IH]; auto. cbn. destruct (l ++ [x]) eqn:E; auto. destruct l; discriminate. Qed.

Section Flat.
Variables (rho : nat -> Z) (shapes : list (list dim)) (R : list Z) (uni noB : bool) (k op : nat) (outer inner : list Z).
Let n := length shapes.
Let rank := outRank shapes.
Let dimAt i q := nth i (col (inputsDims shapes) q) (Lit 1).
Let s := nth op shapes [].
Hypothesis HB : broadcast (map (evS rho) shapes) R.
Hypothesis HR : ruled rho shapes R uni noB.
Hypothesis Hop : (op < n)%nat.
Hypothesis Hk : (1 <= k <= rank)%nat.
Hypothesis HV : valid R (outer ++ inner).
Hypothesis HO : length outer = (rank - k)%nat.
Hypothesis HI : (forall q, (rank - k <= q < rank)%nat -> dimAt op q = Lit 1) \/
                (forall q, (rank - k <= q < rank)%nat -> ev rho (dimAt op q) = nth q R 1).
Lemma Hlen : (length s <= rank)%nat.
Proof. apply outRank_le, nth_In. exact Hop. Qed.
Lemma ER : length R = rank.
Proof. apply (broadcast_rank rho). exact HB. Qed.
Lemma Linner : length inner = k.
Proof. pose proof (valid_length _ _ HV) as L. rewrite app_length, HO, ER in L. lia. Qed.
Lemma dimAt_real r : (r < length s)%nat -> dimAt op (rank - length s + r) = nth r s (Lit 1).
Proof. intros H. unfold dimAt. rewrite col_nth by exact Hop. fold s rank. apply nth_pad_real. apply Hlen. Qed.
Lemma dimAt_pad q : (q < rank - length s)%nat -> dimAt op q = Lit 1.
Proof.
  intros H. unfold dimAt. rewrite col_nth by exact Hop. fold s rank. unfold pad. rewrite app_nth1 by (rewrite repeat_length; lia).
  destruct (nth_in_or_default q (repeat (Lit 1) (rank - length s)) (Lit 1)) as [X|X]; auto. now apply repeat_spec in X.
Qed.
Definition RI := skipn (rank - k) R.
Lemma V_inner : valid RI inner.
Proof.
  unfold RI. pose proof HV as V. rewrite <- (firstn_skipn (rank - k) R) in V.
  apply valid_app in V; [tauto|]. rewrite firstn_length, HO, ER. lia.
Qed.
(** The accesses of the flattened operand: outer part as in the unflattened code, then 0. *)
Lemma flat_acc m : (m + (length s - m) = length s)%nat -> (m = length s - k)%nat ->
  map (evAcc rho (outer ++ [0])) (getAccess uni noB true (inputsDims shapes) op (S m) (S (rank - k))) =
  map2 (fun d i => if d =? 1 then 0 else i) (firstn m (evS rho s)) (firstn m (skipn (rank - length s) (outer ++ inner))) ++ [0].
Proof.
  intros Hm1 Hm. rewrite getAccess_eq, map_map, seq_S, map_app. cbn [map Nat.add]. pose proof Hlen as HL. f_equal.
  - rewrite (map2_seq _ 1 0).
    2: { rewrite !firstn_length, skipn_length, app_length, HO, Linner. unfold evS. rewrite map_length. lia. }
    assert (length (firstn m (evS rho s)) = m) as -> by (rewrite firstn_length; unfold evS; rewrite map_length; lia).
    apply map_ext_in. intros r Hr. apply in_seq in Hr.
    assert (r =? S m - 1 = false)%nat as -> by (apply Nat.eqb_neq; lia). cbn [andb].
    replace (S (rank - k) - S m + r)%nat with (rank - length s + r)%nat by lia.
    rewrite (access_val rho shapes R uni noB op _ (outer ++ [0]) (nth (rank - length s + r) outer 0)); auto; try (fold rank; lia).
    + change (nth op (col (inputsDims shapes) (rank - length s + r)) (Lit 1)) with (dimAt op (rank - length s + r)).
      rewrite dimAt_real by lia. rewrite <- nth_evS.
      assert (forall (l : list Z) d, nth r (firstn m l) d = nth r l d) as F. { intros l d. rewrite <- (firstn_skipn m l) at 2. destruct (Nat.lt_ge_cases r (length (firstn m l))).
        - now rewrite app_nth1. - rewrite firstn_length in H. rewrite !nth_overflow; auto; rewrite ?app_length, ?firstn_length, ?skipn_length; lia. }
      rewrite !F, nth_skipn', app_nth1 by lia. reflexivity.
    + now rewrite app_nth1 by lia.
    + pose proof (valid_nth R (outer ++ inner) (rank - length s + r) HV ltac:(rewrite ER; lia)) as X. now rewrite app_nth1 in X by lia.
    + apply ruled_op; auto. fold rank. lia.
  - f_equal. replace (S (rank - k) - S m + m)%nat with (rank - k)%nat by lia.
    assert ((m =? S m - 1)%nat = true) as -> by (apply Nat.eqb_eq; lia). cbn [andb]. unfold accBody.
    assert (nth (rank - k) (outer ++ [0]) 0 = 0) as E0 by (rewrite app_nth2, HO, Nat.sub_diag by lia; reflexivity).
    destruct (litOne _); auto. destruct (_ || _); cbn [evAcc]; auto.
Qed.
Lemma flatRead_ok : flatRead uni noB rho shapes k op outer (rowmajor RI inner) = rowmajor (evS rho s) (bindex (evS rho s) (outer ++ inner)).
Proof.
  pose proof Hlen as HL. pose proof ER as EL. pose proof Linner as LI. pose proof V_inner as VI.
  pose proof (bindex_valid rho shapes R op (outer ++ inner) HB Hop HV) as BV. fold s in BV.
  assert (LS : length (evS rho s) = length s) by (unfold evS; apply map_length).
  rewrite (rowmajor_rm (evS rho s)) by (now apply valid_length). rewrite (rowmajor_rm RI) by (now apply valid_length).
  unfold flatRead. fold s. destruct (forallb litOne s) eqn:E1.
  { symmetry. apply rm_small; auto. apply size_ones, litOne_ones. auto. }
  set (m := (length s - k)%nat).
  assert (Em : (length s - Nat.min k (length s))%nat = m) by (unfold m; lia). rewrite Em. rewrite firstn_length.
  replace (Nat.min m (length s)) with m by (unfold m; lia). rewrite app_length, HO. cbn [length]. replace (rank - k + 1)%nat with (S (rank - k)) by lia.
  rewrite flat_acc by (unfold m; lia).
  set (f := fun d i : Z => if d =? 1 then 0 else i) in *.
  set (iv' := skipn (rank - length s) (outer ++ inner)) in *. assert (Liv : length iv' = length s) by (unfold iv'; rewrite skipn_length, app_length; lia).
  set (a := map2 f (firstn m (evS rho s)) (firstn m iv')).
  assert (La : length a = m) by (unfold a; rewrite map2_len, firstn_length; rewrite ?firstn_length; unfold m; lia).
  rewrite removelast_app by discriminate. cbn [removelast]. rewrite app_nil_r, last_snoc.
  assert (EB : bindex (evS rho s) (outer ++ inner) = a ++ map2 f (skipn m (evS rho s)) (skipn m iv')).
  { unfold bindex. rewrite LS, app_length, HO, LI. replace (rank - k + k - length s)%nat with (rank - length s)%nat by lia. fold iv'. fold f.
    rewrite <- (firstn_skipn m (evS rho s)) at 1. rewrite <- (firstn_skipn m iv') at 1. apply map2_app'. rewrite !firstn_length. lia. }
  rewrite EB in *. set (SB := skipn m (evS rho s)) in *. set (SA := firstn m (evS rho s)) in *.
  assert (ES : evS rho s = SA ++ SB) by (symmetry; apply firstn_skipn).
  assert (LA : length SA = length a) by (unfold SA; rewrite firstn_length; unfold m in *; lia).
  rewrite ES in BV |- *. apply valid_app in BV as [VA VB]; auto. rewrite rm_app by auto.
  assert (map (ev rho) (firstn m s) = SA) as -> by (unfold SA, evS; symmetry; apply firstn_map).
  assert (map (ev rho) (skipn m s) = SB) as -> by (unfold SB, evS; symmetry; apply skipn_map).
  assert (G : forall x, rowmajor (SA ++ [prodZ SB]) (a ++ [x]) = rm SA a * size SB + x).
  { intros x. rewrite rowmajor_rm by (rewrite !app_length; cbn; lia). rewrite rm_app by auto. rewrite size_cons. cbn [rm]. unfold size. change (prodZ []) with 1. lia. }
  assert (SO : staticOne (skipn m s) = true -> size SB = 1).
  { intros X. apply (staticOne_size rho) in X. rewrite <- X. f_equal. unfold SB, evS. apply skipn_map. }
  set (b := map2 f SB (skipn m iv')) in *.
  enough (K : (if staticOne (skipn m s) then 0 else 0 + rm RI inner) = rm SB b).
  { destruct (staticOne (skipn m s)); rewrite G; lia. }
  destruct HI as [H1|H1].
  - (* scalar on the collapsed dimensions *)
    assert (forall r, (m <= r < length s)%nat -> nth r s (Lit 1) = Lit 1) as Z1.
    { intros r Hr. rewrite <- dimAt_real by lia. apply H1. unfold m in Hr. lia. }
    assert (AO : forallb litOne (skipn m s) = true).
    { apply forallb_forall. intros d Hd. apply (In_nth _ _ (Lit 1)) in Hd as (i & Hi & <-). rewrite skipn_length in Hi. rewrite nth_skipn'. apply litOne_spec. apply Z1. lia. }
    assert (size SB = 1) as S1. { apply size_ones. pose proof (litOne_ones rho _ AO) as X. unfold evS in X. rewrite <- skipn_map in X. exact X. }
    assert (staticOne (skipn m s) = true) as ->.
    { unfold staticOne. apply andb_true_intro. split.
      - rewrite forallb_forall in AO |- *. intros d Hd. apply AO, litOne_spec in Hd. now subst.
      - apply Z.eqb_eq. pose proof (litOne_ones (fun _ => 0) _ AO) as X. apply size_ones in X. exact X. }
    symmetry. now apply rm_small.
  - (* laid out like the output *)
    assert (HRI : forall r, (m <= r < length s)%nat -> nth r (evS rho s) 1 = nth (rank - length s + r) R 1).
    { intros r Hr. rewrite nth_evS. rewrite <- dimAt_real by lia. apply H1. unfold m in Hr. lia. }
    assert (exists O z y, RI = O ++ SB /\ inner = z ++ y /\ length O = length z /\ Forall (fun d => d = 1) O /\ skipn m iv' = y) as (O & z & y & E2 & E3 & L3 & F3 & E4).
    { set (t := (k - length s)%nat). exists (firstn t RI), (firstn t inner), (skipn t inner). 
      assert (LRI : length RI = k) by (unfold RI; rewrite skipn_length; lia).
      split; [|split; [now rewrite firstn_skipn|split; [rewrite !firstn_length; lia|split]]].
      - rewrite <- (firstn_skipn t RI) at 1. f_equal. apply (list_ext_nth 1).
        + unfold SB. rewrite !skipn_length, LRI, LS. unfold t, m. lia.
        + intros i Hi. rewrite skipn_length, LRI in Hi. unfold SB, RI. rewrite !nth_skipn'. rewrite HRI by (unfold m, t in *; lia). f_equal. unfold m, t in *. lia.
      - apply Forall_forall. intros d Hd. apply (In_nth _ _ 1) in Hd as (i & Hi & <-). rewrite firstn_length, LRI in Hi.
        assert (nth i (firstn t RI) 1 = nth i RI 1) as ->. { rewrite <- (firstn_skipn t RI) at 2. rewrite app_nth1; auto. rewrite firstn_length. lia. }
        unfold RI. rewrite nth_skipn'. rewrite <- H1 by (unfold t in Hi; lia). rewrite dimAt_pad by (unfold t in Hi; lia). reflexivity.
      - unfold iv'. destruct (Nat.le_gt_cases k (length s)).
        + replace t with 0%nat by (unfold t; lia). cbn [skipn]. rewrite skipn_app_le by lia. rewrite skipn_app.
          rewrite skipn_all2 by (rewrite skipn_length; unfold m; lia). cbn [app].
          replace (m - length (skipn (rank - length s) outer))%nat with 0%nat by (rewrite skipn_length; unfold m; lia). reflexivity.
        + replace m with 0%nat by (unfold m; lia). cbn [skipn]. rewrite skipn_app. rewrite skipn_all2 by lia. cbn [app]. f_equal. unfold t. lia. }
    rewrite E2, E3 in VI. apply valid_app in VI as [VO VY]; auto.
    assert (b = y) as -> by (unfold b; rewrite E4; apply bident; auto).
    rewrite E2, E3, rm_app by auto. rewrite (rm_small O z) by (auto using size_ones).
    destruct (staticOne (skipn m s)) eqn:SE; [|lia]. rewrite rm_small; auto.
Qed.
End Flat.

(** *** The SIMD loop *)
Lemma flat_vec lb VL m : 0 <= VL -> flat_map (fun p : Z * Z => zseq (fst p) (Z.to_nat (snd p))) (map (fun i => (i, VL)) (map (fun i => lb + VL * i) (zseq 0 m))) =
  zseq lb (Z.to_nat VL * m).
Proof.
  intros HV. assert (G : forall a, flat_map (fun p : Z * Z => zseq (fst p) (Z.to_nat (snd p))) (map (fun i => (i, VL)) (map (fun i => lb + VL * i) (zseq a m))) =
    zseq (lb + VL * a) (Z.to_nat VL * m)).
  { induction m as [|m IH]; intros a; cbn [zseq map flat_map]; [now rewrite Nat.mul_0_r|]. rewrite IH. cbn [fst snd].
    replace (Z.to_nat VL * S m)%nat with (Z.to_nat VL + Z.to_nat VL * m)%nat by lia. rewrite zseq_app. f_equal. f_equal. lia. }
  rewrite G. f_equal. lia.
Qed.
