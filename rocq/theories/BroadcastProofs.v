(** Proofs about broadcasting (BroadcastModel). *)
From Coq Require Import List ZArith Lia Bool Arith.
From Verif Require Import Util TensorSpec TensorLemmas BroadcastModel BroadcastSpec.
Import ListNotations.
Open Scope Z_scope.

Lemma litOne_spec d : litOne d = true <-> d = Lit 1.
Proof. destruct d; cbn; split; intros H; try discriminate. - apply Z.eqb_eq in H. now subst. - now injection H as ->. Qed.
Lemma litOne_ev rho d : litOne d = true -> ev rho d = 1.
Proof. intros H. apply litOne_spec in H. now subst. Qed.

(** *** Columns *)
Definition evS (rho : nat -> Z) : list dim -> list Z := map (ev rho).
Lemma nth_pad n s rr rho : (length s <= n)%nat -> (rr < n)%nat -> ev rho (nth rr (pad n s) (Lit 1)) = rdim (evS rho s) (n - 1 - rr).
Proof.
  intros Hs Hr. unfold pad, rdim, evS. destruct (Nat.lt_ge_cases rr (n - length s)).
  - rewrite app_nth1 by (rewrite repeat_length; lia).
    rewrite nth_overflow with (n := (n - 1 - rr)%nat) by (rewrite rev_length, map_length; lia).
    destruct (Nat.lt_ge_cases rr (n - length s)); [|lia].
    assert (forall m i, nth i (repeat (Lit 1) m) (Lit 1) = Lit 1) as ->; auto.
    induction m as [|m IH]; intros [|i]; cbn; auto.
  - rewrite app_nth2 by (rewrite repeat_length; lia). rewrite repeat_length.
    rewrite rev_nth by (rewrite map_length; lia). rewrite map_length.
    replace (length s - S (n - 1 - rr))%nat with (rr - (n - length s))%nat by lia.
    change 1 with (ev rho (Lit 1)). now rewrite map_nth.
Qed.
Lemma pad_length n s : (length s <= n)%nat -> length (pad n s) = n.
Proof. intros H. unfold pad. rewrite app_length, repeat_length. lia. Qed.
Lemma outRank_le shapes s : In s shapes -> (length s <= outRank shapes)%nat.
Proof. unfold outRank. induction shapes as [|x l IH]; intros []; cbn [map fold_right]; [subst; lia|]. specialize (IH H). lia. Qed.
Lemma outRank_ex shapes : shapes <> [] -> exists s, In s shapes /\ length s = outRank shapes.
Proof.
  induction shapes as [|x l IH]; [congruence|]. intros _. unfold outRank. cbn [map fold_right]. fold (outRank l).
  destruct l as [|y l']. { exists x. cbn. split; [now left|lia]. }
  destruct IH as (s & Hs & Es); [discriminate|]. destruct (Nat.le_gt_cases (outRank (y :: l')) (length x)).
  - exists x. split; [now left|lia].
  - exists s. split; [now right|lia].
Qed.
Lemma inputsDims_length shapes p : In p (inputsDims shapes) -> length p = outRank shapes.
Proof. unfold inputsDims. rewrite in_map_iff. intros (s & <- & Hs). apply pad_length. now apply outRank_le. Qed.

(** Run-time column [rr]. *)
Definition evcol rho shapes rr : list Z := map (ev rho) (col (inputsDims shapes) rr).
Lemma evcol_rdim rho shapes rr : (rr < outRank shapes)%nat ->
  evcol rho shapes rr = map (fun s => rdim s (outRank shapes - 1 - rr)) (map (evS rho) shapes).
Proof.
  intros H. unfold evcol, col, inputsDims. rewrite !map_map. apply map_ext_in. intros s Hs.
  rewrite nth_pad; auto. now apply outRank_le.
Qed.
Lemma broadcast_rank rho shapes R : broadcast (map (evS rho) shapes) R -> length R = outRank shapes.
Proof.
  intros (H1 & (s & Hs & Es) & _). apply in_map_iff in Hs as (s0 & <- & Hs). unfold evS in Es. rewrite map_length in Es.
  destruct (outRank_ex shapes) as (m & Hm & Em). { intros ->. destruct Hs. }
  pose proof (outRank_le _ _ Hs). specialize (H1 (evS rho m) (in_map _ _ _ Hm)). unfold evS in H1. rewrite map_length in H1. lia.
Qed.
Lemma rdim_nth R j : (j < length R)%nat -> rdim R (length R - 1 - j) = nth j R 1.
Proof. intros H. unfold rdim. rewrite rev_nth by lia. f_equal. lia. Qed.
Lemma broadcast_col rho shapes R rr : broadcast (map (evS rho) shapes) R -> (rr < outRank shapes)%nat -> bcast_dim (evcol rho shapes rr) (nth rr R 1).
Proof.
  intros HB Hr. pose proof (broadcast_rank _ _ _ HB) as ER. rewrite evcol_rdim by auto. rewrite <- ER in *.
  rewrite <- rdim_nth by lia. apply HB. lia.
Qed.

(** *** Shape inference *)
(** One column: the fold of [bdim]. *)
Fixpoint bcol (uni : bool) (cur : dim) (rest : list dim) : option dim :=
  match rest with [] => Some cur | n :: r => c <- bdim uni cur n ;; bcol uni c r end.
Definition good_dim rho (d : dim) : Prop := (exists n, d = Lit n) \/ 1 <= ev rho d.
Lemma bdim_good rho cur next d : good_dim rho cur -> good_dim rho next -> bdim false cur next = Some d -> good_dim rho d.
Proof.
  unfold bdim. intros H1 H2 E. destruct (litOne cur); [injection E as <-; auto|].
  destruct (litNotOne cur).
  { destruct cur, next; try (injection E as <-; auto; fail). destruct (_ && _); [discriminate|]. injection E as <-; auto. }
  destruct (litOne next) eqn:L1; [injection E as <-; auto|]. destruct (litNotOne next) eqn:L2; [injection E as <-; auto|].
  injection E as <-. right. cbn. destruct H1 as [[n ->]|H1], H2 as [[m ->]|H2]; cbn in *; try lia; destruct (m =? 1); discriminate.
Qed.
(** [cur] is the broadcast of the prefix; all values are compatible with [o]. *)
Lemma bdim_step rho o P cur next : (forall v, In v (P ++ [ev rho next]) -> v = 1 \/ v = o) -> good_dim rho cur -> good_dim rho next ->
  bcast_dim P (ev rho cur) -> exists d, bdim false cur next = Some d /\ bcast_dim (P ++ [ev rho next]) (ev rho d).
Proof.
  intros HO G1 G2 [H1 H2]. assert (ev rho next = 1 \/ ev rho next = o) as Hn by (apply HO, in_or_app; right; now left).
  assert (ev rho cur = 1 \/ ev rho cur = o) as Hc by (apply HO, in_or_app; now left).
  assert (K : forall d, (d = cur \/ d = next \/ (d = DMax cur next)) -> 
     (ev rho d = ev rho cur \/ ev rho d = ev rho next) -> (ev rho cur = 1 \/ ev rho cur = ev rho d) -> (ev rho next = 1 \/ ev rho next = ev rho d) ->
     bcast_dim (P ++ [ev rho next]) (ev rho d)).
  { intros d _ D1 D2 D3. split.
    - apply in_or_app. destruct D1 as [-> | ->]; [now left|right; now left].
    - intros v Hv. apply in_app_or in Hv as [Hv|[<-|[]]]; auto. destruct (H2 v Hv) as [->| ->]; auto. }
  unfold bdim. destruct (litOne cur) eqn:L1.
  { exists next. split; auto. pose proof (litOne_ev rho cur L1). apply K; auto. }
  destruct (litNotOne cur) eqn:L2.
  { destruct cur as [a| |]; cbn in L2; try discriminate. cbn [ev] in *.
    assert (ev rho (Lit a) = a) as Ea by auto. destruct (Z.eqb_spec a 1); [discriminate|].
    assert (a = o) as Eo by (destruct Hc; congruence).
    destruct next as [b| |]; cbn [litNotOne ev] in *.
    - destruct (Z.eqb_spec b 1); cbn [negb andb].
      + exists (Lit a). split; auto; apply K; cbn; auto.
      + destruct (Z.eqb_spec a b); cbn [negb].
        * exists (Lit a). split; auto; apply K; cbn; auto.
        * exfalso. destruct Hn; congruence.
    - exists (Lit a). split; auto. apply K; cbn; auto. rewrite Eo. auto.
    - exists (Lit a). split; auto. apply K; cbn [ev]; auto. rewrite Eo. auto. }
  destruct (litOne next) eqn:L3.
  { exists cur. split; auto. pose proof (litOne_ev rho next L3). apply K; auto. }
  destruct (litNotOne next) eqn:L4.
  { exists next. split; auto. destruct next as [b| |]; cbn in L4; try discriminate. destruct (Z.eqb_spec b 1); [discriminate|].
    apply K; auto. destruct Hc; auto. right. cbn in *. destruct Hn; congruence. }
  exists (DMax cur next). split; auto. assert (1 <= ev rho cur /\ 1 <= ev rho next) as [P1 P2].
  { destruct G1 as [[n ->]|G1], G2 as [[m ->]|G2]; cbn [litOne litNotOne] in *; auto; exfalso;
      try (destruct (n =? 1); discriminate); destruct (m =? 1); discriminate. }
  apply K; cbn [ev]; auto.
  - destruct (Z.max_spec (ev rho cur) (ev rho next)) as [[_ ->]|[_ ->]]; auto.
  - destruct Hc as [->|Hc]; auto. destruct Hn as [->|Hn]; [right; lia|right; lia].
  - destruct Hn as [->|Hn]; auto. destruct Hc as [->|Hc]; [right; lia|right; lia].
Qed.
Lemma bcol_ok rho o rest : forall P cur, (forall v, In v (P ++ map (ev rho) rest) -> v = 1 \/ v = o) ->
  good_dim rho cur -> Forall (good_dim rho) rest -> bcast_dim P (ev rho cur) ->
  exists d, bcol false cur rest = Some d /\ bcast_dim (P ++ map (ev rho) rest) (ev rho d).
Proof.
  induction rest as [|n rest IH]; intros P cur HO G F B; cbn [bcol map].
  - exists cur. rewrite app_nil_r. auto.
  - inversion F as [|? ? Gn Fr]; subst. cbn [map] in HO.
    destruct (bdim_step rho o P cur n) as (d & Ed & Bd); auto.
    { intros v Hv. apply HO. apply in_app_or in Hv as [Hv|[<-|[]]]; apply in_or_app; [now left|right; now left]. }
    rewrite Ed. cbn [obind]. replace (P ++ ev rho n :: map (ev rho) rest) with ((P ++ [ev rho n]) ++ map (ev rho) rest) by (now rewrite <- app_assoc).
    apply IH; auto. { rewrite <- app_assoc. exact HO. } exact (bdim_good rho cur n d G Gn Ed).
Qed.
Lemma bcast_unique vals o o' : bcast_dim vals o -> bcast_dim vals o' -> o = o'.
Proof. intros [H1 H2] [H3 H4]. destruct (H2 o' H3), (H4 o H1); congruence. Qed.

(** Unidirectional: the first operand gives the output. *)
Lemma bcol_uni rho o rest : forall cur, ev rho cur = o -> (forall d, In d rest -> ev rho d = 1 \/ ev rho d = o) ->
  exists d, bcol true cur rest = Some d /\ ev rho d = o.
Proof.
  induction rest as [|n rest IH]; intros cur Hc HO; cbn [bcol].
  - eauto.
  - assert (exists d, bdim true cur n = Some d /\ ev rho d = o) as (d & Ed & Vd).
    { pose proof (HO n (or_introl eq_refl)) as Hn. unfold bdim. destruct (litOne cur) eqn:L1; [eauto|]. destruct (litNotOne cur) eqn:L2.
      - destruct cur as [a| |], n as [b| |]; cbn [litNotOne] in *; eauto. cbn [ev] in *. destruct (Z.eqb_spec b 1); cbn [negb andb]; eauto.
        destruct (Z.eqb_spec a b); cbn [negb]; eauto. exfalso. destruct Hn; congruence.
      - destruct (litOne n) eqn:L3; eauto. destruct (litNotOne n) eqn:L4; eauto. exists n. split; auto.
        destruct n as [b| |]; cbn [litNotOne] in L4; try discriminate. destruct (Z.eqb_spec b 1); [discriminate|]. cbn [ev] in *. destruct Hn; congruence. }
    rewrite Ed. cbn [obind]. apply IH; auto. intros d' Hd'. apply HO. now right.
Qed.

(** Lists of dimensions, column by column. *)
Lemma bdims_spec uni cur : forall next out, length cur = length next -> bdims uni cur next = Some out ->
  length out = length cur /\ forall rr, (rr < length cur)%nat -> bdim uni (nth rr cur (Lit 1)) (nth rr next (Lit 1)) = Some (nth rr out (Lit 1)).
Proof.
  induction cur as [|c cur IH]; intros [|n next] out L E; cbn in L; try discriminate; cbn [bdims] in E.
  - injection E as <-. split; auto. intros rr H. cbn in H. lia.
  - destruct (bdim uni c n) as [d|] eqn:Ed; cbn [obind] in E; [|discriminate].
    destruct (bdims uni cur next) as [r|] eqn:Er; cbn [obind] in E; [|discriminate]. injection E as <-.
    destruct (IH next r) as [L1 H1]; auto. split; [cbn; lia|]. intros [|rr] H; cbn; auto. apply H1. cbn in H. lia.
Qed.
Lemma bdims_none uni cur : forall next, length cur = length next -> bdims uni cur next = None ->
  exists rr, (rr < length cur)%nat /\ bdim uni (nth rr cur (Lit 1)) (nth rr next (Lit 1)) = None.
Proof.
  induction cur as [|c cur IH]; intros [|n next] L E; cbn in L; try discriminate; cbn [bdims] in E; try discriminate.
  destruct (bdim uni c n) as [d|] eqn:Ed; cbn [obind] in E.
  - destruct (bdims uni cur next) as [r|] eqn:Er; cbn [obind] in E; [discriminate|]. destruct (IH next) as (rr & H & E'); auto.
    exists (S rr). cbn. split; [lia|auto].
  - exists 0%nat. cbn. split; [lia|auto].
Qed.
Lemma fold_spec uni n rest : forall cur out, length cur = n -> Forall (fun p => length p = n) rest ->
  foldM (fun s o => bdims uni o s) rest cur = Some out ->
  length out = n /\ forall rr, (rr < n)%nat -> bcol uni (nth rr cur (Lit 1)) (col rest rr) = Some (nth rr out (Lit 1)).
Proof.
  induction rest as [|s rest IH]; intros cur out L F E; cbn [foldM] in E.
  - injection E as <-. split; auto.
  - inversion F as [|? ? Ls Fr]; subst. destruct (bdims uni cur s) as [c|] eqn:Eb; cbn [obind] in E; [|discriminate].
    apply bdims_spec in Eb as [Lc Hc]; [|lia]. destruct (IH c out) as [Lo Ho]; auto. split; auto.
    intros rr Hr. cbn [col map bcol]. rewrite Hc by auto. cbn [obind]. now apply Ho.
Qed.
Lemma fold_none uni n rest : forall cur, length cur = n -> Forall (fun p => length p = n) rest ->
  foldM (fun s o => bdims uni o s) rest cur = None ->
  exists rr, (rr < n)%nat /\ bcol uni (nth rr cur (Lit 1)) (col rest rr) = None.
Proof.
  induction rest as [|s rest IH]; intros cur L F E; cbn [foldM] in E; [discriminate|].
  inversion F as [|? ? Ls Fr]; subst. destruct (bdims uni cur s) as [c|] eqn:Eb; cbn [obind] in E.
  - apply bdims_spec in Eb as [Lc Hc]; [|lia]. destruct (IH c) as (rr & Hr & E'); auto. exists rr. split; auto.
    cbn [col map bcol]. rewrite Hc by auto. exact E'.
  - apply bdims_none in Eb as (rr & Hr & E'); [|lia]. exists rr. split; auto. cbn [col map bcol]. now rewrite E'.
Qed.
Lemma inputsDims_forall shapes : Forall (fun p => length p = outRank shapes) (inputsDims shapes).
Proof. apply Forall_forall. apply inputsDims_length. Qed.
Lemma col_good rho shapes rr : (forall s d, In s shapes -> In d s -> good_dim rho d) -> Forall (good_dim rho) (col (inputsDims shapes) rr).
Proof.
  intros H. apply Forall_forall. intros d Hd. unfold col, inputsDims in Hd. rewrite map_map in Hd. apply in_map_iff in Hd as (s & <- & Hs).
  destruct (nth_in_or_default rr (pad (outRank shapes) s) (Lit 1)) as [Hi|Hi].
  - unfold pad in Hi. apply in_app_or in Hi as [Hi|Hi]; [|eauto].
    unfold pad. apply repeat_spec in Hi. rewrite Hi. left. eauto.
  - rewrite Hi. left. eauto.
Qed.

Lemma evcol_cons rho first rest rr : map (ev rho) (col (first :: rest) rr) = ev rho (nth rr first (Lit 1)) :: map (ev rho) (col rest rr).
Proof. reflexivity. Qed.
Lemma nth_evS rho l rr : nth rr (evS rho l) 1 = ev rho (nth rr l (Lit 1)).
Proof. unfold evS. change 1 with (ev rho (Lit 1)) at 1. apply map_nth. Qed.
Lemma list_ext_nth {A} (d : A) l m : length l = length m -> (forall i, (i < length l)%nat -> nth i l d = nth i m d) -> l = m.
Proof.
  revert m. induction l as [|x l IH]; intros [|y m] L H; cbn in L; try discriminate; auto. f_equal.
  - apply (H 0%nat). cbn. lia.
  - apply IH; auto. intros i Hi. apply (H (S i)). cbn. lia.
Qed.
Lemma compute_ok rho shapes R : broadcast (map (evS rho) shapes) R -> (forall s d, In s shapes -> In d s -> good_dim rho d) ->
  exists out, computeShape false shapes = Some out /\ evS rho out = R.
Proof.
  intros HB HG. pose proof (broadcast_rank _ _ _ HB) as ER.
  unfold computeShape. pose proof (inputsDims_forall shapes) as F.
  destruct (inputsDims shapes) as [|first rest] eqn:EI.
  { destruct HB as (_ & (s & Hs & _) & _). unfold inputsDims in EI. apply map_eq_nil in EI. subst. destruct Hs. }
  inversion F as [|? ? L1 F1]; subst.
  assert (C : forall rr, (rr < outRank shapes)%nat -> exists d, bcol false (nth rr first (Lit 1)) (col rest rr) = Some d /\ ev rho d = nth rr R 1).
  { intros rr Hr. pose proof (broadcast_col rho shapes R rr HB Hr) as BC. pose proof (col_good rho shapes rr HG) as CG.
    unfold evcol in BC. rewrite EI in BC, CG. rewrite evcol_cons in BC. cbn [col map] in CG. inversion CG as [|? ? G1 G2]; subst.
    destruct (bcol_ok rho (nth rr R 1) (col rest rr) [ev rho (nth rr first (Lit 1))] (nth rr first (Lit 1))) as (d & Ed & Bd); auto.
    - apply BC.
    - split; [now left|]. intros v [<-|[]]. auto.
    - exists d. split; auto. eapply bcast_unique; eauto. }
  destruct (foldM (fun s o => bdims false o s) rest first) as [out|] eqn:Ef.
  - exists out. split; auto. destruct (fold_spec false (outRank shapes) rest first out) as [Lo Ho]; auto.
    apply (list_ext_nth 1). { unfold evS. rewrite map_length. lia. }
    intros i Hi. unfold evS in Hi. rewrite map_length in Hi. rewrite nth_evS. destruct (C i) as (d & Ed & Vd); [lia|].
    rewrite Ho in Ed by lia. injection Ed as ->. auto.
  - exfalso. destruct (fold_none false (outRank shapes) rest first) as (rr & Hr & E'); auto. destruct (C rr Hr) as (d & Ed & _). congruence.
Qed.
Lemma compute_uni rho shapes R s0 rest0 : shapes = s0 :: rest0 -> broadcast (map (evS rho) shapes) R -> R = evS rho s0 ->
  exists out, computeShape true shapes = Some out /\ evS rho out = R.
Proof.
  intros ES HB HR. pose proof (broadcast_rank _ _ _ HB) as ER.
  unfold computeShape. pose proof (inputsDims_forall shapes) as F.
  assert (inputsDims shapes = pad (outRank shapes) s0 :: map (pad (outRank shapes)) rest0) as EI by (unfold inputsDims; now rewrite ES).
  assert (length s0 = outRank shapes) as L0 by (rewrite <- ER, HR; unfold evS; now rewrite map_length).
  assert (pad (outRank shapes) s0 = s0) as EP by (unfold pad; rewrite L0, Nat.sub_diag; reflexivity).
  rewrite EP in EI. rewrite EI in *. inversion F as [|? ? L1 F1]; subst x l.
  set (rest := map (pad (outRank shapes)) rest0) in *.
  assert (C : forall rr, (rr < outRank shapes)%nat -> exists d, bcol true (nth rr s0 (Lit 1)) (col rest rr) = Some d /\ ev rho d = nth rr R 1).
  { intros rr Hr. pose proof (broadcast_col rho shapes R rr HB Hr) as BC. unfold evcol in BC. rewrite EI, evcol_cons in BC.
    apply bcol_uni. { rewrite HR. now rewrite nth_evS. }
    intros d Hd. apply BC. right. now apply in_map. }
  destruct (foldM (fun s o => bdims true o s) rest s0) as [out|] eqn:Ef.
  - exists out. split; auto. destruct (fold_spec true (outRank shapes) rest s0 out) as [Lo Ho]; auto.
    apply (list_ext_nth 1). { unfold evS. rewrite map_length. lia. }
    intros i Hi. unfold evS in Hi. rewrite map_length in Hi. rewrite nth_evS. destruct (C i) as (d & Ed & Vd); [lia|].
    rewrite Ho in Ed by lia. injection Ed as ->. auto.
  - exfalso. destruct (fold_none true (outRank shapes) rest s0) as (rr & Hr & E'); auto. destruct (C rr Hr) as (d & Ed & _). congruence.
Qed.

(** Literal shapes: success means broadcastable. *)
Lemma bdim_lit rho P cur next d : isLit cur = true -> isLit next = true -> bcast_dim P (ev rho cur) -> bdim false cur next = Some d ->
  isLit d = true /\ bcast_dim (P ++ [ev rho next]) (ev rho d).
Proof.
  intros L1 L2 [H1 H2] E. destruct cur as [a| |], next as [b| |]; try discriminate. unfold bdim in E. cbn [litOne litNotOne ev] in *.
  assert (K : forall c, (c = a \/ c = b) -> (a = 1 \/ a = c) -> (b = 1 \/ b = c) -> bcast_dim (P ++ [b]) c).
  { intros c C1 C2 C3. split.
    - apply in_or_app. destruct C1 as [-> | ->]; [now left|right; now left].
    - intros v Hv. apply in_app_or in Hv as [Hv|[<-|[]]]; auto. destruct (H2 v Hv) as [->| ->]; auto. }
  destruct (Z.eqb_spec a 1); cbn [negb] in E.
  - injection E as <-. split; [reflexivity|cbn [ev]; apply K; auto].
  - destruct (Z.eqb_spec b 1); cbn [negb andb] in E.
    + injection E as <-. split; [reflexivity|cbn [ev]; apply K; auto].
    + destruct (Z.eqb_spec a b); cbn [negb] in E; [|discriminate]. injection E as <-. split; [reflexivity|cbn [ev]; apply K; auto].
Qed.
Lemma bcol_lit rho rest : forall P cur d, isLit cur = true -> forallb isLit rest = true -> bcast_dim P (ev rho cur) -> bcol false cur rest = Some d ->
  bcast_dim (P ++ map (ev rho) rest) (ev rho d).
Proof.
  induction rest as [|n rest IH]; intros P cur d L1 L2 B E; cbn [bcol map] in *.
  - injection E as <-. now rewrite app_nil_r.
  - cbn [forallb] in L2. apply andb_prop in L2 as [Ln Lr]. destruct (bdim false cur n) as [c|] eqn:Ec; cbn [obind] in E; [|discriminate].
    destruct (bdim_lit rho P cur n c L1 Ln B Ec) as [Lc Bc].
    replace (P ++ ev rho n :: map (ev rho) rest) with ((P ++ [ev rho n]) ++ map (ev rho) rest) by (now rewrite <- app_assoc). eapply IH; eauto.
Qed.
Lemma compute_lit rho shapes out : (forall s d, In s shapes -> In d s -> isLit d = true) -> computeShape false shapes = Some out ->
  broadcast (map (evS rho) shapes) (evS rho out).
Proof.
  intros HL E. unfold computeShape in E. pose proof (inputsDims_forall shapes) as F.
  destruct (inputsDims shapes) as [|first rest] eqn:EI; [discriminate|]. inversion F as [|? ? L1 F1]; subst.
  destruct (fold_spec false (outRank shapes) rest first out) as [Lo Ho]; auto.
  assert (LO : length (evS rho out) = outRank shapes) by (unfold evS; rewrite map_length; lia).
  split; [|split].
  - intros s Hs. apply in_map_iff in Hs as (s0 & <- & Hs). unfold evS in *. rewrite LO, map_length. now apply outRank_le.
  - destruct (outRank_ex shapes) as (m & Hm & Em). { intros ->. discriminate. }
    exists (evS rho m). split; [now apply in_map|]. rewrite LO. unfold evS. now rewrite map_length.
  - intros j Hj. rewrite LO in Hj. set (rr := (outRank shapes - 1 - j)%nat).
    assert (j = outRank shapes - 1 - rr)%nat as Ej by (unfold rr; lia). 
    replace (map (fun s => rdim s j) (map (evS rho) shapes)) with (evcol rho shapes rr)
      by (rewrite evcol_rdim by (unfold rr; lia); now rewrite <- Ej).
    replace (rdim (evS rho out) j) with (ev rho (nth rr out (Lit 1))).
    2: { rewrite <- nth_evS. rewrite <- rdim_nth by (rewrite LO; unfold rr; lia). rewrite LO. now rewrite <- Ej. }
    unfold evcol. rewrite EI, evcol_cons. specialize (Ho rr ltac:(unfold rr; lia)).
    assert (CL : forallb isLit (col (first :: rest) rr) = true).
    { rewrite <- EI. apply forallb_forall. intros d Hd. unfold col, inputsDims in Hd. rewrite map_map in Hd. apply in_map_iff in Hd as (s & <- & Hs).
      destruct (nth_in_or_default rr (pad (outRank shapes) s) (Lit 1)) as [Hi|Hi]; [|now rewrite Hi].
      unfold pad in Hi. apply in_app_or in Hi as [Hi|Hi]; [|eapply HL; eauto; exact Hi].
      unfold pad. apply repeat_spec in Hi. now rewrite Hi. }
    cbn [col map forallb] in CL. apply andb_prop in CL as [C1 C2].
    apply (bcol_lit rho (col rest rr) [ev rho (nth rr first (Lit 1))] _ _ C1 C2); auto. split; [now left|]. intros v [<-|[]]. auto.
Qed.

(** *** Access *)
Lemma map2_nth {A B C} (f : A -> B -> C) l : forall m i d1 d2 d, (i < length l)%nat -> length l = length m ->
  nth i (map2 f l m) d = f (nth i l d1) (nth i m d2).
Proof. induction l as [|x l IH]; intros [|y m] i d1 d2 d Hi L; cbn in *; try lia. destruct i; auto. apply IH; lia. Qed.
Lemma map2_len {A B C} (f : A -> B -> C) l : forall m, length l = length m -> length (map2 f l m) = length l.
Proof. induction l as [|x l IH]; intros [|y m] L; cbn in *; try lia. f_equal. apply IH. lia. Qed.
Lemma col_nth shapes q op : (op < length shapes)%nat -> nth op (col (inputsDims shapes) q) (Lit 1) = nth q (pad (outRank shapes) (nth op shapes [])) (Lit 1).
Proof.
  intros H. unfold col, inputsDims. rewrite map_map.
  rewrite (nth_indep _ (Lit 1) (nth q (pad (outRank shapes) []) (Lit 1))) by (rewrite map_length; lia).
  now rewrite (map_nth (fun s => nth q (pad (outRank shapes) s) (Lit 1))).
Qed.
Lemma col_length shapes q : length (col (inputsDims shapes) q) = length shapes.
Proof. unfold col, inputsDims. now rewrite !map_length. Qed.
Lemma in_evcol rho shapes q op : (op < length shapes)%nat -> In (ev rho (nth op (col (inputsDims shapes) q) (Lit 1))) (evcol rho shapes q).
Proof. intros H. unfold evcol. apply in_map, nth_In. now rewrite col_length. Qed.
Lemma evcol_in rho shapes q v : In v (evcol rho shapes q) -> exists op, (op < length shapes)%nat /\ v = ev rho (nth op (col (inputsDims shapes) q) (Lit 1)).
Proof.
  unfold evcol. rewrite in_map_iff. intros (d & <- & Hd). apply (In_nth _ _ (Lit 1)) in Hd as (op & Ho & <-). rewrite col_length in Ho. eauto.
Qed.

Definition accBody (uni noB flat : bool) (inputs : list (list dim)) (op q : nat) : access :=
  let c := col inputs q in
  let d := nth op c (Lit 1) in
  let noBroadcasting := noB || (uni && (op =? 0)%nat) in
  let useLoop := negb noBroadcasting && forallb (fun iD => (fst iD =? op)%nat || litOne (snd iD)) (combine (seq 0 (length c)) c) in
  if litOne d then AZero else if noBroadcasting || useLoop then ALoop q else if flat then ALoop q else ASel d q.
Lemma combine_seq_in {A} (l : list A) i d : (i < length l)%nat -> In (i, nth i l d) (combine (seq 0 (length l)) l).
Proof.
  intros H. assert (nth i (combine (seq 0 (length l)) l) (0%nat, d) = (i, nth i l d)) as <-.
  { rewrite combine_nth by (now rewrite seq_length). rewrite seq_nth by auto. reflexivity. }
  apply nth_In. rewrite combine_length, seq_length. lia.
Qed.
Lemma access_val rho shapes R uni noB op q loops v :
  broadcast (map (evS rho) shapes) R -> (q < outRank shapes)%nat -> (op < length shapes)%nat ->
  nth q loops 0 = v -> 0 <= v < nth q R 1 ->
  (noB || (uni && (op =? 0)%nat) = true -> ev rho (nth op (col (inputsDims shapes) q) (Lit 1)) = nth q R 1) ->
  evAcc rho loops (accBody uni noB false (inputsDims shapes) op q) =
    (if ev rho (nth op (col (inputsDims shapes) q) (Lit 1)) =? 1 then 0 else v).
Proof.
  intros HB Hq Ho Ev Rv HN. pose proof (broadcast_col rho shapes R q HB Hq) as [B1 B2]. unfold accBody.
  set (c := col (inputsDims shapes) q) in *. set (d := nth op c (Lit 1)) in *.
  pose proof (in_evcol rho shapes q op Ho) as Hin. fold c d in Hin. specialize (B2 _ Hin) as Bd.
  destruct (litOne d) eqn:L1. { rewrite (litOne_ev rho d L1). reflexivity. }
  destruct (noB || (uni && (op =? 0)%nat)) eqn:N; cbn [orb negb andb].
  { cbn [evAcc]. specialize (HN eq_refl). rewrite Ev. destruct (Z.eqb_spec (ev rho d) 1); auto. lia. }
  destruct (forallb _ (combine (seq 0 (length c)) c)) eqn:U.
  { cbn [evAcc]. rewrite Ev. destruct (Z.eqb_spec (ev rho d) 1) as [E1|]; auto.
    apply evcol_in in B1 as (i & Hi & Ei). rewrite forallb_forall in U. specialize (U (i, nth i c (Lit 1))).
    specialize (U (combine_seq_in c i (Lit 1) ltac:(unfold c; now rewrite col_length))). cbn [fst snd] in U. apply orb_prop in U as [U|U].
    - apply Nat.eqb_eq in U. subst i. fold c d in Ei. lia.
    - fold c in Ei. rewrite (litOne_ev rho _ U) in Ei. lia. }
  cbn [evAcc]. rewrite Ev. destruct (Z.ltb_spec 1 (ev rho d)), (Z.eqb_spec (ev rho d) 1); auto; lia.
Qed.

Lemma getAccess_eq uni noB flat inputs op opRank depth :
  getAccess uni noB flat inputs op opRank depth = map (fun r => accBody uni noB (flat && (r =? opRank - 1)%nat) inputs op (depth - opRank + r)) (seq 0 opRank).
Proof. reflexivity. Qed.
Lemma map2_seq {A B C} (f : A -> B -> C) d1 d2 l : forall m, length l = length m -> map2 f l m = map (fun r => f (nth r l d1) (nth r m d2)) (seq 0 (length l)).
Proof.
  intros m L. apply (list_ext_nth (f d1 d2)).
  - rewrite map2_len, map_length, seq_length; auto.
  - intros i Hi. rewrite map2_len in Hi by auto. rewrite (map2_nth f l m i d1 d2) by auto.
    rewrite (nth_indep _ _ ((fun r => f (nth r l d1) (nth r m d2)) 0%nat)) by (rewrite map_length, seq_length; auto).
    rewrite (map_nth (fun r => f (nth r l d1) (nth r m d2))), seq_nth by auto. reflexivity.
Qed.
Lemma nth_pad_real n s r : (length s <= n)%nat -> nth (n - length s + r) (pad n s) (Lit 1) = nth r s (Lit 1).
Proof. intros H. unfold pad. rewrite app_nth2 by (rewrite repeat_length; lia). rewrite repeat_length. f_equal. lia. Qed.
Lemma nth_skipn' {A} (l : list A) n i d : nth i (skipn n l) d = nth (n + i) l d.
Proof. revert n. induction l as [|x l IH]; intros [|n]; cbn; auto; destruct i; auto. Qed.
Lemma valid_nth R iv q : valid R iv -> (q < length R)%nat -> 0 <= nth q iv 0 < nth q R 1.
Proof.
  intros V. revert q. induction V as [|d i R iv H V IH]; intros q Hq; cbn in Hq; [lia|]. destruct q; cbn; auto. apply IH. lia.
Qed.
(** Broadcast index, dimension by dimension. *)
Lemma bindex_seq S iv : (length S <= length iv)%nat -> bindex S iv =
  map (fun r => if nth r S 1 =? 1 then 0 else nth (length iv - length S + r) iv 0) (seq 0 (length S)).
Proof.
  intros H. unfold bindex. rewrite (map2_seq _ 1 0) by (rewrite skipn_length; lia). apply map_ext. intros r. now rewrite nth_skipn'.
Qed.
(** noB: broadcasting ruled out. *)
Definition ruled rho shapes R (uni noB : bool) : Prop :=
  (noB = true -> forall op q, (op < length shapes)%nat -> (q < outRank shapes)%nat -> ev rho (nth op (col (inputsDims shapes) q) (Lit 1)) = nth q R 1) /\
  (uni = true -> R = evS rho (nth 0 shapes [])).
Lemma ruled_op rho shapes R uni noB op q : broadcast (map (evS rho) shapes) R -> ruled rho shapes R uni noB -> (op < length shapes)%nat -> (q < outRank shapes)%nat ->
  noB || (uni && (op =? 0)%nat) = true -> ev rho (nth op (col (inputsDims shapes) q) (Lit 1)) = nth q R 1.
Proof.
  intros HB [H1 H2] Ho Hq E. apply orb_prop in E as [E|E]; auto. apply andb_prop in E as [Eu Eo]. apply Nat.eqb_eq in Eo. subst op.
  specialize (H2 Eu). rewrite col_nth by auto. pose proof (broadcast_rank _ _ _ HB) as ER.
  assert (length (nth 0 shapes []) = outRank shapes) as L by (rewrite <- ER, H2; unfold evS; now rewrite map_length).
  unfold pad. rewrite L, Nat.sub_diag. cbn [repeat app]. rewrite H2. now rewrite nth_evS.
Qed.
Lemma access_ok rho shapes R uni noB op iv :
  broadcast (map (evS rho) shapes) R -> ruled rho shapes R uni noB -> (op < length shapes)%nat -> valid R iv ->
  map (evAcc rho iv) (getAccess uni noB false (inputsDims shapes) op (length (nth op shapes [])) (outRank shapes)) = bindex (evS rho (nth op shapes [])) iv.
Proof.
  intros HB HR Ho V. pose proof (broadcast_rank _ _ _ HB) as ER. pose proof (valid_length _ _ V) as LV.
  set (s := nth op shapes []) in *. assert (length s <= outRank shapes)%nat as Ls by (apply outRank_le, nth_In; auto).
  rewrite bindex_seq by (unfold evS; rewrite map_length; lia).
  assert (length (evS rho s) = length s) as LE by (unfold evS; apply map_length). rewrite !LE. rewrite getAccess_eq, map_map.
  apply map_ext_in. intros r Hr. apply in_seq in Hr. cbn [andb].
  assert (nth op (col (inputsDims shapes) (outRank shapes - length s + r)) (Lit 1) = nth r s (Lit 1)) as En.
  { rewrite col_nth by auto. fold s. now apply nth_pad_real. }
  rewrite (access_val rho shapes R uni noB op _ iv (nth (outRank shapes - length s + r) iv 0)); auto; try lia.
  - rewrite En, nth_evS, <- LV, ER. reflexivity.
  - apply valid_nth; auto. lia.
  - apply ruled_op; auto. lia.
Qed.
Lemma bindex_valid rho shapes R op iv : broadcast (map (evS rho) shapes) R -> (op < length shapes)%nat -> valid R iv ->
  valid (evS rho (nth op shapes [])) (bindex (evS rho (nth op shapes [])) iv).
Proof.
  intros HB Ho V. pose proof (broadcast_rank _ _ _ HB) as ER. pose proof (valid_length _ _ V) as LV.
  set (s := nth op shapes []) in *. assert (length s <= outRank shapes)%nat as Ls by (apply outRank_le, nth_In; auto).
  assert (length (evS rho s) = length s) as Le by (unfold evS; apply map_length).
  assert (H : forall q, (q < length s)%nat -> 0 <= nth q (bindex (evS rho s) iv) 0 < nth q (evS rho s) 1).
  { intros q Hq. unfold bindex. rewrite (map2_nth _ _ _ q 1 0) by (rewrite ?skipn_length; lia). rewrite nth_skipn'.
    pose proof (broadcast_col rho shapes R (outRank shapes - length s + q) HB ltac:(lia)) as [_ B].
    specialize (B _ (in_evcol rho shapes _ op Ho)). rewrite col_nth in B by auto. fold s in B. rewrite nth_pad_real in B by auto. rewrite <- nth_evS in B.
    pose proof (valid_nth R iv (outRank shapes - length s + q) V ltac:(lia)). replace (length iv - length (evS rho s))%nat with (outRank shapes - length s)%nat by lia.
    destruct (Z.eqb_spec (nth q (evS rho s) 1) 1); lia. }
  assert (length (bindex (evS rho s) iv) = length (evS rho s)) as Lb by (unfold bindex; apply map2_len; rewrite skipn_length; lia).
  revert H Lb. rewrite <- Le. generalize (bindex (evS rho s) iv). generalize (evS rho s). clear. intros m.
  induction m as [|d m IH]; intros [|i l] H L; cbn in L; try lia; [constructor|]. constructor.
  - apply (H 0%nat). cbn. lia.
  - apply IH; [|lia]. intros q Hq. apply (H (S q)). cbn. lia.
Qed.

(** hasNoBroadcast is right. *)
Lemma takeLit_all c : forallb isLit c = true -> takeLit c = c.
Proof. induction c as [|d c IH]; cbn; auto. intros H. apply andb_prop in H as [-> H]. f_equal. auto. Qed.
Lemma scan_true cols : noBroadcastScan cols = Some true -> forall c, In c cols -> noBroadcastCol c = Some true.
Proof.
  induction cols as [|c cols IH]; intros E x []; cbn [noBroadcastScan] in E.
  - subst x. destruct (noBroadcastCol c) as [[]|]; auto; discriminate.
  - destruct (noBroadcastCol c) as [[]|]; auto; discriminate.
Qed.
Lemma noBroadcast_ok rho shapes R same : broadcast (map (evS rho) shapes) R ->
  (forall i, same i = true -> evS rho (nth i shapes []) = evS rho (nth 0 shapes [])) ->
  hasNoBroadcast same shapes = true ->
  forall op q, (op < length shapes)%nat -> (q < outRank shapes)%nat -> ev rho (nth op (col (inputsDims shapes) q) (Lit 1)) = nth q R 1.
Proof.
  intros HB HS E op q Ho Hq. pose proof (broadcast_col rho shapes R q HB Hq) as [B1 B2].
  unfold hasNoBroadcast in E. destruct (noBroadcastScan _) as [[]|] eqn:Es; [| |discriminate].
  - pose proof (scan_true _ Es (col (inputsDims shapes) q)) as C. specialize (C ltac:(apply in_map, in_seq; lia)).
    unfold noBroadcastCol in C. destruct (existsb litOne _ && existsb litNotOne _) eqn:X; [discriminate|]. injection C as C.
    rewrite takeLit_all in X by auto. set (c := col (inputsDims shapes) q) in *.
    destruct (B2 _ (in_evcol rho shapes q op Ho)) as [E1|E1]; auto. fold c in E1.
    apply evcol_in in B1 as (i & Hi & Ei). fold c in Ei. rewrite Ei. fold c.
    assert (In (nth op c (Lit 1)) c) as I1 by (apply nth_In; unfold c; now rewrite col_length).
    assert (In (nth i c (Lit 1)) c) as I2 by (apply nth_In; unfold c; now rewrite col_length).
    rewrite forallb_forall in C. pose proof (C _ I1) as C1. pose proof (C _ I2) as C2.
    destruct (nth op c (Lit 1)) as [a| |] eqn:Ea; try discriminate. destruct (nth i c (Lit 1)) as [b| |] eqn:Eb; try discriminate.
    cbn [ev] in *. subst a. destruct (Z.eq_dec b 1); auto. exfalso. apply andb_false_iff in X as [X|X].
    + assert (existsb litOne c = true) by (apply existsb_exists; exists (Lit 1); auto). congruence.
    + assert (existsb litNotOne c = true); [|congruence]. apply existsb_exists. exists (Lit b). split; auto. cbn. destruct (Z.eqb_spec b 1); auto.
  - rewrite forallb_forall in E.
    assert (S0 : forall i, (i < length shapes)%nat -> evS rho (nth i shapes []) = evS rho (nth 0 shapes [])).
    { intros [|i] Hi; auto. apply HS, E, in_seq. lia. }
    assert (V : forall i, (i < length shapes)%nat -> ev rho (nth i (col (inputsDims shapes) q) (Lit 1)) = rdim (evS rho (nth 0 shapes [])) (outRank shapes - 1 - q)).
    { intros i Hi. rewrite col_nth by auto. rewrite nth_pad; auto; [now rewrite S0|]. now apply outRank_le, nth_In. }
    apply evcol_in in B1 as (i & Hi & ->). now rewrite !V.
Qed.

(** *** Collapsing *)
Lemma lastNonOne_spec c : forall i acc, (forallb litOne c = true /\ lastNonOne c i acc = acc) \/
  exists j, (j < length c)%nat /\ lastNonOne c i acc = (i + j)%nat /\ litOne (nth j c (Lit 1)) = false.
Proof.
  induction c as [|d c IH]; intros i acc; cbn [lastNonOne forallb]; [auto|].
  destruct (IH (S i) (if litOne d then acc else i)) as [[H1 H2]|(j & Hj & E & N)].
  - destruct (litOne d) eqn:L; [left; auto|]. right. exists 0%nat. cbn. rewrite H2, Nat.add_0_r. repeat split; auto. lia.
  - right. exists (S j). cbn. rewrite E. repeat split; auto; lia.
Qed.
Lemma nth_map2_bool (f : bool -> bool -> bool) l m i : (i < length l)%nat -> length l = length m -> nth i (map2 f l m) false = f (nth i l false) (nth i m false).
Proof. intros. now apply map2_nth. Qed.
Lemma existsb_id l i : existsb (fun b : bool => b) l = false -> nth i l false = false.
Proof.
  revert i. induction l as [|b l IH]; intros [|i] H; cbn in *; auto; apply orb_false_iff in H as [H1 H2]; auto.
Qed.
Section Collapse.
Variables (rho : nat -> Z) (shapes : list (list dim)) (R : list Z).
Hypothesis HB : broadcast (map (evS rho) shapes) R.
Variable same : nat -> nat -> Z -> bool.
Hypothesis Hsame : forall a b q, (a < length shapes)%nat -> (b < length shapes)%nat -> (q < outRank shapes)%nat ->
  same a b (Z.of_nat q - Z.of_nat (outRank shapes)) = true ->
  ev rho (nth a (col (inputsDims shapes) q) (Lit 1)) = ev rho (nth b (col (inputsDims shapes) q) (Lit 1)).
Let n := length shapes.
Let rank := outRank shapes.
Let dimAt i q := nth i (col (inputsDims shapes) q) (Lit 1).
Definition cinv (m : nat) (sc hb : list bool) (ls : Z) (ds : list dim) : Prop :=
  length sc = n /\ length hb = n /\ ls * prodZ (map (ev rho) ds) = prodZ (skipn m R) /\
  forall i, (i < n)%nat -> (nth i hb false = true -> nth i sc false = true) /\
    (nth i sc false = true -> forall q, (m <= q < rank)%nat -> dimAt i q = Lit 1) /\
    (nth i sc false = false \/ nth i hb false = false -> forall q, (m <= q < rank)%nat -> ev rho (dimAt i q) = nth q R 1).
Definition cres (k : nat) (ls : Z) (ds : list dim) : Prop :=
  (k <= rank)%nat /\ ls * prodZ (map (ev rho) ds) = prodZ (skipn (rank - k) R) /\
  forall i, (i < n)%nat -> (forall q, (rank - k <= q < rank)%nat -> dimAt i q = Lit 1) \/
                           (forall q, (rank - k <= q < rank)%nat -> ev rho (dimAt i q) = nth q R 1).
Lemma cinv_res m sc hb ls ds : (m <= rank)%nat -> cinv m sc hb ls ds -> cres (rank - m) ls ds.
Proof.
  intros Hm (L1 & L2 & Hs & H). split; [lia|]. replace (rank - (rank - m))%nat with m by lia. split; auto. intros i Hi.
  destruct (H i Hi) as (H1 & H2 & H3). destruct (nth i sc false); auto.
Qed.
Lemma skipn_nth_cons {A} (l : list A) m d : (m < length l)%nat -> skipn m l = nth m l d :: skipn (S m) l.
Proof. revert m. induction l as [|x l IH]; intros [|m] H; cbn in H; try lia; auto. cbn [skipn nth]. apply IH. lia. Qed.
Lemma prodZ_cons x l : prodZ (x :: l) = x * prodZ l.
Proof. reflexivity. Qed.
Lemma prodZ_snoc l x : prodZ (l ++ [x]) = prodZ l * x.
Proof. induction l as [|y l IH]; cbn [app]; rewrite !prodZ_cons; [cbn; lia|]. rewrite IH. lia. Qed.

Lemma collapse_ok m : (m <= rank)%nat -> forall k sc hb ls ds, k = (rank - m)%nat -> cinv m sc hb ls ds ->
  let '(k', ls', ds') := collapse same (map (col (inputsDims shapes)) (rev (seq 0 m))) (Z.of_nat m - Z.of_nat rank - 1) k sc hb ls ds in cres k' ls' ds'.
Proof.
  pose proof (broadcast_rank _ _ _ HB) as ER. fold rank in ER.
  induction m as [|m IH]; intros Hm k sc hb ls ds -> I. { cbn. now apply cinv_res with (sc := sc) (hb := hb). }
  assert (CR : cres (rank - S m) ls ds) by (eapply cinv_res; eauto).
  rewrite seq_S, rev_app_distr. cbn [rev app map Nat.add collapse].
  set (c := col (inputsDims shapes) m) in *. assert (Lc : length c = n) by apply col_length.
  destruct I as (L1 & L2 & Hs & H). set (sc' := map2 andb (map litOne c) sc).
  assert (Lsc : length sc' = n) by (unfold sc'; rewrite map2_len; rewrite map_length; lia).
  assert (Nsc : forall i, (i < n)%nat -> nth i sc' false = litOne (dimAt i m) && nth i sc false).
  { intros i Hi. unfold sc'. rewrite nth_map2_bool by (rewrite map_length; lia). f_equal.
    rewrite (nth_indep _ false (litOne (Lit 1))) by (rewrite map_length; lia). now rewrite map_nth. }
  destruct (existsb _ (map2 (fun s h => negb s && h) sc' hb)) eqn:E1; [exact CR|].
  assert (K1 : forall i, (i < n)%nat -> nth i hb false = true -> nth i sc' false = true).
  { intros i Hi Hh. pose proof (existsb_id _ i E1) as X. rewrite nth_map2_bool in X by lia. rewrite Hh, andb_true_r in X. now apply negb_false_iff in X. }
  pose proof (broadcast_col rho shapes R m HB Hm) as [B1 B2].
  assert (Er : (Z.of_nat (S m) - Z.of_nat rank - 1) - 1 = Z.of_nat m - Z.of_nat rank - 1) by lia.
  assert (Ek : Z.to_nat (- (Z.of_nat (S m) - Z.of_nat rank - 1)) = (rank - m)%nat) by lia.
  rewrite Er, Ek. destruct (forallb _ (map litOne c)) eqn:E2.
  - (* all ones *)
    assert (A1 : forall i, (i < n)%nat -> dimAt i m = Lit 1).
    { intros i Hi. apply litOne_spec. rewrite forallb_forall in E2. apply E2. apply in_map. apply nth_In. fold c. lia. }
    assert (RM : nth m R 1 = 1). { apply evcol_in in B1 as (i & Hi & ->). fold (dimAt i m). now rewrite A1. }
    apply IH; auto; [lia|]. split; [auto|split; [auto|split]].
    + rewrite (skipn_nth_cons R m 1) by lia. rewrite prodZ_cons, RM. lia.
    + intros i Hi. destruct (H i Hi) as (H1 & H2 & H3). rewrite Nsc by auto. rewrite A1 by auto. cbn [litOne Z.eqb Pos.eqb andb].
      split; auto. split.
      * intros S0 q Hq. destruct (Nat.eq_dec q m) as [->|]; auto. apply H2; auto. lia.
      * intros S0 q Hq. destruct (Nat.eq_dec q m) as [->|]. { now rewrite A1. } apply H3; auto. lia.
  - set (id := lastNonOne c 0 0) in *.
    assert (exists j, (j < n)%nat /\ id = j /\ litOne (dimAt j m) = false) as (j & Hj & Ej & Nj).
    { unfold id. destruct (lastNonOne_spec c 0 0) as [[A _]|(j & Hj & E & N)].
      - exfalso. assert (forallb (fun b : bool => b) (map litOne c) = true); [|congruence]. apply forallb_forall. intros b Hb.
        apply in_map_iff in Hb as (d & <- & Hd). rewrite forallb_forall in A. auto.
      - exists j. rewrite Lc in Hj. cbn in E. auto. }
    clearbody id. subst id. set (dId := nth j c (Lit 1)) in *.
    destruct (negb (forallb _ (combine (seq 0 (length c)) c))) eqn:E3; [exact CR|]. apply negb_false_iff in E3. rewrite forallb_forall in E3.
    assert (CO : forall i, (i < n)%nat -> litOne (dimAt i m) = false -> ev rho (dimAt i m) = ev rho dId).
    { intros i Hi Ni. specialize (E3 (i, nth i c (Lit 1)) (combine_seq_in c i (Lit 1) ltac:(lia))). cbn [fst snd] in E3.
      change (nth i c (Lit 1)) with (dimAt i m) in E3. rewrite Ni in E3. cbn [orb] in E3. apply orb_prop in E3 as [E3|E3].
      - apply Nat.eqb_eq in E3. subst i. reflexivity.
      - assert (D : forall r0, r0 = Z.of_nat m - Z.of_nat rank -> same j i r0 = true -> ev rho (dimAt i m) = ev rho dId).
        { intros r0 -> Sm. symmetry. apply Hsame; auto. }
        unfold compatible in E3. destruct dId as [a| |] eqn:Ed; [destruct (dimAt i m) as [b| |] eqn:Ei| |].
        + apply Z.eqb_eq in E3. cbn. auto.
        + eapply D; [|exact E3]. lia.
        + eapply D; [|exact E3]. lia.
        + eapply D; [|exact E3]. lia.
        + eapply D; [|exact E3]. lia. }
    destruct (existsb _ (map2 (fun s o => negb s && o) sc' (map litOne c))) eqn:E4; [exact CR|].
    assert (K2 : forall i, (i < n)%nat -> litOne (dimAt i m) = true -> nth i sc' false = true).
    { intros i Hi Hl. pose proof (existsb_id _ i E4) as X. rewrite nth_map2_bool in X by (rewrite ?map_length; lia).
      rewrite (nth_indep (map litOne c) false (litOne (Lit 1))) in X by (rewrite map_length; lia). rewrite map_nth in X.
      change (nth i c (Lit 1)) with (dimAt i m) in X. rewrite Hl, andb_true_r in X. now apply negb_false_iff in X. }
    assert (RM : nth m R 1 = ev rho dId).
    { apply evcol_in in B1 as (i & Hi & Ei). fold (dimAt i m) in Ei. rewrite Ei. destruct (litOne (dimAt i m)) eqn:Li; [|now apply CO].
      rewrite (litOne_ev rho _ Li) in *. destruct (B2 (ev rho dId)) as [|]; try lia. apply (in_evcol rho shapes m j Hj). }
    assert (I' : forall ls' ds', ls' * prodZ (map (ev rho) ds') = ls * prodZ (map (ev rho) ds) * ev rho dId -> cinv m sc' (map2 orb sc' hb) ls' ds').
    { intros ls' ds' Es. split; [auto|split; [rewrite map2_len; lia|split]].
      - rewrite Es, Hs. rewrite (skipn_nth_cons R m 1) by lia. rewrite prodZ_cons, RM. lia.
      - intros i Hi. destruct (H i Hi) as (H1 & H2 & H3). rewrite nth_map2_bool by lia. split; [|split].
        + intros X. apply orb_prop in X as [X|X]; auto.
        + intros S0 q Hq. rewrite Nsc in S0 by auto. apply andb_prop in S0 as [S1 S2].
          destruct (Nat.eq_dec q m) as [->|]; [now apply litOne_spec|]. apply H2; auto. lia.
        + intros X q Hq. assert (nth i sc' false = false) as N0. { destruct X as [X|X]; auto. now apply orb_false_iff in X. }
          assert (litOne (dimAt i m) = false) as N1. { destruct (litOne (dimAt i m)) eqn:Li; auto. rewrite K2 in N0 by auto. discriminate. }
          destruct (Nat.eq_dec q m) as [->|]. { rewrite RM. now apply CO. }
          apply H3; [|lia]. right. destruct (nth i hb false) eqn:Hh; auto. rewrite K1 in N0 by auto. discriminate. }
    destruct dId as [z| |] eqn:Ed.
    + apply IH; auto; [lia|]. apply I'. cbn [ev]. lia.
    + apply IH; auto; [lia|]. apply I'. rewrite map_app. cbn [map]. rewrite prodZ_snoc. lia.
    + apply IH; auto; [lia|]. apply I'. rewrite map_app. cbn [map]. rewrite prodZ_snoc. lia.
Qed.
Lemma manageable_ok : let '(k, ls, ds) := hasManageableBroadcast same shapes in cres k ls ds.
Proof.
  unfold hasManageableBroadcast. fold n rank. pose proof (broadcast_rank _ _ _ HB) as ER. fold rank in ER.
  replace (-1) with (Z.of_nat rank - Z.of_nat rank - 1) by lia. apply collapse_ok; auto; [lia|].
  split; [apply repeat_length|split; [apply repeat_length|split]].
  - rewrite skipn_all2 by lia. reflexivity.
  - intros i Hi. assert (nth i (repeat false n) false = false) as ->. { destruct (nth_in_or_default i (repeat false n) false) as [X|X]; auto. now apply repeat_spec in X. }
    split; [discriminate|]. split; intros _ q Hq; lia.
Qed.
End Collapse.
