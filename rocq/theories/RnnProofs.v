(** Proofs about the recurrent operators. *)
From Coq Require Import List ZArith Bool Lia.
From Verif Require Import Util RnnSpec RnnModel.
Import ListNotations.
Open Scope Z_scope.

Lemma zfor_S {S} n (f : Z -> S -> S) s : 0 <= n -> zfor (n + 1) f s = f n (zfor n f s).
Proof.
  intros N. unfold zfor, zrange. replace (Z.to_nat (n + 1)) with (Z.to_nat n + 1)%nat by lia.
  rewrite zseq_app, fold_left_app. cbn [zseq fold_left]. f_equal. lia.
Qed.
Lemma zfor_ind {S} (P : Z -> S -> Prop) n f s : 0 <= n -> P 0 s -> (forall i s, 0 <= i < n -> P i s -> P (i + 1) (f i s)) -> P n (zfor n f s).
Proof.
  intros N P0 PS. cut (forall k, (0 <= k -> k <= n -> P k (zfor k f s))); [intros C; apply C; lia|].
  intros k Hk. pattern k. apply natlike_ind; [intros; exact P0| |exact Hk]. intros x Hx IH L. rewrite <- Z.add_1_r, zfor_S by lia.
  apply PS; [lia|]. apply IH. lia.
Qed.

Section Loop2.
Context {S V : Type} (get : S -> Z -> Z -> V) (step : Z -> Z -> V -> V).
Lemma loop2_spec n m f s : 0 <= n -> 0 <= m ->
  (forall b h s, 0 <= b < n -> 0 <= h < m -> get (f b h s) b h = step b h (get s b h)) ->
  (forall b h b' h' s, b' <> b \/ h' <> h -> get (f b h s) b' h' = get s b' h') ->
  forall b h, get (loop2 n m f s) b h = if (0 <=? b) && (b <? n) && (0 <=? h) && (h <? m) then step b h (get s b h) else get s b h.
Proof.
  intros N M At Off. unfold loop2.
  assert (forall i s, 0 <= i < n -> forall b h, get (zfor m (fun h s => f i h s) s) b h = if (b =? i) && (0 <=? h) && (h <? m) then step b h (get s b h) else get s b h) as Row.
  { intros i s' Hi. apply (zfor_ind (fun k r => forall b h, get r b h = if (b =? i) && (0 <=? h) && (h <? k) then step b h (get s' b h) else get s' b h) m); [lia| |].
    - intros b h. replace ((b =? i) && (0 <=? h) && (h <? 0)) with false; [reflexivity|]. destruct (Z.eqb_spec b i), (Z.leb_spec 0 h), (Z.ltb_spec h 0); cbn; try reflexivity; lia.
    - intros k r Hk IH b h. destruct (Z.eq_dec b i) as [-> |Hb].
      + destruct (Z.eq_dec h k) as [-> |Hh].
        * rewrite At by lia. rewrite IH. rewrite Z.eqb_refl. cbn [andb]. destruct (Z.leb_spec 0 k), (Z.ltb_spec k k), (Z.ltb_spec k (k + 1)); cbn [andb]; try lia. reflexivity.
        * rewrite Off by lia. rewrite IH. rewrite Z.eqb_refl. cbn [andb]. destruct (Z.leb_spec 0 h), (Z.ltb_spec h k), (Z.ltb_spec h (k + 1)); cbn [andb]; try lia; reflexivity.
      + rewrite Off by lia. rewrite IH. destruct (Z.eqb_spec b i); [lia|]. reflexivity. }
  apply (zfor_ind (fun k r => forall b h, get r b h = if (0 <=? b) && (b <? k) && (0 <=? h) && (h <? m) then step b h (get s b h) else get s b h) n); [lia| |].
  - intros b h. replace ((0 <=? b) && (b <? 0)) with false by lia. reflexivity.
  - intros k r Hk IH b h. rewrite Row by lia. rewrite !IH. destruct (Z.eqb_spec b k) as [-> |Hb].
    + destruct (Z.leb_spec 0 k), (Z.ltb_spec k k), (Z.ltb_spec k (k + 1)), (Z.leb_spec 0 h), (Z.ltb_spec h m); cbn [andb]; try lia; reflexivity.
    + destruct (Z.leb_spec 0 b), (Z.ltb_spec b k), (Z.ltb_spec b (k + 1)), (Z.leb_spec 0 h), (Z.ltb_spec h m); cbn [andb]; try lia; reflexivity.
Qed.
End Loop2.

Section Pass.
Context {A V S : Type}.
Notation arr := (Z -> Z -> Z -> Z -> A).
Variables (T N H : Z) (hid : S -> Z -> Z -> V) (proj : V -> A) (cell : Z -> Z -> (Z -> V) -> Z -> V) (L : Z -> Z) (pad : Z -> Z -> A) (d : Z).
Variable stp : Z -> S * arr -> S * arr.
Definition cellCong := forall b t s s', (forall j, 0 <= j < H -> s j = s' j) -> forall j, 0 <= j < H -> cell b t s j = cell b t s' j.
Definition stepLive := forall t s b j, 0 <= t < T -> 0 <= b < N -> 0 <= j < H -> t < L b ->
  hid (fst (stp t s)) b j = cell b t (hid (fst s) b) j /\ snd (stp t s) t d b j = proj (cell b t (hid (fst s) b) j).
Definition stepDead := forall t s b j, 0 <= t < T -> 0 <= b < N -> 0 <= j < H -> L b <= t ->
  hid (fst (stp t s)) b j = hid (fst s) b j /\ snd (stp t s) t d b j = pad b j.
Definition stepFrame := forall t s t' d' b j, t' <> t \/ d' <> d -> snd (stp t s) t' d' b j = snd s t' d' b j.
Hypothesis (HT : 0 <= T) (HL : forall b, 0 <= b < N -> 0 <= L b <= T).
Hypothesis (Cong : cellCong) (Live : stepLive) (Dead : stepDead) (Frame : stepFrame).

Lemma fwd_pass s : let r := zfor T stp s in
  (forall b j, 0 <= b < N -> 0 <= j < H -> hid (fst r) b j = states false (L b) (cell b) (hid (fst s) b) (Z.to_nat (L b)) j) /\
  (forall t b j, 0 <= t < T -> 0 <= b < N -> 0 <= j < H -> snd r t d b j = if t <? L b then proj (states false (L b) (cell b) (hid (fst s) b) (Z.to_nat (t + 1)) j) else pad b j) /\
  (forall t d' b j, d' <> d -> snd r t d' b j = snd s t d' b j).
Proof.
  cbv zeta.
  enough ((forall b j, 0 <= b < N -> 0 <= j < H -> hid (fst (zfor T stp s)) b j = states false (L b) (cell b) (hid (fst s) b) (Z.to_nat (Z.min T (L b))) j) /\
    (forall t b j, 0 <= t < T -> 0 <= b < N -> 0 <= j < H -> snd (zfor T stp s) t d b j = if t <? L b then proj (states false (L b) (cell b) (hid (fst s) b) (Z.to_nat (t + 1)) j) else pad b j) /\
    (forall t d' b j, d' <> d -> snd (zfor T stp s) t d' b j = snd s t d' b j)) as (E1 & E2 & E3).
  { split; [|split; assumption]. intros b j Hb Hj. rewrite E1 by assumption. rewrite Z.min_r by (apply HL; lia). reflexivity. }
  apply (zfor_ind (fun k r => (forall b j, 0 <= b < N -> 0 <= j < H -> hid (fst r) b j = states false (L b) (cell b) (hid (fst s) b) (Z.to_nat (Z.min k (L b))) j) /\
    (forall t b j, 0 <= t < k -> 0 <= b < N -> 0 <= j < H -> snd r t d b j = if t <? L b then proj (states false (L b) (cell b) (hid (fst s) b) (Z.to_nat (t + 1)) j) else pad b j) /\
    (forall t d' b j, d' <> d -> snd r t d' b j = snd s t d' b j)) T stp s HT).
  - split; [|split].
    + intros b j Hb Hj. rewrite Z.min_l by (apply HL; lia). reflexivity.
    + intros; lia.
    + reflexivity.
  - intros i r Hi (E1 & E2 & E3).
    assert (forall b j, 0 <= b < N -> 0 <= j < H -> i < L b -> cell b i (hid (fst r) b) j = states false (L b) (cell b) (hid (fst s) b) (Z.to_nat (i + 1)) j) as New.
    { intros b j Hb Hj Hl. replace (Z.to_nat (i + 1)) with (Datatypes.S (Z.to_nat i)) by lia. cbn [states]. rewrite Z2Nat.id by lia.
      apply Cong; [|assumption]. intros j' Hj'. rewrite E1 by assumption. now rewrite Z.min_l by lia. }
    split; [|split].
    + intros b j Hb Hj. destruct (Z.lt_ge_cases i (L b)) as [Hl|Hl].
      * rewrite (proj1 (Live i r b j ltac:(lia) Hb Hj Hl)). rewrite New by assumption. now rewrite Z.min_l by lia.
      * rewrite (proj1 (Dead i r b j ltac:(lia) Hb Hj Hl)). rewrite E1 by assumption. now rewrite !Z.min_r by lia.
    + intros t b j Ht Hb Hj. destruct (Z.eq_dec t i) as [-> |Hn].
      * destruct (Z.ltb_spec i (L b)) as [Hl|Hl].
        -- rewrite (proj2 (Live i r b j ltac:(lia) Hb Hj Hl)). now rewrite New.
        -- now rewrite (proj2 (Dead i r b j ltac:(lia) Hb Hj Hl)).
      * rewrite Frame by now left. apply E2; lia.
    + intros t d' b j Hd. rewrite Frame by now right. now apply E3.
Qed.

Lemma rev_pass s : let r := zfor T (fun t => stp (T - t - 1)) s in
  (forall b j, 0 <= b < N -> 0 <= j < H -> hid (fst r) b j = states true (L b) (cell b) (hid (fst s) b) (Z.to_nat (L b)) j) /\
  (forall t b j, 0 <= t < T -> 0 <= b < N -> 0 <= j < H -> snd r t d b j = if t <? L b then proj (states true (L b) (cell b) (hid (fst s) b) (Z.to_nat (L b - t)) j) else pad b j) /\
  (forall t d' b j, d' <> d -> snd r t d' b j = snd s t d' b j).
Proof.
  cbv zeta. set (g := fun t => stp (T - t - 1)).
  enough ((forall b j, 0 <= b < N -> 0 <= j < H -> hid (fst (zfor T g s)) b j = states true (L b) (cell b) (hid (fst s) b) (Z.to_nat (T - (T - L b))) j) /\
    (forall t b j, T - T <= t < T -> 0 <= b < N -> 0 <= j < H -> snd (zfor T g s) t d b j = if t <? L b then proj (states true (L b) (cell b) (hid (fst s) b) (Z.to_nat (L b - t)) j) else pad b j) /\
    (forall t d' b j, d' <> d -> snd (zfor T g s) t d' b j = snd s t d' b j)) as (E1 & E2 & E3).
  { split; [|split; [|assumption]].
    - intros b j Hb Hj. rewrite E1 by assumption. do 2 f_equal. lia.
    - intros t b j Ht. apply E2. lia. }
  apply (zfor_ind (fun k r => (forall b j, 0 <= b < N -> 0 <= j < H -> hid (fst r) b j = states true (L b) (cell b) (hid (fst s) b) (Z.to_nat (k - (T - L b))) j) /\
    (forall t b j, T - k <= t < T -> 0 <= b < N -> 0 <= j < H -> snd r t d b j = if t <? L b then proj (states true (L b) (cell b) (hid (fst s) b) (Z.to_nat (L b - t)) j) else pad b j) /\
    (forall t d' b j, d' <> d -> snd r t d' b j = snd s t d' b j)) T g s HT).
  - split; [|split].
    + intros b j Hb Hj. specialize (HL b Hb). replace (Z.to_nat (0 - (T - L b))) with O by lia. reflexivity.
    + intros; lia.
    + reflexivity.
  - intros i r Hi (E1 & E2 & E3). unfold g. set (u := T - i - 1) in *.
    assert (forall b j, 0 <= b < N -> 0 <= j < H -> u < L b -> cell b u (hid (fst r) b) j = states true (L b) (cell b) (hid (fst s) b) (Z.to_nat (L b - u)) j) as New.
    { intros b j Hb Hj Hl. replace (Z.to_nat (L b - u)) with (Datatypes.S (Z.to_nat (L b - u - 1))) by lia. cbn [states]. rewrite Z2Nat.id by lia.
      replace (L b - 1 - (L b - u - 1)) with u by lia.
      apply Cong; [|assumption]. intros j' Hj'. rewrite E1 by assumption. do 2 f_equal. lia. }
    split; [|split].
    + intros b j Hb Hj. destruct (Z.lt_ge_cases u (L b)) as [Hl|Hl].
      * rewrite (proj1 (Live u r b j ltac:(lia) Hb Hj Hl)). rewrite New by assumption. do 2 f_equal. lia.
      * rewrite (proj1 (Dead u r b j ltac:(lia) Hb Hj Hl)). rewrite E1 by assumption. now replace (Z.to_nat (i + 1 - (T - L b))) with (Z.to_nat (i - (T - L b))) by lia.
    + intros t b j Ht Hb Hj. destruct (Z.eq_dec t u) as [-> |Hn].
      * destruct (Z.ltb_spec u (L b)) as [Hl|Hl].
        -- rewrite (proj2 (Live u r b j ltac:(lia) Hb Hj Hl)). now rewrite New.
        -- now rewrite (proj2 (Dead u r b j ltac:(lia) Hb Hj Hl)).
      * rewrite Frame by now left. apply E2; lia.
    + intros t d' b j Hd. rewrite Frame by now right. now apply E3.
Qed.
End Pass.

Section Ops.
Context {A : Type}.
Variables (zero one : A) (add sub mul : A -> A -> A).
Notation arr := (Z -> Z -> Z -> Z -> A).
Notation mat := (Z -> Z -> A).

(** Direction number of a pass. *)
Definition dOf (p : rnnIn A) (isF : bool) : Z := if isF then 0 else match dir p with Bidirectional => 1 | _ => 0 end.
Definition hasPass (p : rnnIn A) (isF : bool) : Prop := match dir p with Forward => isF = true | Reverse => isF = false | Bidirectional => True end.

Lemma passes_good {V S} (p : rnnIn A) (hid : S -> Z -> Z -> V) (proj : V -> A) (cell : Z -> Z -> Z -> (Z -> V) -> Z -> V) (pad : Z -> Z -> Z -> A)
    (step : bool -> Z -> Z -> S * arr -> S * arr) (init : bool -> S) (s0 : Z -> Z -> Z -> V) junk :
  0 <= seqLen p -> (forall b, 0 <= b < batch p -> 0 <= lenOf p b <= seqLen p) ->
  (forall d, cellCong (hidSize p) (cell d)) ->
  (forall isF, hasPass p isF -> let d := dOf p isF in
     stepLive (seqLen p) (batch p) (hidSize p) hid proj (cell d) (lenOf p) d (step isF d) /\
     stepDead (seqLen p) (batch p) (hidSize p) hid (lenOf p) (pad d) d (step isF d) /\
     stepFrame d (step isF d) /\
     (forall b j, 0 <= b < batch p -> 0 <= j < hidSize p -> hid (init isF) b j = s0 d b j)) ->
  let '(f, r, Y) := passes p step (init true) (init false) junk in
  outputsPadded pad p proj cell s0 Y (fun d b j => hid (if backwards (dir p) d then r else f) b j).
Proof.
  intros HT HL Cong Steps. unfold passes.
  assert (forall d b n j back L0 s s', (forall j, 0 <= j < hidSize p -> s j = s' j) -> 0 <= j < hidSize p -> states back L0 (cell d b) s n j = states back L0 (cell d b) s' n j) as SC.
  { intros d b n j back L0 s s' E. revert j. induction n as [|n IH]; intros j Hj; cbn [states]; [now apply E|]. apply Cong; [|assumption]. intros; now apply IH. }
  destruct (dir p) eqn:D.
  - destruct (Steps true) as (Lv & De & Fr & In0); [unfold hasPass; now rewrite D|].
    pose proof (fwd_pass (seqLen p) (batch p) (hidSize p) hid proj (cell 0) (lenOf p) (pad 0) 0 (step true 0) HT HL (Cong 0) Lv De Fr (init true, junk)) as (E1 & E2 & _).
    unfold dOf in *. destruct (zfor (seqLen p) (step true 0) (init true, junk)) as [f Y] eqn:Z1. cbn [fst snd] in *.
    intros d b j Hd Hb Hj. rewrite D in Hd. cbn in Hd. assert (d = 0) as -> by lia. rewrite D. cbn [backwards]. split.
    + rewrite E1 by assumption. apply SC; [|assumption]. intros. now apply In0.
    + intros t Ht. rewrite E2 by assumption. destruct (t <? lenOf p b); [|reflexivity]. f_equal. apply SC; [|assumption]. intros. now apply In0.
  - destruct (Steps false) as (Lv & De & Fr & In0); [unfold hasPass; now rewrite D|].
    unfold dOf in *. rewrite D in *.
    pose proof (rev_pass (seqLen p) (batch p) (hidSize p) hid proj (cell 0) (lenOf p) (pad 0) 0 (step false 0) HT HL (Cong 0) Lv De Fr (init false, junk)) as (E1 & E2 & _).
    destruct (zfor (seqLen p) (fun t => step false 0 (seqLen p - t - 1)) (init false, junk)) as [f Y] eqn:Z1. cbn [fst snd] in *.
    intros d b j Hd Hb Hj. rewrite D in Hd. cbn in Hd. assert (d = 0) as -> by lia. rewrite D. cbn [backwards]. split.
    + rewrite E1 by assumption. apply SC; [|assumption]. intros. now apply In0.
    + intros t Ht. rewrite E2 by assumption. destruct (t <? lenOf p b); [|reflexivity]. f_equal. apply SC; [|assumption]. intros. now apply In0.
  - destruct (Steps true) as (Lv & De & Fr & In0); [unfold hasPass; now rewrite D|].
    destruct (Steps false) as (Lv' & De' & Fr' & In0'); [unfold hasPass; now rewrite D|].
    unfold dOf in *. rewrite D in *.
    pose proof (fwd_pass (seqLen p) (batch p) (hidSize p) hid proj (cell 0) (lenOf p) (pad 0) 0 (step true 0) HT HL (Cong 0) Lv De Fr (init true, junk)) as (E1 & E2 & _).
    destruct (zfor (seqLen p) (step true 0) (init true, junk)) as [f Y1] eqn:Z1. cbn [fst snd] in *.
    pose proof (rev_pass (seqLen p) (batch p) (hidSize p) hid proj (cell 1) (lenOf p) (pad 1) 1 (step false 1) HT HL (Cong 1) Lv' De' Fr' (init false, Y1)) as (F1 & F2 & F3).
    destruct (zfor (seqLen p) (fun t => step false 1 (seqLen p - t - 1)) (init false, Y1)) as [r Y] eqn:Z2. cbn [fst snd] in *.
    intros d b j Hd Hb Hj. rewrite D in Hd. cbn in Hd. rewrite D. assert (d = 0 \/ d = 1) as [-> | ->] by lia; cbn [backwards Z.eqb Pos.eqb].
    + split.
      * rewrite E1 by assumption. apply SC; [|assumption]. intros. now apply In0.
      * intros t Ht. rewrite F3 by lia. rewrite E2 by assumption. destruct (t <? lenOf p b); [|reflexivity]. f_equal. apply SC; [|assumption]. intros. now apply In0.
    + split.
      * rewrite F1 by assumption. apply SC; [|assumption]. intros. now apply In0'.
      * intros t Ht. rewrite F2 by assumption. destruct (t <? lenOf p b); [|reflexivity]. f_equal. apply SC; [|assumption]. intros. now apply In0'.
Qed.

Lemma sum_ext n f g : (forall k, 0 <= k < n -> f k = g k) -> sum zero add n f = sum zero add n g.
Proof.
  intros E. unfold sum. assert (forall l acc, (forall k, In k l -> 0 <= k < n) -> fold_left (fun acc k => add acc (f k)) l acc = fold_left (fun acc k => add acc (g k)) l acc) as G.
  { induction l as [|k l IH]; intros acc Hl; [reflexivity|]. cbn [fold_left]. rewrite E by (apply Hl; now left). apply IH. intros; apply Hl; now right. }
  apply G. intros k Hk. now apply zrange_In in Hk.
Qed.
Lemma mulRow_ext n x x' M j : (forall k, 0 <= k < n -> x k = x' k) -> mulRow zero add mul n x M j = mulRow zero add mul n x' M j.
Proof. intros E. apply sum_ext. intros k Hk. now rewrite E. Qed.
Lemma gate_ext p n g d b t h h' j ex : (forall k, 0 <= k < hidSize p -> h k = h' k) -> gate zero add mul p n g d b t h j ex = gate zero add mul p n g d b t h' j ex.
Proof. intros E. unfold gate. now rewrite (mulRow_ext _ h h') by assumption. Qed.

Lemma act_eq p n isF q dflt : hasPass p isF -> getActivation p n isF q dflt = actOf p n (dOf p isF) q dflt.
Proof.
  intros HP. unfold getActivation, actOf, dOf. destruct (acts p) as [l|]; [|reflexivity].
  assert ((if isF then O else match dir p with Reverse => O | _ => n end) = (Z.to_nat (if isF then 0 else match dir p with Bidirectional => 1 | _ => 0 end) * n)%nat) as ->.
  { unfold hasPass in HP. destruct isF; [reflexivity|]. destruct (dir p); cbn; try lia; discriminate. }
  destruct (Nat.ltb_spec (Z.to_nat (if isF then 0 else match dir p with Bidirectional => 1 | _ => 0 end) * n + q) (length l)) as [Hl|Hl]; [reflexivity|].
  now rewrite nth_overflow.
Qed.
Lemma init_eq p o isF b j : hasPass p isF -> initialState zero p o isF b j = initOf zero o (dOf p isF) b j.
Proof.
  intros HP. unfold initialState, initOf, dOf, hasPass in *. destruct o; [|reflexivity]. destruct isF; [reflexivity|]. destruct (dir p); try reflexivity; discriminate.
Qed.
Lemma dirIndex_eq p isF : dirIndex p isF = dOf p isF.
Proof. reflexivity. Qed.
Lemma store2_at m b h v : @store2 A m b h v b h = v.
Proof. unfold store2. now rewrite !Z.eqb_refl. Qed.
Lemma store2_off m b h v b' h' : b' <> b \/ h' <> h -> @store2 A m b h v b' h' = m b' h'.
Proof. unfold store2. intros D. destruct (Z.eqb_spec b' b), (Z.eqb_spec h' h); try reflexivity. lia. Qed.
Lemma store4_off m t d b h v b' h' t' d' : b' <> b \/ h' <> h -> @store4 A m t d b h v t' d' b' h' = m t' d' b' h'.
Proof. unfold store4. intros D. destruct (Z.eqb_spec t' t), (Z.eqb_spec d' d), (Z.eqb_spec b' b), (Z.eqb_spec h' h); try reflexivity. lia. Qed.
Lemma store4_at m t d b h v t' d' : @store4 A m t d b h v t' d' b h = if (t' =? t) && (d' =? d) then v else m t' d' b h.
Proof. unfold store4. rewrite !Z.eqb_refl, !andb_true_r. reflexivity. Qed.

Ltac inr := repeat match goal with H : 0 <= ?x < ?n |- context [0 <=? ?x] => replace (0 <=? x) with true by lia; replace (x <? n) with true by lia; cbn [andb] end.
Lemma last_eq p (f r : mat) : forall d b j, 0 <= d < numDirections (dir p) -> stateToOutput p f r d b j = (if backwards (dir p) d then r else f) b j.
Proof.
  intros d b j Hd. unfold stateToOutput. destruct (dir p); cbn in *; try reflexivity. assert (d = 0 \/ d = 1) as [-> | ->] by lia; reflexivity.
Qed.
Lemma padded_last {V} pad p (hid : V -> A) cell s0 Y l l' : (forall d b j, 0 <= d < numDirections (dir p) -> l d b j = l' d b j) ->
  outputsPadded pad p hid cell s0 Y l -> outputsPadded pad p hid cell s0 Y l'.
Proof. intros E G d b j Hd Hb Hj. rewrite <- E by assumption. now apply G. Qed.
Lemma padded_pad {V} pad pad' p (hid : V -> A) cell s0 Y l :
  (forall t d b j, 0 <= t < seqLen p -> 0 <= b < batch p -> lenOf p b <= t -> pad d b j = pad' d b j) ->
  outputsPadded pad p hid cell s0 Y l -> outputsPadded pad' p hid cell s0 Y l.
Proof.
  intros E G d b j Hd Hb Hj. destruct (G d b j Hd Hb Hj) as [G1 G2]. split; [exact G1|]. intros t Ht. rewrite G2 by assumption.
  destruct (Z.ltb_spec t (lenOf p b)); [reflexivity|]. now apply (E t).
Qed.

(** ** RNN *)
Lemma rnn_cong p tanh d : cellCong (hidSize p) (rnnCell zero add mul p tanh d).
Proof. intros b t h h' E j Hj. unfold rnnCell. now rewrite (gate_ext _ _ _ _ _ _ h h') by assumption. Qed.
Lemma rnnStep_get p tanh isF t s : 0 <= batch p -> 0 <= hidSize p -> clip p = None -> hasPass p isF -> let d := dOf p isF in
  forall b j, 0 <= b < batch p -> 0 <= j < hidSize p -> forall t' d',
    (fst (rnnStep zero add mul p tanh isF d t s) b j, snd (rnnStep zero add mul p tanh isF d t s) t' d' b j) =
    (let v := rnnCell zero add mul p tanh d b t (fst s b) j in (v, if (t' =? t) && (d' =? d) then v else snd s t' d' b j)).
Proof.
  intros HN HH HC HP d b j Hb Hj t' d'. destruct s as [Ht Y]. unfold rnnStep.
  rewrite (loop2_spec (fun s b j => (fst s b j, snd s t' d' b j))
    (fun b j v => let w := rnnCell zero add mul p tanh d b t (Ht b) j in (w, if (t' =? t) && (d' =? d) then w else snd v))); [|assumption|assumption| |].
  - inr. reflexivity.
  - intros b0 h0 [Ht0 Y0] Hb0 Hh0. cbn [fst snd]. rewrite store2_at, store4_at. rewrite act_eq by assumption.
    change (dirIndex p isF) with d. fold d. unfold rnnCell, clipped, gate, plain, mulRow. rewrite HC.
    change ((0 * hidSize p + h0)) with h0. rewrite ?Z.mul_1_l, ?Z.add_0_l. replace ((1 + 0) * hidSize p + h0) with (hidSize p + h0) by lia. reflexivity.
  - intros b0 h0 b' h' [Ht0 Y0] D. cbn [fst snd]. rewrite store2_off, store4_off by assumption. reflexivity.
Qed.
Lemma rnnStep_frame p tanh isF t s d t' d' b j : 0 <= batch p -> 0 <= hidSize p -> t' <> t \/ d' <> d -> snd (rnnStep zero add mul p tanh isF d t s) t' d' b j = snd s t' d' b j.
Proof.
  intros HN HH D. destruct s as [Ht Y]. unfold rnnStep.
  rewrite (loop2_spec (fun s b j => snd s t' d' b j) (fun b j v => v)); [|assumption|assumption| |].
  - cbn [snd]. now destruct (_ && _).
  - intros b0 h0 [Ht0 Y0] _ _. cbn [snd]. rewrite store4_at. destruct (Z.eqb_spec t' t), (Z.eqb_spec d' d); cbn [andb]; try reflexivity. lia.
  - intros b0 h0 b' h' [Ht0 Y0] D'. cbn [snd]. now rewrite store4_off.
Qed.
Lemma rnn_good p tanh junk : 0 <= seqLen p -> 0 <= batch p -> 0 <= hidSize p -> clip p = None -> lens p = None ->
  exists Y Yh, rnnLowering zero add mul p tanh junk = Some (Y, Yh) /\
    goodOutputs zero p (fun v => v) (rnnCell zero add mul p tanh) (initOf zero (h0 p)) Y Yh.
Proof.
  intros HT HN HH HC HL. unfold rnnLowering. rewrite HL.
  pose proof (passes_good p (fun s : mat => s) (fun v => v) (rnnCell zero add mul p tanh) (fun _ _ _ => zero) (rnnStep zero add mul p tanh)
    (initialState zero p (h0 p)) (initOf zero (h0 p)) junk HT) as G.
  destruct (passes p (rnnStep zero add mul p tanh) (initialState zero p (h0 p) true) (initialState zero p (h0 p) false) junk) as [[f r] Y].
  eexists _, _. split; [reflexivity|].
  assert (forall b, lenOf p b = seqLen p) as EL by (intros; unfold lenOf; now rewrite HL).
  eapply padded_last; [|apply G].
  - intros d b j Hd. cbn beta. rewrite last_eq by assumption. now destruct (backwards (dir p) d).
  - intros. rewrite EL. lia.
  - apply rnn_cong.
  - intros isF HP d. split; [|split; [|split]].
    + intros t s b j Ht Hb Hj _. pose proof (rnnStep_get p tanh isF t s HN HH HC HP b j Hb Hj t d) as E. cbv zeta in E. fold d in E. injection E as E1 E2.
      rewrite E1, E2, !Z.eqb_refl. split; reflexivity.
    + intros t s b j Ht Hb Hj C. rewrite EL in C. lia.
    + intros t s t' d' b j D. now apply rnnStep_frame.
    + intros. now apply init_eq.
Qed.

(** ** LSTM *)
Hypothesis (add_comm : forall a b, add a b = add b a) (add_assoc : forall a b c, add a (add b c) = add (add a b) c).
Lemma lstm_cong q f g h d : cellCong (hidSize (base q)) (lstmCell zero one add sub mul q f g h d).
Proof.
  intros b t s s' E j Hj. unfold lstmCell.
  assert (forall k, 0 <= k < hidSize (base q) -> fst (s k) = fst (s' k)) as E1 by (intros; now rewrite E).
  rewrite (E j Hj).
  rewrite !(fun n g ex => gate_ext (base q) n g d b t (fun k => fst (s k)) (fun k => fst (s' k)) j ex E1). reflexivity.
Qed.
Lemma peep_swap v x w u : add (add (add v w) u) x = add (add (add v x) w) u.
Proof. rewrite <- !add_assoc. f_equal. rewrite (add_comm x), <- !add_assoc. reflexivity. Qed.
Lemma lstmStep_get q f g h isF t s : 0 <= batch (base q) -> 0 <= hidSize (base q) -> clip (base q) = None -> inputForget q = false -> hasPass (base q) isF -> let d := dOf (base q) isF in
  let r := lstmStep zero add mul q f g h isF d t s in
  forall b j, 0 <= b < batch (base q) -> 0 <= j < hidSize (base q) -> forall t' d',
    (fst (fst r) b j, snd (fst r) b j, snd r t' d' b j) =
    (let v := lstmCell zero one add sub mul q f g h d b t (fun j => (fst (fst s) b j, snd (fst s) b j)) j in (fst v, snd v, if (t' =? t) && (d' =? d) then fst v else snd s t' d' b j)).
Proof.
  intros HN HH HC HF HP d r b j Hb Hj t' d'. subst r. destruct s as [[Ht Ct] Y]. unfold lstmStep.
  rewrite (loop2_spec (fun s b j => (fst (fst s) b j, snd (fst s) b j, snd s t' d' b j))
    (fun b j v => let w := lstmCell zero one add sub mul q f g h d b t (fun j' => (Ht b j', snd (fst v))) j in (fst w, snd w, if (t' =? t) && (d' =? d) then fst w else snd v))); [|assumption|assumption| |].
  - inr. reflexivity.
  - intros b0 h0 [[Ht0 Ct0] Y0] Hb0 Hh0. cbn [fst snd]. rewrite !store2_at, store4_at. rewrite !act_eq by assumption.
    change (dirIndex (base q) isF) with d. fold d. unfold lstmCell. cbn [fst snd]. rewrite HF.
    unfold gate, clipped, plain. rewrite HC.
    set (H := hidSize (base q)). change (0 * H) with 0. rewrite !Z.add_0_l.
    replace (h0 + 2 * H) with (2 * H + h0) by lia. replace (h0 + 3 * H) with (3 * H + h0) by lia. replace (h0 + H) with (1 * H + h0) by lia.
    change (4 + 0) with 4. change (4 + 1) with 5. change (4 + 2) with 6. change (4 + 3) with 7.
    change (mulRow zero add mul (inSize (base q)) (X (base q) t b0) (W (base q) d)) with (matmul zero add mul (inSize (base q)) (emitXSliceAt (base q) t) (transposed (W (base q) d)) b0).
    change (mulRow zero add mul H (fun k => Ht b0 k) (R (base q) d)) with (matmul zero add mul H Ht (transposed (R (base q) d)) b0).
    destruct (B (base q)) as [B|], (P q) as [P|]; try reflexivity.
    repeat match goal with |- context [add (add (add ?v ?w) ?u) (mul (P ?a ?b) ?c)] => rewrite (peep_swap v (mul (P a b) c) w u) end. reflexivity.
  - intros b0 h0 b' h' [[Ht0 Ct0] Y0] D. cbn [fst snd]. rewrite !store2_off, store4_off by assumption. reflexivity.
Qed.
Lemma lstmStep_frame q f g h isF t s d t' d' b j : 0 <= batch (base q) -> 0 <= hidSize (base q) -> t' <> t \/ d' <> d -> snd (lstmStep zero add mul q f g h isF d t s) t' d' b j = snd s t' d' b j.
Proof.
  intros HN HH D. destruct s as [[Ht Ct] Y]. unfold lstmStep.
  rewrite (loop2_spec (fun s b j => snd s t' d' b j) (fun b j v => v)); [|assumption|assumption| |].
  - cbn [snd]. now destruct (_ && _).
  - intros b0 h0 [[Ht0 Ct0] Y0] _ _. cbn [snd]. rewrite store4_at. destruct (Z.eqb_spec t' t), (Z.eqb_spec d' d); cbn [andb]; try reflexivity. lia.
  - intros b0 h0 b' h' [[Ht0 Ct0] Y0] D'. cbn [snd]. now rewrite store4_off.
Qed.
Lemma lstm_good q f g h junk : let p := base q in 0 <= seqLen p -> 0 <= batch p -> 0 <= hidSize p -> clip p = None -> inputForget q = false ->
  (forall b, 0 <= b < batch p -> lenOf p b = seqLen p) ->
  let '(Y, Yh, Yc) := lstmLowering zero add mul q f g h junk in
  goodOutputs zero p fst (lstmCell zero one add sub mul q f g h) (fun d b j => (initOf zero (h0 p) d b j, initOf zero (c0 q) d b j)) Y (fun d b j => (Yh d b j, Yc d b j)).
Proof.
  intros p HT HN HH HC HF EL. unfold lstmLowering. fold p.
  set (step := fun isF d t (s : mat * mat * arr) => let '(hc, Y) := s in let '(H, C, Y) := lstmStep zero add mul q f g h isF d t (fst hc, snd hc, Y) in (H, C, Y)).
  assert (forall isF d t s, step isF d t s = lstmStep zero add mul q f g h isF d t s) as Es.
  { intros isF d t [[H C] Y]. unfold step. cbn [fst snd]. now destruct (lstmStep zero add mul q f g h isF d t (H, C, Y)) as [[? ?] ?]. }
  pose proof (passes_good p (fun (s : mat * mat) b j => (fst s b j, snd s b j)) fst (lstmCell zero one add sub mul q f g h) (fun _ _ _ => zero) step
    (fun isF => (initialState zero p (h0 p) isF, initialState zero p (c0 q) isF)) (fun d b j => (initOf zero (h0 p) d b j, initOf zero (c0 q) d b j)) junk HT) as G.
  cbv beta in G.
  destruct (passes p step (initialState zero p (h0 p) true, initialState zero p (c0 q) true) (initialState zero p (h0 p) false, initialState zero p (c0 q) false) junk) as [[fw r] Y].
  eapply padded_last; [|apply G].
  - intros d b j Hd. cbn beta. rewrite !last_eq by assumption. now destruct (backwards (dir p) d).
  - intros b Hb. rewrite EL by assumption. lia.
  - intros d. apply lstm_cong.
  - intros isF HP d. split; [|split; [|split]].
    + intros t s b j Ht Hb Hj _. rewrite Es. pose proof (lstmStep_get q f g h isF t s HN HH HC HF HP b j Hb Hj t d) as E. cbv zeta in E. fold p in E. fold d in E.
      injection E as E1 E2 E3. rewrite E1, E2, E3, !Z.eqb_refl. cbn [andb]. split; [|reflexivity]. symmetry. apply surjective_pairing.
    + intros t s b j Ht Hb Hj C. rewrite EL in C by assumption. lia.
    + intros t s t' d' b j D. rewrite Es. now apply lstmStep_frame.
    + intros b j Hb Hj. cbn [fst snd]. now rewrite !init_eq.
Qed.

(** ** GRU *)
Lemma gru_cong p lbr f g d : cellCong (hidSize p) (gruCell zero one add sub mul p lbr f g d).
Proof.
  intros b t s s' E j Hj. unfold gruCell.
  rewrite (E j Hj).
  rewrite !(fun n g j ex => gate_ext p n g d b t s s' j ex E).
  rewrite (mulRow_ext (hidSize p) s s') by assumption.
  rewrite (mulRow_ext (hidSize p) (fun k => mul (actOf p 2 d 0 f (clipped p (gate zero add mul p 3 1 d b t s k plain))) (s k)) (fun k => mul (actOf p 2 d 0 f (clipped p (gate zero add mul p 3 1 d b t s' k plain))) (s' k))); [reflexivity|].
  intros k Hk. rewrite (E k Hk). now rewrite (gate_ext p 3 1 d b t s s' k plain E).
Qed.
Lemma bias_swap v w u : add (add v w) u = add (add v u) w.
Proof. rewrite <- !add_assoc. f_equal. apply add_comm. Qed.
Definition gruZ p (f : A -> A) d b t h j := actOf p 2 d 0 f (clipped p (gate zero add mul p 3 0 d b t h j plain)).
Definition gruR p (f : A -> A) d b t h j := actOf p 2 d 0 f (clipped p (gate zero add mul p 3 1 d b t h j plain)).
Definition gruNew p (lbr : bool) f (g : A -> A) d b t h j :=
  let H := hidSize p in
  let XtWh := mulRow zero add mul (inSize p) (X p t b) (W p d) (2 * H + j) in
  let Wbh v := match B p with Some B => add v (B d (2 * H + j)) | None => v end in
  let Rbh v := match B p with Some B => add v (B d (5 * H + j)) | None => v end in
  actOf p 2 d 1 g (clipped p
    (if lbr then Wbh (add XtWh (mul (gruR p f d b t h j) (Rbh (mulRow zero add mul H h (R p d) (2 * H + j)))))
     else Wbh (Rbh (add XtWh (mulRow zero add mul H (fun k => mul (gruR p f d b t h k) (h k)) (R p d) (2 * H + j)))))).
Lemma gruCell_parts p lbr f g d b t h j : gruCell zero one add sub mul p lbr f g d b t h j =
  add (mul (sub one (gruZ p f d b t h j)) (gruNew p lbr f g d b t h j)) (mul (gruZ p f d b t h j) (h j)).
Proof. unfold gruCell, gruZ, gruNew, gruR. now destruct lbr. Qed.
Lemma handle_eq p v t d b j Ht : handleSequenceLens zero p v t d b j Ht =
  (if t <? lenOf p b then v else if lens p then initOf zero (h0 p) d b j else v, if t <? lenOf p b then v else if lens p then Ht b j else v).
Proof.
  unfold handleSequenceLens, lenOf. destruct (lens p) as [l|].
  - destruct (Z.leb_spec (l b) t), (Z.ltb_spec t (l b)); try lia; reflexivity.
  - now destruct (t <? seqLen p).
Qed.
Lemma gruStep_get p lbr f g isF t s : 0 <= batch p -> 0 <= hidSize p -> clip p = None -> hasPass p isF -> let d := dOf p isF in
  let r := gruStep zero one add sub mul p lbr f g isF d t s in
  forall b j, 0 <= b < batch p -> 0 <= j < hidSize p -> forall t' d',
    (fst r b j, snd r t' d' b j) =
    (let v := gruCell zero one add sub mul p lbr f g d b t (fst s b) j in
     (if t <? lenOf p b then v else if lens p then fst s b j else v,
      if (t' =? t) && (d' =? d) then (if t <? lenOf p b then v else if lens p then initOf zero (h0 p) d b j else v) else snd s t' d' b j)).
Proof.
  intros HN HH HC HP d r b j Hb Hj t' d'. subst r. destruct s as [Ht Y]. unfold gruStep.
  rewrite !act_eq by assumption. change (dirIndex p isF) with d. fold d.
  set (f' := actOf p 2 d 0 f). set (g' := actOf p 2 d 1 g).
  set (H := hidSize p) in *.
  assert (forall b0 j0, gruZ p f d b0 t (Ht b0) j0 = f' (match B p with Some B => add (add (add (matmul zero add mul (inSize p) (emitXSliceAt p t) (transposed (W p d)) b0 j0) (matmul zero add mul H Ht (transposed (R p d)) b0 j0)) (B d (0 * H + j0))) (B d (3 * H + j0)) | None => add (matmul zero add mul (inSize p) (emitXSliceAt p t) (transposed (W p d)) b0 j0) (matmul zero add mul H Ht (transposed (R p d)) b0 j0) end)) as EZ.
  { intros b0 j0. unfold gruZ, clipped, gate, plain. rewrite HC. fold H. change (0 * H + j0) with j0. change (3 + 0) with 3. reflexivity. }
  assert (forall b0 j0, gruR p f d b0 t (Ht b0) j0 = f' (match B p with Some B => add (add (add (matmul zero add mul (inSize p) (emitXSliceAt p t) (transposed (W p d)) b0 (j0 + H)) (matmul zero add mul H Ht (transposed (R p d)) b0 (j0 + H))) (B d (1 * H + j0))) (B d (4 * H + j0)) | None => add (matmul zero add mul (inSize p) (emitXSliceAt p t) (transposed (W p d)) b0 (j0 + H)) (matmul zero add mul H Ht (transposed (R p d)) b0 (j0 + H)) end)) as ER.
  { intros b0 j0. unfold gruR, clipped, gate, plain. rewrite HC. fold H. change (3 + 1) with 4. replace (j0 + H) with (1 * H + j0) by lia. reflexivity. }
  set (cell := fun b j hv => add (mul (sub one (gruZ p f d b t (Ht b) j)) (gruNew p lbr f g d b t (Ht b) j)) (mul (gruZ p f d b t (Ht b) j) hv)).
  set (step := fun b j (v : A * A) => (if t <? lenOf p b then cell b j (fst v) else if lens p then fst v else cell b j (fst v),
    if (t' =? t) && (d' =? d) then (if t <? lenOf p b then cell b j (fst v) else if lens p then initOf zero (h0 p) d b j else cell b j (fst v)) else snd v)).
  destruct lbr.
  - rewrite (loop2_spec (fun s b j => (fst s b j, snd s t' d' b j)) step); [|assumption|assumption| |].
    + inr. unfold step. cbn [fst snd]. rewrite gruCell_parts. reflexivity.
    + intros b0 j0 [Ht0 Y0] Hb0 Hj0. rewrite handle_eq. cbn [fst snd]. rewrite store2_at, store4_at. unfold step. cbn [fst snd].
      unfold cell. rewrite EZ. unfold gruNew. rewrite ER. unfold clipped. rewrite HC. fold H. fold g'.
      replace (j0 + 2 * H) with (2 * H + j0) by lia.
      destruct (B p); reflexivity.
    + intros b0 j0 b' h' [Ht0 Y0] D. rewrite handle_eq. cbn [fst snd]. rewrite store2_off, store4_off by assumption. reflexivity.
  - set (rtHt := loop2 (batch p) H _ (fun _ _ => zero)).
    assert (forall b0 k, 0 <= b0 < batch p -> 0 <= k < H -> rtHt b0 k = mul (gruR p f d b0 t (Ht b0) k) (Ht b0 k)) as ErH.
    { intros b0 k Hb0 Hk. unfold rtHt. rewrite (loop2_spec (fun m b j => m b j) (fun b j v => mul (gruR p f d b t (Ht b) j) (Ht b j))); [|assumption|assumption| |].
      - inr. reflexivity.
      - intros b1 j1 m Hb1 Hj1. rewrite store2_at. f_equal. rewrite ER. unfold matmul, transposed. replace (j1 + H) with (1 * H + j1) by lia. destruct (B p); reflexivity.
      - intros b1 j1 b' h' m D. now rewrite store2_off. }
    rewrite (loop2_spec (fun s b j => (fst s b j, snd s t' d' b j)) step); [|assumption|assumption| |].
    + inr. unfold step. cbn [fst snd]. rewrite gruCell_parts. reflexivity.
    + intros b0 j0 [Ht0 Y0] Hb0 Hj0. rewrite handle_eq. cbn [fst snd]. rewrite store2_at, store4_at. unfold step. cbn [fst snd].
      assert (matmul zero add mul H rtHt (transposed (fun j k' => R p d (2 * H + j) k')) b0 j0 = mulRow zero add mul H (fun k => mul (gruR p f d b0 t (Ht b0) k) (Ht b0 k)) (R p d) (2 * H + j0)) as EM.
      { unfold matmul, mulRow, transposed. apply sum_ext. intros k Hk. now rewrite ErH. }
      unfold cell. rewrite EZ. unfold gruNew. unfold clipped. rewrite HC. fold H. fold g'. rewrite EM.
      replace (j0 + 2 * H) with (2 * H + j0) by lia.
      change (matmul zero add mul H Ht (transposed (fun j k' => R p d (0 * H + j) k')) b0 j0) with (matmul zero add mul H Ht (transposed (R p d)) b0 j0).
      destruct (B p) as [B|]; [|reflexivity].
      change (mulRow zero add mul (inSize p) (X p t b0) (W p d) (2 * H + j0)) with (matmul zero add mul (inSize p) (emitXSliceAt p t) (transposed (W p d)) b0 (2 * H + j0)).
      rewrite (bias_swap _ (B d (2 * H + j0)) (B d (5 * H + j0))). reflexivity.
    + intros b0 j0 b' h' [Ht0 Y0] D. rewrite handle_eq. cbn [fst snd]. rewrite store2_off, store4_off by assumption. reflexivity.
Qed.
Lemma gruStep_frame p lbr f g isF t s d t' d' b j : 0 <= batch p -> 0 <= hidSize p -> t' <> t \/ d' <> d -> snd (gruStep zero one add sub mul p lbr f g isF d t s) t' d' b j = snd s t' d' b j.
Proof.
  intros HN HH D. destruct s as [Ht Y]. unfold gruStep.
  destruct lbr;
  (rewrite (loop2_spec (fun s b j => snd s t' d' b j) (fun b j v => v));
   [ cbn [snd]; now destruct (_ && _) | assumption | assumption
   | intros b0 h0 [Ht0 Y0] _ _; rewrite handle_eq; cbn [snd]; rewrite store4_at; destruct (Z.eqb_spec t' t), (Z.eqb_spec d' d); cbn [andb]; try reflexivity; lia
   | intros b0 h0 b' h' [Ht0 Y0] D'; rewrite handle_eq; cbn [snd]; now rewrite store4_off ]).
Qed.
Lemma gru_good p lbr f g junk : 0 <= seqLen p -> 0 <= batch p -> 0 <= hidSize p -> clip p = None ->
  (forall b, 0 <= b < batch p -> 0 <= lenOf p b <= seqLen p) ->
  let '(Y, Yh) := gruLowering zero one add sub mul p lbr f g junk in
  outputsPadded (initOf zero (h0 p)) p (fun v => v) (gruCell zero one add sub mul p lbr f g) (initOf zero (h0 p)) Y Yh.
Proof.
  intros HT HN HH HC HL. unfold gruLowering.
  pose proof (passes_good p (fun s : mat => s) (fun v => v) (gruCell zero one add sub mul p lbr f g) (initOf zero (h0 p)) (gruStep zero one add sub mul p lbr f g)
    (initialState zero p (h0 p)) (initOf zero (h0 p)) junk HT HL) as G.
  destruct (passes p (gruStep zero one add sub mul p lbr f g) (initialState zero p (h0 p) true) (initialState zero p (h0 p) false) junk) as [[fw r] Y].
  eapply padded_last; [|apply G].
  - intros d b j Hd. cbn beta. rewrite last_eq by assumption. now destruct (backwards (dir p) d).
  - intros d. apply gru_cong.
  - intros isF HP d. split; [|split; [|split]].
    + intros t s b j Ht Hb Hj Hl. pose proof (gruStep_get p lbr f g isF t s HN HH HC HP b j Hb Hj t d) as E. cbv zeta in E. fold d in E. injection E as E1 E2.
      rewrite E1, E2, !Z.eqb_refl. cbn [andb]. replace (t <? lenOf p b) with true by lia. split; reflexivity.
    + intros t s b j Ht Hb Hj Hl. pose proof (gruStep_get p lbr f g isF t s HN HH HC HP b j Hb Hj t d) as E. cbv zeta in E. fold d in E. injection E as E1 E2.
      rewrite E1, E2, !Z.eqb_refl. cbn [andb]. replace (t <? lenOf p b) with false by lia.
      unfold lenOf in Hl. destruct (lens p); [split; reflexivity|lia].
    + intros t s t' d' b j D. now apply gruStep_frame.
    + intros. now apply init_eq.
Qed.
End Ops.
