(** Proofs about convolution and pooling. *)
From Coq Require Import List ZArith Bool Lia.
From Verif Require Import Util TensorSpec TensorLemmas ConvModel ConvSpec.
Import ListNotations.
Open Scope Z_scope.

Lemma cdiv_le a b c : 0 < b -> (cdiv a b <= c <-> a <= c * b).
Proof.
  intros Hb. unfold cdiv. split; intros H.
  - assert (Q : - c <= - a / b) by lia. assert (- c * b <= - a); [|lia]. pose proof (Z.mul_div_le (- a) b Hb). nia.
  - assert (- c <= - a / b); [|lia]. apply Z.div_le_lower_bound; lia.
Qed.
Lemma cdiv_gt a b c : 0 < b -> (c < cdiv a b <-> c * b < a).
Proof. intros Hb. pose proof (cdiv_le a b c Hb). lia. Qed.

(** A sub-range of a range is what satisfies the bounds. *)
Lemma filter_zseq (P : Z -> bool) a n lb ub : (forall k, a <= k < a + Z.of_nat n -> P k = (lb <=? k) && (k <? ub)) ->
  filter P (zseq a n) = zseq (Z.max a lb) (Z.to_nat (Z.min ub (a + Z.of_nat n) - Z.max a lb)).
Proof.
  revert a. induction n as [|n IH]; intros a H.
  - replace (Z.to_nat _) with O by lia. reflexivity.
  - cbn [zseq filter]. rewrite (H a) by lia. rewrite (IH (a + 1)) by (intros k Hk; apply H; lia).
    replace (a + 1 + Z.of_nat n) with (a + Z.of_nat (S n)) by lia.
    destruct (Z.leb_spec lb a).
    + destruct (Z.ltb_spec a ub); cbn [andb].
      * replace (Z.max a lb) with a by lia. replace (Z.max (a + 1) lb) with (a + 1) by lia.
        replace (Z.to_nat (Z.min ub (a + Z.of_nat (S n)) - a)) with (S (Z.to_nat (Z.min ub (a + Z.of_nat (S n)) - (a + 1)))) by lia. reflexivity.
      * replace (Z.to_nat _) with O by lia. replace (Z.to_nat _) with O by lia. reflexivity.
    + cbn [andb]. f_equal; lia.
Qed.

Lemma filter_flat_map {A B} (P : B -> bool) (f : A -> list B) l : filter P (flat_map f l) = flat_map (fun x => filter P (f x)) l.
Proof. induction l; cbn; [auto|]. now rewrite filter_app, IHl. Qed.
Lemma filter_map {A B} (P : B -> bool) (f : A -> B) l : filter P (map f l) = map f (filter (fun x => P (f x)) l).
Proof. induction l; cbn; [auto|]. destruct (P (f a)); cbn; now rewrite IHl. Qed.
Lemma flat_map_nil {A B} (f : A -> list B) l : (forall x, In x l -> f x = []) -> flat_map f l = [].
Proof. induction l; cbn; intros H; [auto|]. rewrite (H a), IHl; auto. Qed.
Lemma flat_map_filter {A B} (P : A -> bool) (f : A -> list B) l : flat_map f (filter P l) = flat_map (fun x => if P x then f x else []) l.
Proof. induction l; cbn; [auto|]. destruct (P a); cbn; now rewrite IHl. Qed.
Lemma flat_map_ext' {A B} (f g : A -> list B) l : (forall x, In x l -> f x = g x) -> flat_map f l = flat_map g l.
Proof. induction l; cbn; intros H; [auto|]. rewrite (H a), IHl; auto. Qed.

(** Nested loops whose bounds select, axis by axis, what a product test selects. *)
Inductive selects : list (Z * Z) -> list Z -> (list Z -> bool) -> Prop :=
  | S_nil P : P [] = true -> selects [] [] P
  | S_cons lb ub d bs ds P Q R : (forall k, 0 <= k < d -> P k = (lb <=? k) && (k <? ub)) -> 0 <= lb -> ub <= d ->
      (forall k ks, R (k :: ks) = P k && Q ks) -> selects bs ds Q -> selects ((lb, ub) :: bs) (d :: ds) R.
Lemma nest_selects bs ds R : selects bs ds R -> nest bs = filter R (indices ds).
Proof.
  induction 1 as [P H|lb ub d bs ds P Q R HP Hlb Hub HR Hs IH]; cbn [nest indices filter].
  - now rewrite H.
  - rewrite filter_flat_map. symmetry. transitivity (flat_map (fun i => if P i then map (cons i) (nest bs) else []) (zrange d)); [apply flat_map_ext'|].
    + intros i Hi. rewrite filter_map. rewrite (filter_ext _ (fun ks => P i && Q ks)) by (intros; apply HR).
      destruct (P i); cbn [andb].
      * rewrite IH. f_equal.
      * clear. induction (indices ds); cbn; auto.
    + rewrite <- (flat_map_filter P (fun i => map (cons i) (nest bs))). unfold zrange. rewrite (filter_zseq P 0 (Z.to_nat d) lb ub) by (intros k Hk; apply HP; lia).
      replace (Z.max 0 lb) with lb by lia. replace (Z.to_nat (Z.min ub (0 + Z.of_nat (Z.to_nat d)) - lb)) with (Z.to_nat (ub - lb)) by lia. reflexivity.
Qed.
Lemma nest_In bs idx : In idx (nest bs) <-> Forall2 (fun b i => fst b <= i < snd b) bs idx.
Proof.
  revert idx. induction bs as [|[lb ub] bs IH]; intros idx; cbn [nest].
  - split; [intros [<-|[]]; constructor|intros H; inversion H; left; auto].
  - rewrite in_flat_map. split.
    + intros (i & Hi & H). apply in_map_iff in H as (r & <- & Hr). apply zseq_In in Hi. constructor; [cbn; lia|apply IH, Hr].
    + intros H. inversion H as [|? ? ? ? Hb HF]; subst. exists y. cbn in Hb. split; [apply zseq_In; lia|]. apply in_map, IH, HF.
Qed.
Lemma NoDup_app' {A} (l m : list A) : NoDup l -> NoDup m -> (forall x, In x l -> In x m -> False) -> NoDup (l ++ m).
Proof.
  intros Hl Hm H. induction Hl as [|x l Hx Hl IH]; cbn; [auto|]. constructor.
  - rewrite in_app_iff. intros [Q|Q]; [auto|]. apply (H x); [left; auto|auto].
  - apply IH. intros y Hy. apply H. right. auto.
Qed.
Lemma NoDup_flat_map_cons (l : list Z) (m : list (list Z)) : NoDup l -> NoDup m -> NoDup (flat_map (fun i => map (cons i) m) l).
Proof.
  intros Hl Hm. induction Hl as [|i l Hi Hl IH]; cbn; [constructor|]. 
  apply NoDup_app'; auto.
  - clear -Hm. induction Hm; cbn; constructor; auto. rewrite in_map_iff. intros (y & E & Hy). injection E as ->. auto.
  - intros x Hx Hx'. apply in_map_iff in Hx as (r & <- & _). apply in_flat_map in Hx' as (j & Hj & H). apply in_map_iff in H as (r' & E & _). injection E as -> _. auto.
Qed.
Lemma NoDup_nest bs : NoDup (nest bs).
Proof.
  induction bs as [|[lb ub] bs IH]; cbn [nest]; [repeat constructor; auto|]. apply NoDup_flat_map_cons; [apply NoDup_zseq|auto].
Qed.

Lemma inb_valid s idx : inb s idx = true <-> valid s idx.
Proof.
  unfold valid. revert idx. induction s as [|d s IH]; intros [|i idx]; cbn; split; intros H; try constructor; try discriminate; try (inversion H; fail).
  - apply andb_prop in H as [H _]. apply andb_prop in H as [H1 H2]. lia.
  - apply andb_prop in H as [_ H]. apply IH, H.
  - inversion H; subst. rewrite !andb_true_iff. split; [lia|]. now apply IH.
Qed.

(** ** Convolution. *)
Lemma tap_inside a p o k : 1 <= aD a -> 0 <= k < aK a ->
  ((0 <=? tap a p o k) && (tap a p o k <? aI a)) = (fst (redBounds a p o) <=? k) && (k <? snd (redBounds a p o)).
Proof.
  intros Hd Hk. unfold redBounds, tap. cbn [fst snd].
  pose proof (cdiv_le (p - o * aS a) (aD a) k ltac:(lia)) as L1. pose proof (cdiv_gt (aI a + (p - o * aS a)) (aD a) k ltac:(lia)) as L2.
  apply eq_iff_eq_true. rewrite !andb_true_iff, !Z.leb_le, !Z.ltb_lt. split; intros [H1 H2]; split; try lia.
Qed.
Lemma conv_selects axes : forall ps os, length ps = length axes -> length os = length axes -> Forall (fun a => 1 <= aD a) axes ->
  selects (map3 redBounds axes ps os) (map aK axes) (fun ks => insideAll axes (taps axes ps os ks)).
Proof.
  induction axes as [|a axes IH]; intros [|p ps] [|o os] Hp Ho HD; try discriminate; cbn [map3 map].
  - constructor. reflexivity.
  - inversion HD; subst. rewrite (surjective_pairing (redBounds a p o)).
    apply (S_cons _ _ _ _ _ (fun k => (0 <=? tap a p o k) && (tap a p o k <? aI a)) (fun ks => insideAll axes (taps axes ps os ks))).
    + intros k Hk. apply tap_inside; auto.
    + unfold redBounds. cbn [fst]. lia.
    + unfold redBounds. cbn [snd]. lia.
    + intros k ks. reflexivity.
    + apply IH; auto.
Qed.
Lemma foldM_fold {A S} (f : A -> S -> option S) (g : S -> A -> S) l s : (forall x s, In x l -> f x s = Some (g s x)) -> foldM f l s = Some (fold_left g l s).
Proof. revert s. induction l as [|x l IH]; intros s H; cbn; [auto|]. rewrite H by (left; auto). cbn. apply IH. intros; apply H; right; auto. Qed.
Lemma map3_image axes : forall ps os ks, length ps = length axes -> length os = length axes -> map3 imageIdx axes (combine ps os) ks = taps axes ps os ks.
Proof.
  induction axes as [|a axes IH]; intros [|p ps] [|o os] ks Hp Ho; try discriminate; cbn [map3 combine taps]; [auto|].
  destruct ks as [|k ks]; [auto|]. f_equal; [unfold imageIdx, tap; cbn [fst snd]; lia|apply IH; cbn in *; lia].
Qed.
Lemma inside_valid axes : forall ps os ks, length ps = length axes -> length os = length axes -> length ks = length axes ->
  insideAll axes (taps axes ps os ks) = true -> inb (map aI axes) (taps axes ps os ks) = true.
Proof.
  induction axes as [|a axes IH]; intros [|p ps] [|o os] [|k ks] Hp Ho Hk H; try discriminate; cbn [taps map inb]; [auto|].
  cbn [taps insideAll combine forallb] in H. unfold insideAll in H. cbn [taps combine forallb fst snd] in H. apply andb_prop in H as [H1 H2].
  rewrite H1. cbn [andb]. apply IH; auto.
Qed.
Lemma valid_indices s idx : In idx (indices s) <-> valid s idx.
Proof.
  unfold valid. revert idx. induction s as [|d s IH]; intros idx; cbn [indices].
  - split; [intros [<-|[]]; constructor|intros H; inversion H; left; auto].
  - rewrite in_flat_map. split.
    + intros (i & Hi & H). apply in_map_iff in H as (r & <- & Hr). apply zrange_In in Hi. constructor; [lia|apply IH, Hr].
    + intros H. inversion H as [|? ? ? ? Hb HF]; subst. exists y. split; [apply zrange_In; lia|]. apply in_map, IH, HF.
Qed.

Section ConvP.
Context {T : Type} (zero : T) (add mul : T -> T -> T).
Lemma group_bounds CO G g c : 1 <= G -> (G | CO) -> 0 <= g < G -> 0 <= c < cdiv CO G -> cdiv CO G = CO / G /\ 0 <= g * cdiv CO G + c < CO /\ (g * cdiv CO G + c) / (CO / G) = g.
Proof.
  intros HG [q HD] Hg Hc. assert (E : CO / G = q) by (rewrite HD; apply Z.div_mul; lia).
  assert (E' : cdiv CO G = q) by (unfold cdiv; rewrite HD; replace (- (q * G)) with ((- q) * G) by lia; rewrite Z.div_mul; lia).
  rewrite E, E' in *. split; [auto|]. split; [subst CO; nia|]. rewrite Z.div_add_l by lia. rewrite Z.div_small by lia. lia.
Qed.
Lemma convBody_ok (c : @conv T) n g k os : wf_conv c -> 0 <= n < N c -> 0 <= g < G c -> 0 <= k < cdiv (CO c) (G c) -> valid (outS c) os ->
  let co := g * cdiv (CO c) (G c) + k in
  convBody zero add mul c (n :: g :: k :: os) = Some (n :: co :: os, conv_value zero add mul c n co os).
Proof.
  intros (W1 & W2 & W3 & W4 & W5 & W6) Hn Hg Hk Hos co. destruct (group_bounds (CO c) (G c) g k W4 W5 Hg Hk) as (E1 & E2 & E3).
  assert (Los : length os = length (axes c)) by (apply valid_length in Hos; lia).
  cbn [convBody]. fold co.
  assert (SEL : selects ((0, CIg c) :: map3 redBounds (axes c) (ps c) os) (CIg c :: map aK (axes c)) (fun red => insideAll (axes c) (taps (axes c) (ps c) os (tl red)))).
  { apply (S_cons _ _ _ _ _ (fun _ => true) (fun ks => insideAll (axes c) (taps (axes c) (ps c) os ks))); try lia.
    - intros j ks. reflexivity.
    - apply conv_selects; auto. }
  rewrite (nest_selects _ _ _ SEL).
  rewrite (foldM_fold _ (fun acc red => add acc (match red with ci :: ks => mul (X c (n :: co / (CO c / G c) * CIg c + ci :: taps (axes c) (ps c) os ks)) (W c (co :: ci :: ks)) | [] => zero end))).
  2:{ intros red acc H. apply filter_In in H as [H HI]. apply valid_indices in H. inversion H as [|? ? ? ks Hci Hks]; subst. cbn [tl] in HI. cbn [redBody].
      rewrite map3_image by auto. fold co in E3. unfold co in *. rewrite E3.
      assert (Lk : length ks = length (axes c)) by (apply valid_length in Hks; rewrite map_length in Hks; lia).
      unfold load at 1. replace (inb (xShape c) _) with true.
      2:{ symmetry. unfold xShape. cbn [inb]. rewrite (inside_valid (axes c) (ps c) os ks) by auto. rewrite !andb_true_iff. rewrite W6. repeat split; try lia; nia. }
      unfold load at 1. replace (inb (wShape c) _) with true.
      2:{ symmetry. unfold wShape. cbn [inb]. apply inb_valid in Hks. rewrite Hks. rewrite !andb_true_iff. repeat split; lia. }
      reflexivity. }
  unfold conv_value. fold co. fold co in E2, E3.
  assert (OB : inb (oShape c) (n :: co :: os) = true).
  { unfold oShape. cbn [inb]. apply inb_valid in Hos. rewrite Hos, !andb_true_iff. repeat split; lia. }
  rewrite OB. destruct (B c) as [b|]; [|reflexivity].
  unfold load. replace (inb [CO c] [co]) with true; [reflexivity|]. symmetry. cbn [inb]. rewrite !andb_true_iff. repeat split; lia.
Qed.
Lemma mapM_map {A B} (f : A -> option B) (g : A -> B) l : (forall x, In x l -> f x = Some (g x)) -> mapM f l = Some (map g l).
Proof. induction l as [|x l IH]; intros H; cbn; [auto|]. rewrite H, IH; auto; [|left; auto]. intros; apply H; right; auto. Qed.

Theorem conv_correct (c : @conv T) : wf_conv c -> 0 <= CO c ->
  exists stores, convUnoptimized zero add mul c = Some stores /\ NoDup (map fst stores) /\
    (forall idx, In idx (map fst stores) <-> valid (oShape c) idx) /\
    (forall n co os v, In (n :: co :: os, v) stores -> v = conv_value zero add mul c n co os).
Proof.
  intros HW HCO. pose proof HW as (W1 & W2 & W3 & W4 & W5 & W6). unfold convUnoptimized.
  set (q := cdiv (CO c) (G c)).
  set (g := fun it => match it with n :: g :: k :: os => (n :: g * q + k :: os, conv_value zero add mul c n (g * q + k) os) | _ => ([], zero) end).
  assert (IN : forall it, In it (nest ([(0, N c); (0, G c); (0, q)] ++ map (fun d => (0, d)) (outS c))) <-> exists n g k os, it = n :: g :: k :: os /\ 0 <= n < N c /\ 0 <= g < G c /\ 0 <= k < q /\ valid (outS c) os).
  { assert (FV : forall ds os, Forall2 (fun b i => fst b <= i < snd b) (map (fun d => (0, d)) ds) os <-> valid ds os).
    { unfold valid. induction ds as [|d ds IHd]; intros [|o os]; cbn [map]; split; intros H; inversion H; subst; constructor; auto; apply IHd; auto. }
    intros it. rewrite nest_In. cbn [app]. split.
    - intros H. repeat match goal with H : Forall2 _ (_ :: _) _ |- _ => inversion H; subst; clear H end. cbn [fst snd] in *. match goal with H : Forall2 _ _ _ |- _ => apply FV in H end. eauto 12.
    - intros (n & g' & k & os & -> & H1 & H2 & H3 & H4). repeat constructor; cbn [fst snd]; try lia. apply FV, H4. }
  rewrite (mapM_map _ g).
  2:{ intros it H. apply IN in H as (n & g' & k & os & -> & H1 & H2 & H3 & H4). unfold g. apply convBody_ok; auto. }
  eexists. split; [reflexivity|]. destruct W5 as [m Hm].
  assert (Eq : q = m) by (unfold q, cdiv; rewrite Hm; replace (- (m * G c)) with ((- m) * G c) by lia; rewrite Z.div_mul; lia).
  split; [|split].
  - rewrite map_map. assert (ND := NoDup_nest ([(0, N c); (0, G c); (0, q)] ++ map (fun d => (0, d)) (outS c))). revert IN ND.
    generalize (nest ([(0, N c); (0, G c); (0, q)] ++ map (fun d => (0, d)) (outS c))). intros l IN ND.
    assert (HIN : forall it, In it l -> exists n g k os, it = n :: g :: k :: os /\ 0 <= g < G c /\ 0 <= k < q) by (intros it Hit; apply IN in Hit as (n & g' & k & os & E & _ & H2 & H3 & _); eauto 8).
    clear IN. induction ND as [|it l Hit ND IH]; cbn; constructor.
    + rewrite in_map_iff. intros (it' & E & Hit'). destruct (HIN it (or_introl eq_refl)) as (n & g1 & k1 & os & -> & G1 & K1). destruct (HIN it' (or_intror Hit')) as (n' & g2 & k2 & os' & -> & G2 & K2).
      cbn in E. injection E as -> E ->. assert (g2 = g1) by nia. subst g2. assert (k2 = k1) by lia. subst k2. auto.
    + apply IH. intros; apply HIN; right; auto.
  - intros idx. rewrite map_map, in_map_iff. split.
    + intros (it & <- & H). apply IN in H as (n & g' & k & os & -> & H1 & H2 & H3 & H4). cbn. unfold oShape. constructor; [lia|]. constructor; [rewrite Eq in *; nia|exact H4].
    + intros H. unfold oShape in H. inversion H as [|? n ? r Hn Hr]; subst. inversion Hr as [|? co ? os Hco Hos]; subst.
      assert (Hq : 0 < q) by nia.
      exists (n :: co / q :: co mod q :: os). split; [cbn; f_equal; f_equal; pose proof (Z.div_mod co q ltac:(lia)); lia|]. apply IN. exists n, (co / q), (co mod q), os.
      split; [auto|]. split; [auto|]. split; [split; [apply Z.div_pos; lia|apply Z.div_lt_upper_bound; nia]|]. split; [apply Z.mod_pos_bound; lia|exact Hos].
  - intros n co os v H. apply in_map_iff in H as (it & E & H). apply IN in H as (n' & g' & k & os' & -> & _). cbn in E. injection E as <- <- <- <-. reflexivity.
Qed.
End ConvP.

(** Over the integers the skipped products are those of the padding. *)
Lemma sumZ_filter {A} (P : A -> bool) (f : A -> Z) l : (forall x, In x l -> P x = false -> f x = 0) -> sumZ (map f (filter P l)) = sumZ (map f l).
Proof.
  unfold sumZ. induction l as [|x l IH]; intros H; cbn [filter map fold_right]; [auto|].
  destruct (P x) eqn:E; cbn [map fold_right]; rewrite IH by (intros; apply H; [right|]; auto); [auto|].
  rewrite (H x (or_introl eq_refl) E). lia.
Qed.
Lemma fold_left_sum {A} (f : A -> Z) l a : fold_left (fun acc x => acc + f x) l a = a + sumZ (map f l).
Proof. unfold sumZ. revert a. induction l as [|x l IH]; intros a; cbn [fold_left map fold_right]; [lia|]. rewrite IH. lia. Qed.
Lemma conv_value_sum (c : @conv Z) n co os : conv_value 0 Z.add Z.mul c n co os = conv_sum c n co os.
Proof.
  unfold conv_value, conv_sum.
  rewrite (fold_left_sum (fun red => match red with ci :: ks => X c (n :: co / (CO c / G c) * CIg c + ci :: taps (axes c) (ps c) os ks) * W c (co :: ci :: ks) | [] => 0 end)).
  assert (E : sumZ (map (fun red => match red with ci :: ks => X c (n :: co / (CO c / G c) * CIg c + ci :: taps (axes c) (ps c) os ks) * W c (co :: ci :: ks) | [] => 0 end)
      (filter (fun red => insideAll (axes c) (taps (axes c) (ps c) os (tl red))) (indices (CIg c :: map aK (axes c)))))
    = sumZ (map (fun red => match red with ci :: ks => zpad (axes c) (X c) n (co / (CO c / G c) * CIg c + ci) (taps (axes c) (ps c) os ks) * W c (co :: ci :: ks) | [] => 0 end) (indices (CIg c :: map aK (axes c))))).
  { rewrite <- (sumZ_filter (fun red => insideAll (axes c) (taps (axes c) (ps c) os (tl red))) (fun red => match red with ci :: ks => zpad _ _ _ _ _ * _ | [] => 0 end)).
    - f_equal. apply map_ext_in. intros red Hr. apply filter_In in Hr as [_ Hr]. destruct red as [|ci ks]; [auto|]. cbn [tl] in Hr. unfold zpad. now rewrite Hr.
    - intros [|ci ks] _ Hr; [auto|]. cbn [tl] in Hr. unfold zpad. rewrite Hr. lia. }
  rewrite E. destruct (B c); lia.
Qed.

(** ** Pooling *)
Lemma zseq_map_add a b n : map (fun h => h + b) (zseq a n) = zseq (a + b) n.
Proof. revert a. induction n as [|n IH]; intros a; cbn; [auto|]. rewrite IH. f_equal. f_equal. lia. Qed.
(** One axis is read exactly. *)
Definition axis_exact (cm isDil : bool) (a : axis) (p o : Z) : Prop :=
  map (poolIdx isDil a (p, o)) (zseq 0 (Z.to_nat (windowDim cm isDil a p o - 0))) =
  filter (fun x => (0 <=? x) && (x <? aI a)) (map (tap a p o) (zrange (aK a))).
Fixpoint exact_axes (cm isDil : bool) (axes : list axis) (ps os : list Z) : Prop :=
  match axes, ps, os with
  | [], [], [] => True
  | a :: axes, p :: ps, o :: os => axis_exact cm isDil a p o /\ exact_axes cm isDil axes ps os
  | _, _, _ => False
  end.
Lemma flat_map_map {A B C} (f : A -> B) (g : B -> list C) l : flat_map g (map f l) = flat_map (fun x => g (f x)) l.
Proof. induction l; cbn; [auto|]. now rewrite IHl. Qed.
Lemma map_flat_map {A B C} (f : B -> C) (g : A -> list B) l : map f (flat_map g l) = flat_map (fun x => map f (g x)) l.
Proof. induction l; cbn; [auto|]. now rewrite map_app, IHl. Qed.
Lemma window_cons a axes p ps o os : window (a :: axes) (p :: ps) (o :: os) =
  flat_map (fun x => map (cons x) (window axes ps os)) (filter (fun x => (0 <=? x) && (x <? aI a)) (map (tap a p o) (zrange (aK a)))).
Proof.
  unfold window. cbn [map indices]. rewrite flat_map_filter, flat_map_map, map_flat_map, filter_flat_map.
  apply flat_map_ext'. intros k _. rewrite map_map.
  rewrite (map_ext _ (fun ks => tap a p o k :: taps axes ps os ks)) by reflexivity.
  rewrite <- (map_map (taps axes ps os) (cons (tap a p o k))). rewrite filter_map.
  rewrite (filter_ext _ (fun x => ((0 <=? tap a p o k) && (tap a p o k <? aI a)) && insideAll axes x)) by reflexivity.
  destruct ((0 <=? tap a p o k) && (tap a p o k <? aI a)); cbn [andb]; [f_equal|].
  generalize (map (taps axes ps os) (indices (map aK axes))). intros l. induction l; cbn; auto.
Qed.
Lemma pool_exact cm isDil axes : forall ps os, exact_axes cm isDil axes ps os ->
  map (map3 (poolIdx isDil) axes (combine ps os)) (nest (map3 (fun a p o => (0, windowDim cm isDil a p o)) axes ps os)) = window axes ps os.
Proof.
  induction axes as [|a axes IH]; intros [|p ps] [|o os] H; cbn in H; try tauto.
  destruct H as [H1 H2]. rewrite window_cons, <- H1, <- (IH _ _ H2). cbn [map3 nest combine]. rewrite flat_map_map, map_flat_map. apply flat_map_ext'. intros h _. rewrite !map_map. reflexivity.
Qed.

Lemma cdiv_1 a : cdiv a 1 = a.
Proof. unfold cdiv. rewrite Z.div_1_r. lia. Qed.
Lemma filter_taps (a : axis) p o : 1 <= aD a -> filter (fun x => (0 <=? x) && (x <? aI a)) (map (tap a p o) (zrange (aK a))) =
  map (tap a p o) (zseq (fst (redBounds a p o)) (Z.to_nat (snd (redBounds a p o) - fst (redBounds a p o)))).
Proof.
  intros Hd. rewrite filter_map. f_equal. unfold zrange.
  rewrite (filter_zseq _ 0 (Z.to_nat (aK a)) (fst (redBounds a p o)) (snd (redBounds a p o))).
  - assert (0 <= fst (redBounds a p o)) by (unfold redBounds; cbn [fst]; lia). assert (snd (redBounds a p o) <= aK a) by (unfold redBounds; cbn [snd]; lia).
    f_equal; lia.
  - intros k Hk. apply tap_inside; lia.
Qed.
Lemma map_zseq_ext (f g : Z -> Z) a b n : (forall i, 0 <= i < Z.of_nat n -> f (a + i) = g (b + i)) -> map f (zseq a n) = map g (zseq b n).
Proof.
  revert a b. induction n as [|n IH]; intros a b H; cbn [zseq map]; [auto|]. f_equal.
  - specialize (H 0 ltac:(lia)). now rewrite !Z.add_0_r in H.
  - apply IH. intros i Hi. specialize (H (1 + i) ltac:(lia)). now rewrite !Z.add_assoc in H.
Qed.
Lemma min4_max a b s t : Z.min (Z.min (a - s) (a - t)) (Z.min (b - s) (b - t)) = Z.min a b - Z.max s t.
Proof. lia. Qed.
Lemma div_min a b d : 0 < d -> Z.min (a / d) (b / d) = Z.min a b / d.
Proof. intros Hd. destruct (Z.le_gt_cases a b); [pose proof (Z.div_le_mono a b d Hd)|pose proof (Z.div_le_mono b a d Hd)]; rewrite ?(Z.min_l a b), ?(Z.min_r a b) by lia; lia. Qed.
Lemma cdiv_mono a b d : 0 < d -> a <= b -> cdiv a d <= cdiv b d.
Proof. intros Hd H. unfold cdiv. pose proof (Z.div_le_mono (- b) (- a) d Hd). lia. Qed.
Lemma cdiv_min a b d : 0 < d -> Z.min (cdiv a d) (cdiv b d) = cdiv (Z.min a b) d.
Proof. intros Hd. destruct (Z.le_gt_cases a b); [pose proof (cdiv_mono a b d Hd)|pose proof (cdiv_mono b a d Hd)]; rewrite ?(Z.min_l a b), ?(Z.min_r a b) by lia; lia. Qed.
(** The loop bound, as a function of the clipped window. *)
Lemma windowDim_eq cm isDil a p o : 1 <= aD a ->
  windowDim cm isDil a p o = let x := windowEnd a p o - windowStart a p o in if isDil then (if cm then cdiv (x + 1) (aD a) else (x + 1) / aD a) else x.
Proof.
  intros Hd. cbn zeta. unfold windowDim, windowEnd, windowStart. destruct isDil; [destruct cm|].
  - rewrite !cdiv_min by lia. f_equal. lia.
  - rewrite !div_min by lia. f_equal. lia.
  - apply min4_max.
Qed.

Lemma exact_undilated cm a p o : aD a = 1 -> axis_exact cm false a p o.
Proof.
  intros Hd. unfold axis_exact. rewrite filter_taps, windowDim_eq by lia. cbn zeta. unfold windowEnd, windowStart, end1, end2, start1, start2, redBounds. cbn [fst snd].
  rewrite Hd, !cdiv_1. unfold poolIdx, windowStart, start1, start2, tap. cbn [fst snd]. rewrite Hd, cdiv_1.
  replace (Z.to_nat (Z.min (aI a) (o * aS a + (aK a - 1) * 1 + 1 - p) - Z.max (p * 1 - p) (o * aS a - p) - 0))
    with (Z.to_nat (Z.min (aI a + (p - o * aS a)) (aK a) - Z.max (p - o * aS a) 0)) by lia.
  apply map_zseq_ext. intros i Hi. lia.
Qed.

(** The phase of the window is right when there is no padding or the stride is a multiple
    of the dilation. *)
Definition aligned (a : axis) (p : Z) : Prop := p = 0 \/ (aD a | aS a).
Lemma cdiv_bounds p d : 0 < d -> p <= cdiv p d * d < p + d.
Proof. intros Hd. unfold cdiv. pose proof (Z.mul_div_le (- p) d Hd). pose proof (Z.mul_succ_div_gt (- p) d Hd). nia. Qed.
Lemma cdiv_unique p d c : 0 < d -> p <= c * d < p + d -> cdiv p d = c.
Proof. intros Hd H. pose proof (cdiv_bounds p d Hd). nia. Qed.
Lemma aligned_start a p o : 1 <= aD a -> 0 <= o -> 1 <= aS a -> 0 <= p -> aligned a p ->
  windowStart a p o = tap a p o (fst (redBounds a p o)).
Proof.
  intros Hd Ho HS Hp HA. unfold windowStart, start1, start2, redBounds, tap. cbn [fst]. destruct HA as [->|[q Hq]].
  - replace (cdiv 0 (aD a)) with 0 by (symmetry; apply cdiv_unique; lia). replace (Z.max (cdiv (0 - o * aS a) (aD a)) 0) with 0; [nia|].
    assert (cdiv (0 - o * aS a) (aD a) <= 0) by (apply cdiv_le; nia). lia.
  - assert (E : cdiv (p - o * aS a) (aD a) = cdiv p (aD a) - o * q).
    { apply cdiv_unique; [lia|]. pose proof (cdiv_bounds p (aD a) ltac:(lia)). rewrite Hq. nia. }
    rewrite E. rewrite Hq. pose proof (cdiv_bounds p (aD a) ltac:(lia)).
    destruct (Z.le_gt_cases (cdiv p (aD a)) (o * q)).
    + rewrite (Z.max_r (cdiv p (aD a) - o * q) 0) by lia. rewrite Z.max_r; [lia|nia].
    + rewrite (Z.max_l (cdiv p (aD a) - o * q) 0) by lia. rewrite Z.max_l; [lia|nia].
Qed.
(** The number of taps, starting from a tap. *)
Lemma count_taps a p o : 1 <= aD a -> let lb := fst (redBounds a p o) in
  snd (redBounds a p o) - lb = cdiv (windowEnd a p o - tap a p o lb) (aD a).
Proof.
  intros Hd lb. symmetry. apply cdiv_unique; [lia|]. unfold windowEnd, end1, end2, tap. unfold redBounds at 1 2. cbn [snd].
  pose proof (cdiv_bounds (aI a + (p - o * aS a)) (aD a) ltac:(lia)). destruct (Z.le_gt_cases (cdiv (aI a + (p - o * aS a)) (aD a)) (aK a)).
  - rewrite (Z.min_l (cdiv _ _)) by lia. destruct (Z.le_gt_cases (aI a) (o * aS a + (aK a - 1) * aD a + 1 - p)) as [Q|Q]; [rewrite (Z.min_l _ _ Q)|rewrite (Z.min_r (aI a)) by lia]; nia.
  - rewrite (Z.min_r (cdiv _ _)) by lia. destruct (Z.le_gt_cases (aI a) (o * aS a + (aK a - 1) * aD a + 1 - p)) as [Q|Q]; [rewrite (Z.min_l _ _ Q)|rewrite (Z.min_r (aI a)) by lia]; nia.
Qed.
Lemma exact_dilated cm a p o : 1 <= aD a -> 0 <= o -> 1 <= aS a -> 0 <= p -> aligned a p ->
  Z.max 0 (windowDim cm true a p o) = Z.max 0 (cdiv (windowEnd a p o - windowStart a p o) (aD a)) -> axis_exact cm true a p o.
Proof.
  intros Hd Ho HS Hp HA E. unfold axis_exact. rewrite filter_taps by lia. rewrite count_taps by lia. rewrite <- aligned_start by auto.
  replace (Z.to_nat (windowDim cm true a p o - 0)) with (Z.to_nat (cdiv (windowEnd a p o - windowStart a p o) (aD a))) by lia.
  apply map_zseq_ext. intros i Hi. unfold poolIdx. cbn [fst snd]. rewrite aligned_start by auto. unfold tap. nia.
Qed.
(** Dilation two, floor mode. *)
Lemma exact_dilated2 a p o : aD a = 2 -> 0 <= o -> 1 <= aS a -> 0 <= p -> aligned a p -> axis_exact false true a p o.
Proof.
  intros Hd Ho HS Hp HA. apply exact_dilated; auto; try lia. rewrite windowDim_eq by lia. cbn zeta. rewrite Hd. f_equal. symmetry. apply cdiv_unique; [lia|].
  pose proof (Z.div_mod (windowEnd a p o - windowStart a p o + 1) 2 ltac:(lia)). pose proof (Z.mod_pos_bound (windowEnd a p o - windowStart a p o + 1) 2 ltac:(lia)). lia.
Qed.
(** Ceil mode, when the whole window is in the input. *)
Lemma exact_dilated_inside a p o : 2 <= aD a -> 0 <= o -> 1 <= aS a -> 0 <= p -> 1 <= aK a -> aligned a p ->
  p <= o * aS a -> o * aS a - p + extent a <= aI a -> axis_exact true true a p o.
Proof.
  intros Hd Ho HS Hp HK HA Hb He. apply exact_dilated; auto; try lia. rewrite windowDim_eq by lia. cbn zeta. f_equal.
  assert (HS1 : windowStart a p o = o * aS a - p).
  { rewrite aligned_start by (auto; lia). unfold tap, redBounds. cbn [fst]. assert (cdiv (p - o * aS a) (aD a) <= 0) by (apply cdiv_le; lia). rewrite Z.max_r by lia. lia. }
  assert (HE : windowEnd a p o = o * aS a - p + extent a) by (unfold windowEnd, end1, end2, extent in *; lia).
  rewrite HS1, HE. unfold extent. transitivity (aK a); [|symmetry]; apply cdiv_unique; nia.
Qed.

Section PoolP.
Context {T : Type} (f : T -> T -> T).
Lemma window_inside axes ps os pos : length ps = length axes -> length os = length axes -> In pos (window axes ps os) -> inb (map aI axes) pos = true.
Proof.
  intros Hp Ho H. unfold window in H. apply filter_In in H as [H HI]. apply in_map_iff in H as (ks & <- & Hk). apply valid_indices, valid_length in Hk. rewrite map_length in Hk.
  apply inside_valid; auto.
Qed.
Lemma exact_lengths cm b axes : forall ps os, exact_axes cm b axes ps os -> length ps = length axes /\ length os = length axes.
Proof. induction axes as [|a axes IH]; intros [|p ps] [|o os] H; cbn in H; try tauto. destruct (IH ps os (proj2 H)). cbn. lia. Qed.
Lemma poolReduce_ok ident cm NN CC axes ps x n ch os : exact_axes cm (isDilated axes) axes ps os -> 0 <= n < NN -> 0 <= ch < CC ->
  poolReduce f ident cm NN CC axes ps x n ch os = Some (fold_left (fun acc pos => f acc (x (n :: ch :: pos))) (window axes ps os) ident).
Proof.
  intros H Hn Hc. destruct (exact_lengths _ _ _ _ _ H) as [L1 L2]. unfold poolReduce, poolWindow. rewrite (pool_exact _ _ _ _ _ H).
  apply (foldM_fold _ (fun acc pos => f acc (x (n :: ch :: pos)))). intros pos acc HI. unfold load. replace (inb _ _) with true; [auto|]. symmetry. cbn [inb].
  rewrite (window_inside axes ps os) by auto. rewrite !andb_true_iff. repeat split; lia.
Qed.
End PoolP.

Lemma undilated_axes axes : Forall (fun a => aD a = 1) axes -> isDilated axes = false.
Proof. unfold isDilated. induction 1 as [|a l H Hl IH]; cbn; [auto|]. rewrite IH, H. reflexivity. Qed.
Lemma exact_axes_undilated cm axes ps os : Forall (fun a => aD a = 1) axes -> length ps = length axes -> length os = length axes -> exact_axes cm (isDilated axes) axes ps os.
Proof.
  intros H. rewrite undilated_axes by auto. revert ps os. induction H as [|a l H Hl IH]; intros [|p ps] [|o os] Hp Ho; try discriminate; cbn; auto.
  split; [apply exact_undilated, H|apply IH; auto].
Qed.
(** Number of pixels. *)
Lemma window_length_cons a axes p ps o os : Z.of_nat (length (window (a :: axes) (p :: ps) (o :: os))) =
  Z.of_nat (length (filter (fun x => (0 <=? x) && (x <? aI a)) (map (tap a p o) (zrange (aK a))))) * Z.of_nat (length (window axes ps os)).
Proof.
  rewrite window_cons. induction (filter _ _) as [|x l IH]; cbn [flat_map length]; [lia|]. rewrite app_length, map_length. lia.
Qed.
Lemma denominator_ok cm axes ps os : Forall (fun a => aD a = 1) axes -> length ps = length axes -> length os = length axes ->
  window axes ps os <> [] -> avgDenominator cm false axes ps os = Z.of_nat (length (window axes ps os)).
Proof.
  intros H. unfold avgDenominator. rewrite undilated_axes by auto. revert ps os. induction H as [|a l H Hl IH]; intros [|p ps] [|o os] Hp Ho HN; try discriminate; cbn [map3].
  - reflexivity.
  - rewrite window_length_cons. rewrite window_cons in HN.
    assert (HN1 : filter (fun x => (0 <=? x) && (x <? aI a)) (map (tap a p o) (zrange (aK a))) <> []) by (intros E; rewrite E in HN; now apply HN).
    assert (HN2 : window l ps os <> []) by (intros E; rewrite E in HN; apply HN, flat_map_nil; auto).
    change (prodZ (fullWindow cm false a p o :: map3 (fullWindow cm false) l ps os)) with (fullWindow cm false a p o * prodZ (map3 (fullWindow cm false) l ps os)).
    rewrite (IH ps os) by (cbn in *; auto; lia). f_equal. rewrite <- (exact_undilated cm a p o H) in *. rewrite map_length, zseq_length.
    rewrite windowDim_eq in * by lia. cbn zeta in *. unfold fullWindow. destruct (Z.le_gt_cases (windowEnd a p o - windowStart a p o) 0); [|lia].
    exfalso. apply HN1. replace (Z.to_nat _) with O by lia. reflexivity.
Qed.

(** Floor mode: every window has a pixel. *)
Lemma nonempty_axis a p o O : aD a = 1 -> 1 <= aI a -> 1 <= aK a -> 1 <= aS a -> 0 <= p < aK a -> 0 <= aPe a < aK a -> 0 <= o < O -> windows_fit a p (aPe a) O ->
  filter (fun x => (0 <=? x) && (x <? aI a)) (map (tap a p o) (zrange (aK a))) <> [].
Proof.
  intros Hd HI HK HS Hp He Ho HF. unfold windows_fit, extent in HF. rewrite Hd in HF. rewrite filter_taps by lia. unfold redBounds. cbn [fst snd]. rewrite Hd, !cdiv_1.
  assert (o * aS a <= (O - 1) * aS a) by nia.
  assert (0 < Z.min (aI a + (p - o * aS a)) (aK a) - Z.max (p - o * aS a) 0).
  { assert (0 <= o * aS a) by nia. lia. }
  destruct (Z.to_nat _) as [|n] eqn:E; [lia|]. discriminate.
Qed.
