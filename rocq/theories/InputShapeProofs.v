(** Proofs about shape information, the shapes of inputs and their verification. *)
From Coq Require Import ZArith Ascii String DecimalString DecimalPos DecimalZ Bool Lia List.
From Verif Require Import SignatureSpec SignatureModel SignatureProofs InputShapeSpec InputShapeModel.
Import ListNotations.
Open Scope Z_scope.

Lemma readDigits_acc u : forall p, readDigits (Z.pos p) (T (NilEmpty.string_of_uint u)) = Z.pos (Pos.of_uint_acc u p).
Proof.
  unfold T. induction u; intros p; cbn [NilEmpty.string_of_uint list_ascii_of_string]; [reflexivity|..]; cbn [readDigits];
    match goal with |- context [digitOf ?c] => let v := eval vm_compute in (digitOf c) in change (digitOf c) with v end; cbv iota; cbn [Pos.of_uint_acc]; rewrite <- IHu; apply (f_equal (fun z => readDigits z _)); lia.
Qed.
Lemma readDigits_uint u : readDigits 0 (T (NilEmpty.string_of_uint u)) = Z.of_N (Pos.of_uint u).
Proof. unfold T. induction u; cbn [NilEmpty.string_of_uint list_ascii_of_string]; [reflexivity|..]; cbn; [exact IHu|..]; exact (readDigits_acc u _). Qed.

Definition isDigit (c : ascii) : Prop := In c (T "0123456789").
Lemma digit_of c : isDigit c -> exists d, digitOf c = Some d.
Proof. unfold isDigit. cbn. intros H. decompose [or] H; subst; try contradiction; eexists; reflexivity. Qed.
Lemma nonneg_text z : 0 <= z -> exists c r, jsonInt z = c :: r /\ (forall x, In x (c :: r) -> isDigit x) /\ readDigits 0 (c :: r) = z.
Proof.
  intros H. unfold jsonInt. destruct z as [|p|p]; [..|lia].
  - exists "0"%char, []. split; [reflexivity|]. split; [|reflexivity]. intros x [<- | []]. unfold isDigit. cbn. tauto.
  - cbn [Z.to_int NilZero.string_of_int]. pose proof (Unsigned.of_to p) as E. pose proof (readDigits_uint (Pos.to_uint p)) as R. rewrite E in R. cbn [Z.of_N] in R.
    pose proof (digits (Pos.to_uint p)) as D. unfold T in *. unfold NilZero.string_of_uint. unfold N.to_uint in *. destruct (Pos.to_uint p) eqn:Q; [discriminate|..]; (eexists; eexists; split; [reflexivity|]; split; [intros x Hx; apply D, Hx | exact R]).
Qed.
Lemma stoi_digits c r z : (forall x, In x (c :: r) -> isDigit x) -> readDigits 0 (c :: r) = z -> 0 <= z <= 2147483647 -> stoi (c :: r) = Some z.
Proof.
  intros D R B. assert (Dc : isDigit c) by (apply D; left; auto). destruct (digit_of c Dc) as [d Ed].
  assert (S : skipSpace (c :: r) = c :: r /\ Ascii.eqb c "-" = false /\ Ascii.eqb c "+" = false).
  { clear - Dc. unfold isDigit in Dc. cbn in Dc. decompose [or] Dc; subst; try contradiction; repeat split. }
  destruct S as (S1 & S2 & S3). unfold stoi. rewrite S1, S2, S3. unfold readNumber. rewrite Ed, R.
  replace ((-2147483648 <=? z) && (z <=? 2147483647)) with true; [reflexivity|]. symmetry. apply andb_true_iff. split; apply Z.leb_le; lia.
Qed.
Lemma stoi_nonneg z : 0 <= z <= 2147483647 -> stoi (jsonInt z) = Some z.
Proof. intros H. destruct (nonneg_text z) as (c & r & E & D & R); [lia|]. rewrite E. apply stoi_digits; auto. Qed.
Lemma stoi_int z : -1 <= z -> int32 z -> stoi (jsonInt z) = Some z.
Proof. unfold int32. intros H1 H2. destruct (Z.eq_dec z (-1)) as [-> | N]; [reflexivity|]. apply stoi_nonneg. lia. Qed.
Lemma json_nonempty z : -1 <= z -> jsonInt z <> [].
Proof. intros H. destruct (Z.eq_dec z (-1)) as [-> | N]; [discriminate|]. destruct (nonneg_text z) as (c & r & E & _); [lia|]. rewrite E. discriminate. Qed.
Lemma json_chars z c : -1 <= z -> In c (jsonInt z) -> isDigit c \/ c = "-"%char.
Proof.
  intros H K. destruct (Z.eq_dec z (-1)) as [-> | N]; [cbn in K; destruct K as [<- | [<- | []]]; [right; auto | left; unfold isDigit; cbn; tauto]|].
  destruct (nonneg_text z) as (c' & r & E & D & _); [lia|]. rewrite E in K. left. auto.
Qed.
Lemma nonneg_chars z c : 0 <= z -> In c (jsonInt z) -> isDigit c.
Proof. intros H K. destruct (nonneg_text z) as (c' & r & E & D & _); [lia|]. rewrite E in K. auto. Qed.
Lemma not_digit c : ~ In c (T "0123456789") -> ~ isDigit c.
Proof. auto. Qed.

Lemma getlines_app sep s : forall cur rest, ~ In sep s -> getlines sep cur (s ++ rest) = getlines sep (cur ++ s) rest.
Proof.
  induction s as [|c s IH]; intros cur rest N; cbn [app]; [rewrite app_nil_r; reflexivity|]. cbn [getlines]. destruct (Ascii.eqb_spec c sep) as [-> | Q]; [exfalso; apply N; left; auto|].
  rewrite IH by (intros K; apply N; right; auto). rewrite <- app_assoc. reflexivity.
Qed.
Lemma getlines_join sep l : Forall (fun s => s <> [] /\ ~ In sep s) l -> getlines sep [] (join [sep] l) = l.
Proof.
  induction 1 as [|s l [N1 N2] F IH]; [reflexivity|]. destruct l as [|s' l].
  - cbn [join]. rewrite <- (app_nil_r s) at 1. rewrite getlines_app by auto. cbn [app getlines]. destruct s; [contradiction | reflexivity].
  - change (join [sep] (s :: s' :: l)) with (s ++ [sep] ++ join [sep] (s' :: l)). rewrite getlines_app by auto. cbn [app getlines]. rewrite Ascii.eqb_refl, IH. reflexivity.
Qed.
Lemma has_In c s : has c s = true <-> In c s.
Proof. induction s as [|x s IH]; cbn [has In]; [split; [discriminate | contradiction]|]. rewrite orb_true_iff, IH, Ascii.eqb_eq. tauto. Qed.
Lemma cut_at c a b : ~ In c a -> cut c (a ++ c :: b) = (a, b).
Proof. intros N. unfold cut. replace (has c (a ++ c :: b)) with true; [apply split_app; auto|]. symmetry. apply has_In, in_or_app. right; left; auto. Qed.
Lemma cut_none c s : ~ In c s -> cut c s = (s, s).
Proof. intros N. unfold cut. destruct (has c s) eqn:H; [apply has_In in H; contradiction | reflexivity]. Qed.

Lemma lookup_app {A} (m : list (Z * A)) k v j : lookup (m ++ [(k, v)]) j = match lookup m j with Some w => Some w | None => if k =? j then Some v else None end.
Proof. induction m as [|[i w] m IH]; cbn [app lookup]; [reflexivity|]. destruct (i =? j); auto. Qed.
Lemma lookup_insert {A} (m : list (Z * A)) k v j : lookup (insertNew m k v) j = match lookup m j with Some w => Some w | None => if k =? j then Some v else None end.
Proof.
  unfold insertNew. destruct (lookup m k) eqn:E; [|apply lookup_app]. destruct (lookup m j) eqn:F; [auto|]. destruct (Z.eqb_spec k j) as [-> | N]; [congruence | auto].
Qed.
Lemma lookup_inserts {A} (v : A) ids : forall m j, lookup (fold_left (fun m i => insertNew m i v) ids m) j = match lookup m j with Some w => Some w | None => if existsb (fun i => i =? j) ids then Some v else None end.
Proof.
  induction ids as [|i ids IH]; intros m j; cbn [fold_left existsb]; [destruct (lookup m j); auto|]. rewrite IH, lookup_insert. destruct (lookup m j); [auto|]. destruct (i =? j); auto.
Qed.

Lemma dim_chars d c : (forall n, d = Some n -> 0 < n /\ int32 n) -> In c (dimText d) -> isDigit c \/ c = "-"%char.
Proof. intros V H. destruct d as [n|]; cbn [dimText] in H; [destruct (V n eq_refl); apply (json_chars n); [lia | auto] | apply (json_chars (-1)); [lia | auto]]. Qed.
Lemma dims_back ds : (forall d, In (Some d) ds -> 0 < d /\ int32 d) -> parseDims (getlines "x" [] (join (T "x") (map dimText ds))) = Some ds.
Proof.
  intros V. change (T "x") with ["x"%char]. rewrite getlines_join.
  - induction ds as [|d ds IH]; [reflexivity|]. cbn [map parseDims]. rewrite IH by (intros; apply V; right; auto). destruct d as [n|].
    + destruct (V n) as [V1 V2]; [left; auto|]. cbn [dimText]. rewrite stoi_int by (auto; lia). replace ((n =? -1) || (0 <? n)) with true by (symmetry; apply orb_true_iff; right; apply Z.ltb_lt; lia).
      destruct (Z.eqb_spec n (-1)); [lia | reflexivity].
    + reflexivity.
  - rewrite Forall_map, Forall_forall. intros d Hd. assert (V' : forall n, d = Some n -> 0 < n /\ int32 n) by (intros n ->; auto). split.
    + destruct d as [n|]; [cbn [dimText]; destruct (V' n eq_refl); apply json_nonempty; lia | discriminate].
    + intros H. apply dim_chars in H as [H | H]; [|discriminate | auto]. unfold isDigit in H. cbn in H. decompose [or] H; try discriminate; contradiction.
Qed.

Lemma count_none c s : ~ In c s -> count c s = 0%nat.
Proof. unfold count. induction s as [|x s IH]; intros N; cbn [filter]; [reflexivity|]. destruct (Ascii.eqb_spec x c) as [-> | Q]; [exfalso; apply N; left; auto|]. apply IH. intros K; apply N; right; auto. Qed.
Lemma no_minus z : 0 <= z -> ~ In "-"%char (jsonInt z).
Proof. intros H K. apply nonneg_chars in K; auto. unfold isDigit in K. cbn in K. decompose [or] K; try discriminate; contradiction. Qed.
Lemma range_exists a b j : 0 <= a -> existsb (fun i => i =? j) (map (fun k => a + Z.of_nat k) (seq 0 (Z.to_nat (b - a + 1)))) = (a <=? j) && (j <=? b).
Proof.
  intros Ha. apply eq_true_iff_eq. rewrite existsb_exists, andb_true_iff, !Z.leb_le. split.
  - intros (x & Hx & E). apply Z.eqb_eq in E. subst. apply in_map_iff in Hx as (k & <- & Hk). apply in_seq in Hk. lia.
  - intros H. exists j. split; [|apply Z.eqb_refl]. apply in_map_iff. exists (Z.to_nat (j - a)). split; [lia|]. apply in_seq. lia.
Qed.
Lemma ids_back t : validTarget t -> exists ids, parseIDs (targetText t) = Some ids /\ forall j, existsb (fun i => i =? j) ids = names t j.
Proof.
  intros V. unfold parseIDs. destruct t as [i | a b |].
  - destruct V as [V1 V2]. cbn [targetText]. rewrite count_none by (apply no_minus; auto). cbn [Nat.leb negb]. rewrite cut_none by (apply no_minus; auto).
    destruct (jsonInt i) as [|c r] eqn:E; [exfalso; apply (json_nonempty i); [lia | auto]|]. rewrite <- E. rewrite stoi_int by (auto; lia). replace (0 <=? i) with true by (symmetry; apply Z.leb_le; lia).
    eexists. split; [reflexivity|]. intros j. rewrite range_exists by auto. cbn [names]. apply eq_true_iff_eq. rewrite andb_true_iff, !Z.leb_le, Z.eqb_eq. lia.
  - destruct V as (Va & Wa & Vb & Wb). cbn [targetText]. assert (Cn : count "-" (jsonInt a ++ T "-" ++ jsonInt b) = 1%nat).
    { unfold count. rewrite filter_app, app_length. fold (count "-" (jsonInt a)). rewrite count_none by (apply no_minus; auto). cbn [T list_ascii_of_string app filter Ascii.eqb Bool.eqb]. cbn [length]. fold (count "-" (jsonInt b)). rewrite count_none by (apply no_minus; auto). reflexivity. }
    rewrite Cn. cbn [Nat.leb negb]. change (T "-" ++ jsonInt b) with ("-"%char :: jsonInt b). rewrite cut_at by (apply no_minus; auto).
    destruct (jsonInt b) as [|cb rb] eqn:Eb; [exfalso; apply (json_nonempty b); [lia | auto]|]. rewrite <- Eb. destruct (jsonInt a) as [|ca ra] eqn:Ea; [exfalso; apply (json_nonempty a); [lia | auto]|]. rewrite <- Ea.
    rewrite !stoi_int by (auto; lia). replace (0 <=? a) with true by (symmetry; apply Z.leb_le; lia). replace (0 <=? b) with true by (symmetry; apply Z.leb_le; lia).
    eexists. split; [reflexivity|]. intros j. apply range_exists. auto.
  - exists [-1]. split; [reflexivity|]. intros j. cbn [existsb names]. rewrite orb_false_r. apply Z.eqb_sym.
Qed.
Lemma target_chars t c : validTarget t -> In c (targetText t) -> isDigit c \/ c = "-"%char.
Proof.
  intros V H. destruct t as [i | a b |]; cbn [targetText] in H.
  - left. destruct V. apply (nonneg_chars i); auto.
  - destruct V as (Va & _ & Vb & _). apply in_app_or in H as [H | H]; [left; apply (nonneg_chars a); auto|]. apply in_app_or in H as [[H | []] | H]; [right; auto | left; apply (nonneg_chars b); auto].
  - apply (json_chars (-1)); [lia | auto].
Qed.
Lemma join_chars sep l c : In c (join sep l) -> In c sep \/ exists s, In s l /\ In c s.
Proof.
  induction l as [|s l IH]; [contradiction|]. destruct l as [|s' l]; [intros H; right; exists s; split; [left|]; auto|]. change (join sep (s :: s' :: l)) with (s ++ sep ++ join sep (s' :: l)).
  intros H. apply in_app_or in H as [H | H]; [right; exists s; split; [left|]; auto|]. apply in_app_or in H as [H | H]; [left; auto|]. destruct (IH H) as [K | (x & K1 & K2)]; [left; auto | right; exists x; split; [right|]; auto].
Qed.
Lemma setting_chars s c : validSetting s -> In c (settingText s) -> isDigit c \/ In c (T "-:x").
Proof.
  intros [V1 V2] H. unfold settingText in H. apply in_app_or in H as [H | H].
  - apply target_chars in H; auto. destruct H as [H | ->]; [left; auto | right; cbn; auto].
  - apply in_app_or in H as [[<- | []] | H]; [right; cbn; auto|]. apply join_chars in H as [[<- | []] | (x & Hx & H)]; [right; cbn; auto|]. apply in_map_iff in Hx as (d & <- & Hd).
    apply dim_chars in H as [H | ->]; [left; auto | right; cbn; auto | intros n ->; apply V2; auto].
Qed.
Lemma parseAll_back l : Forall validSetting l -> forall m, exists m', parseAll m (map settingText l) = Some m' /\ forall i, lookup m' i = match lookup m i with Some v => Some v | None => firstFor l i end.
Proof.
  induction 1 as [|s l V F IH]; intros m; cbn [map parseAll].
  - exists m. split; [reflexivity|]. intros i. destruct (lookup m i); reflexivity.
  - destruct s as [t ds]. assert (V0 := V). destruct V as [V1 V2]. cbn [fst snd] in *. unfold settingText at 1. cbn [fst snd]. change (T ":" ++ join (T "x") (map dimText ds)) with (":"%char :: join (T "x") (map dimText ds)). rewrite cut_at.
    2: { intros H. apply target_chars in H; auto. destruct H as [H | H]; [unfold isDigit in H; cbn in H; decompose [or] H; try discriminate; contradiction | discriminate]. }
    rewrite dims_back by auto. destruct (ids_back t V1) as (ids & -> & Hi). destruct (IH (fold_left (fun m i => insertNew m i ds) ids m)) as (m' & -> & Hm). exists m'. split; [reflexivity|].
    intros i. rewrite Hm, lookup_inserts, Hi. destruct (lookup m i); [reflexivity|]. unfold firstFor. cbn [find fst]. destruct (names t i); reflexivity.
Qed.
Lemma parse_back l : Forall validSetting l -> exists m, parseShapeInformation (optionText l) = Some m /\ forall i, lookup m i = firstFor l i.
Proof.
  intros F. unfold parseShapeInformation, optionText. change (T ",") with [","%char]. rewrite getlines_join.
  - destruct (parseAll_back l F []) as (m & E & H). exists m. split; [exact E | exact H].
  - rewrite Forall_map. eapply Forall_impl; [|exact F]. intros s V. split.
    + unfold settingText. intros E. apply app_eq_nil in E as [_ E]. discriminate.
    + intros H. apply setting_chars in H as [H | H]; auto; [unfold isDigit in H|]; cbn in H; decompose [or] H; try discriminate; contradiction.
Qed.

Lemma custom_shaped u : forall o, shapedAs (Some u) o (customDims u o).
Proof.
  intros o. revert u. induction o as [|x o IH]; intros u; [split; [destruct u; reflexivity | cbn [length]; lia]|]. destruct u as [|y u]; cbn [customDims].
  - destruct (IH []) as [L H]. split; [cbn [length]; rewrite L; reflexivity|]. intros [|k] Hk; [reflexivity|]. cbn [nth_error length Nat.ltb] in *. rewrite (H k) by lia. reflexivity.
  - destruct (IH u) as [L H]. split; [cbn [length]; rewrite L; reflexivity|]. intros [|k] Hk; [reflexivity|]. cbn [nth_error length] in *. rewrite (H k) by lia. reflexivity.
Qed.
Lemma force_shaped ks : forall shape i, 0 <= i -> length (forceShape i shape ks) = length shape /\
  forall k, (k < length shape)%nat -> (In (-1) ks \/ In (i + Z.of_nat k) ks -> nth_error (forceShape i shape ks) k = Some None) /\
    (~ In (-1) ks /\ ~ In (i + Z.of_nat k) ks -> nth_error (forceShape i shape ks) k = nth_error shape k).
Proof.
  assert (X : forall z, existsb (Z.eqb z) ks = true <-> In z ks).
  { intros z. rewrite existsb_exists. split; [intros (x & H & E); apply Z.eqb_eq in E; subst; auto | intros H; exists z; split; [auto | apply Z.eqb_refl]]. }
  induction shape as [|d r IH]; intros i Hi; cbn [forceShape length]; [split; [reflexivity | lia]|]. destruct (IH (i + 1)) as [L H]; [lia|]. split; [rewrite L; reflexivity|].
  intros [|k] Hk; cbn [nth_error].
  - rewrite Z.add_0_r. destruct (existsb (Z.eqb (-1)) ks || existsb (Z.eqb i) ks) eqn:E.
    + split; [reflexivity|]. intros [N1 N2]. apply orb_true_iff in E as [E | E]; apply X in E; contradiction.
    + split; [|reflexivity]. apply orb_false_iff in E as [E1 E2]. intros [K | K]; apply X in K; congruence.
  - replace (i + Z.of_nat (S k)) with (i + 1 + Z.of_nat k) by lia. apply H. lia.
Qed.
Lemma ints_back ks : (forall k, In k ks -> -1 <= k /\ int32 k) -> parseInts (map jsonInt ks) = Some ks.
Proof. induction ks as [|k ks IH]; intros V; [reflexivity|]. cbn [map parseInts]. destruct (V k) as [V1 V2]; [left; auto|]. rewrite stoi_int, IH by (auto; intros; apply V; right; auto). reflexivity. Qed.
Lemma no_char z c : -1 <= z -> ~ isDigit c -> c <> "-"%char -> ~ In c (jsonInt z).
Proof. intros H N M K. apply json_chars in K as [K | K]; auto. Qed.
Lemma notDigit c : existsb (Ascii.eqb c) (T "0123456789") = false -> ~ isDigit c.
Proof. intros H K. assert (E : existsb (Ascii.eqb c) (T "0123456789") = true) by (apply existsb_exists; exists c; split; [exact K | apply Ascii.eqb_refl]). congruence. Qed.
Lemma parseForced_back l : Forall validForcing l -> forall m, exists m', parseForced m (map forcingText l) = Some m' /\ (l <> [] \/ m <> [] -> m' <> []) /\
  forall i, lookup m' i = match lookup m i with Some v => Some v | None => option_map snd (find (fun f => fst f =? i) l) end.
Proof.
  induction 1 as [|[i ks] l V F IH]; intros m; cbn [map parseForced].
  - exists m. split; [reflexivity|]. split; [tauto|]. intros i. destruct (lookup m i); reflexivity.
  - destruct V as (V1 & V2 & V3 & V4). cbn [fst snd] in *. unfold forcingText at 1. cbn [fst snd]. change (T ":" ++ join (T ",") (map jsonInt ks)) with (":"%char :: join (T ",") (map jsonInt ks)).
    rewrite cut_at by (apply no_char; [lia | apply notDigit; reflexivity | discriminate]). change (T ",") with [","%char]. rewrite getlines_join.
    2: { rewrite Forall_map, Forall_forall. intros k Hk. destruct (V4 k Hk). split; [apply json_nonempty; lia | apply no_char; [lia | apply notDigit; reflexivity | discriminate]]. }
    rewrite ints_back by auto. rewrite stoi_int by auto. replace (match ks with [] => [-1] | _ => ks end) with ks by (destruct ks; [contradiction | reflexivity]).
    destruct (IH (insertNew m i ks)) as (m' & -> & Hn & Hm). exists m'. split; [reflexivity|]. split.
    + intros _. apply Hn. right. unfold insertNew. destruct (lookup m i) eqn:E; [destruct m; [discriminate | discriminate] | destruct m; discriminate].
    + intros j. rewrite Hm, lookup_insert. destruct (lookup m j); [reflexivity|]. cbn [find fst]. destruct (i =? j); reflexivity.
Qed.
Lemma forced_back l : Forall validForcing l -> l <> [] -> exists m, forcedDims (variableText l) = Some m /\ forall i, lookup m i = option_map snd (find (fun f => fst f =? i) l).
Proof.
  intros F N. unfold forcedDims, variableText. change (T "|") with ["|"%char]. rewrite getlines_join.
  - destruct (parseForced_back l F []) as (m & E & Hn & H). rewrite E. exists m. split; [destruct m; [exfalso; apply Hn; auto | reflexivity] | exact H].
  - rewrite Forall_map. eapply Forall_impl; [|exact F]. intros [i ks] (V1 & V2 & V3 & V4). cbn [fst snd] in *. unfold forcingText. cbn [fst snd]. split; [intros E; apply app_eq_nil in E as [_ E]; discriminate|].
    intros H. apply in_app_or in H as [H | H]; [revert H; apply no_char; [lia | apply notDigit; reflexivity | discriminate]|]. apply in_app_or in H as [[H | []] | H]; [discriminate|].
    apply join_chars in H as [[H | []] | (s & Hs & H)]; [discriminate|]. apply in_map_iff in Hs as (k & <- & Hk). destruct (V4 k Hk). revert H. apply no_char; [lia | apply notDigit; reflexivity | discriminate].
Qed.

(** Maps list each key once. *)
Definition functional {A} (m : list (Z * A)) : Prop := forall k v, In (k, v) m -> lookup m k = Some v.
Lemma functional_insert {A} (m : list (Z * A)) k v : functional m -> functional (insertNew m k v).
Proof.
  intros F. unfold insertNew. destruct (lookup m k) eqn:E; [auto|]. intros j w H. rewrite lookup_app. apply in_app_or in H as [H | [H | []]]; [rewrite (F j w H); auto|].
  injection H as -> ->. rewrite E, Z.eqb_refl. reflexivity.
Qed.
Lemma functional_inserts {A} (v : A) ids : forall m, functional m -> functional (fold_left (fun m i => insertNew m i v) ids m).
Proof. induction ids as [|i ids IH]; intros m F; cbn [fold_left]; auto. apply IH, functional_insert, F. Qed.
Lemma functional_all l : forall m m', functional m -> parseAll m l = Some m' -> functional m'.
Proof.
  induction l as [|s l IH]; intros m m' F; cbn [parseAll]; [intros [= <-]; auto|]. destruct (cut ":" s) as [a b]. destruct (parseDims _) as [dims|]; [|discriminate]. destruct (parseIDs a) as [ids|]; [|discriminate].
  apply IH. apply functional_inserts, F.
Qed.
Lemma functional_parse s m : parseShapeInformation s = Some m -> functional m.
Proof. apply functional_all. intros k v []. Qed.
Lemma lookup_In {A} (m : list (Z * A)) k v : lookup m k = Some v -> In (k, v) m.
Proof. induction m as [|[j w] m IH]; cbn [lookup]; [discriminate|]. destruct (Z.eqb_spec j k) as [-> | N]; [intros [= ->]; left; auto | right; auto]. Qed.

Lemma verifyDims_spec l : forall ds, (forall n, In (Some n) l -> 0 <= n) ->
  Nat.eqb (length (map (fun d => match d with Some z => z | None => -1 end) l)) (length ds) && verifyDims (map (fun d => match d with Some z => z | None => -1 end) l) ds = true <->
  Forall2 (fun d z => match d with Some n => z = n | None => 0 <= z end) l ds.
Proof.
  induction l as [|d l IH]; intros [|z ds] V; cbn [map length Nat.eqb verifyDims andb]; [split; auto | split; [discriminate | inversion 1] | split; [discriminate | inversion 1]|].
  specialize (IH ds). rewrite andb_true_iff in IH. rewrite !andb_true_iff. split.
  - intros (L & H1 & H2). constructor; [|apply IH; [intros; apply V; right; auto | auto]]. destruct d as [n|].
    + destruct (Z.eqb_spec n (-1)) as [-> | N]; [specialize (V (-1) (or_introl eq_refl)); lia|]. apply Z.eqb_eq in H1. auto.
    + cbn in H1. apply negb_true_iff, Z.ltb_ge in H1. lia.
  - inversion 1 as [|? ? ? ? H1 H2]; subst. apply IH in H2 as [L H2]; [|intros; apply V; right; auto]. split; [exact L|]. split; [|exact H2]. destruct d as [n|].
    + subst z. destruct (Z.eqb_spec n (-1)) as [-> | N]; [specialize (V (-1) (or_introl eq_refl)); lia|]. apply Z.eqb_refl.
    + cbn. apply negb_true_iff, Z.ltb_ge. lia.
Qed.
Lemma types_same e : mlirTypeToOnnxType e = onnxType e.
Proof. destruct e; reflexivity. Qed.
Definition itemOf (a : argType) (item : elt * list Z) : Prop :=
  exists e l, a = Tensor e (Some l) /\ e <> Str /\ (forall n, In (Some n) l -> 0 <= n) /\ item = (e, map (fun d => match d with Some z => z | None => -1 end) l).
Lemma items_of inputs : Forall checkable inputs -> exists items, jsonItems inputs = Some items /\ Forall2 itemOf inputs items.
Proof.
  induction 1 as [|a inputs C F (items & E & IH)]; [exists []; split; [reflexivity | constructor]|]. cbn [jsonItems]. rewrite E.
  destruct a as [e [l|] | b]; cbn [checkable] in C; [|destruct e; contradiction | contradiction].
  assert (N : e <> Str /\ e <> BF16 /\ forall n, In (Some n) l -> 0 <= n) by (destruct e; try contradiction; split; try discriminate; split; try discriminate; auto). destruct N as (N1 & N2 & N3).
  eexists. split; [destruct e; try reflexivity; contradiction|]. constructor; [|exact IH]. exists e, l. auto.
Qed.
Lemma tensor_spec a item t : itemOf a item -> verifyTensor item t = true <-> hasType a t.
Proof.
  intros (e & l & -> & N & V & ->). unfold verifyTensor. cbn [fst snd hasType]. rewrite <- andb_assoc, andb_true_iff, verifyDims_spec by auto.
  rewrite <- (types_same e). destruct e; try contradiction; rewrite Z.eqb_eq; split; intros [H1 H2]; split; auto.
Qed.
Lemma tensors_spec inputs items : Forall2 itemOf inputs items -> forall ts, (length items =? length ts)%nat && verifyTensors items ts = true <-> Forall2 hasType inputs ts.
Proof.
  induction 1 as [|a item inputs items H F IH]; intros [|t ts]; cbn [length Nat.eqb verifyTensors andb]; [split; auto | split; [discriminate | inversion 1] | split; [discriminate | inversion 1]|].
  specialize (IH ts). rewrite andb_true_iff in IH. rewrite !andb_true_iff, (tensor_spec _ _ t H). split.
  - intros (L & H1 & H2). constructor; tauto.
  - inversion 1; subst. tauto.
Qed.

Definition relOf (upper : bool) : Z -> Z -> Prop := if upper then Z.le else Z.ge.
Lemma checkBounds_spec upper bs : forall ds, checkBounds upper bs ds = true <-> forall k b z, nth_error bs k = Some (Some b) -> nth_error ds k = Some z -> relOf upper z b.
Proof.
  induction bs as [|b bs IH]; intros [|z ds]; cbn [checkBounds]; try (split; [intros _ [|k] ? ?; cbn; discriminate | reflexivity]).
  rewrite andb_true_iff, IH. split.
  - intros [H1 H2] [|k] b' z'; cbn [nth_error]; [|apply H2]. intros [= ->] [= ->]. destruct upper; cbn [relOf]; [apply negb_true_iff, Z.ltb_ge in H1; lia | apply negb_true_iff in H1; rewrite Z.gtb_ltb in H1; apply Z.ltb_ge in H1; lia].
  - intros H. split; [|intros k; apply (H (S k))]. destruct b as [n|]; [|reflexivity]. specialize (H 0%nat n z eq_refl eq_refl). destruct upper; cbn [relOf] in H; apply negb_true_iff; [|rewrite Z.gtb_ltb]; apply Z.ltb_ge; lia.
Qed.
Lemma firstFor_In l i given : firstFor l i = Some given -> exists t, In (t, given) l /\ names t i = true.
Proof. unfold firstFor. destruct (find (fun s => names (fst s) i) l) as [[t g]|] eqn:E; [|discriminate]. intros [= ->]. apply find_some in E as [E1 E2]. exists t. auto. Qed.
Lemma names_range t i : validTarget t -> names t i = true -> 0 <= i \/ i = -1 /\ t = AllInputs.
Proof. destruct t; cbn [validTarget names]; intros V H; [apply Z.eqb_eq in H; lia | apply andb_true_iff in H as [H _]; apply Z.leb_le in H; lia | apply Z.eqb_eq in H; auto]. Qed.
Lemma entries_hold upper l m ts : Forall validSetting l -> functional m -> (forall i, lookup m i = firstFor l i) ->
  (forEntries m (length ts) (boundHolds upper ts) = true <-> bounded (relOf upper) l ts).
Proof.
  intros V F Hm. unfold forEntries. rewrite forallb_forall. split.
  - intros H i t given k b z Hi Hf Hb Hz. destruct Hf as [Hf | Hf].
    + rewrite <- Hm in Hf. apply lookup_In, H in Hf. cbn [fst snd] in Hf. unfold inputIDs in Hf. destruct (Z.eqb_spec (Z.of_nat i) (-1)); [lia|]. cbn [forallb] in Hf. rewrite andb_true_r in Hf. unfold boundHolds in Hf. rewrite Nat2Z.id, Hi in Hf.
      rewrite checkBounds_spec in Hf. apply (Hf k); auto.
    + rewrite <- Hm in Hf. apply lookup_In, H in Hf. cbn [fst snd] in Hf. unfold inputIDs in Hf. rewrite Z.eqb_refl in Hf. rewrite forallb_forall in Hf. specialize (Hf (Z.of_nat i)). unfold boundHolds in Hf. rewrite Nat2Z.id, Hi in Hf.
      rewrite checkBounds_spec in Hf. apply (Hf (in_map _ _ _ (proj2 (in_seq _ _ _) (conj (Nat.le_0_l i) (proj1 (nth_error_Some ts i) ltac:(congruence))))) k); auto.
  - intros B [k given] Hk. cbn [fst snd]. apply F in Hk. rewrite Hm in Hk. rewrite forallb_forall. intros i Hi. unfold boundHolds. destruct (nth_error ts (Z.to_nat i)) as [t|] eqn:E; [|reflexivity]. apply checkBounds_spec. intros j b z Hb Hz.
    destruct (firstFor_In _ _ _ Hk) as (tg & In1 & Nm). rewrite Forall_forall in V. destruct (V _ In1) as [Vt _]. cbn [fst] in Vt. unfold inputIDs in Hi. destruct (Z.eqb_spec k (-1)) as [-> | N].
    + apply (B (Z.to_nat i) t given j b z E); auto.
    + destruct Hi as [<- | []]. destruct (names_range tg k Vt Nm) as [P | [P _]]; [|contradiction]. apply (B (Z.to_nat k) t given j b z E); auto. left. rewrite Z2Nat.id by auto. exact Hk.
Qed.
Lemma entries_compile inputs items l m : Forall2 itemOf inputs items -> Forall validSetting l -> fitsInputs inputs l -> functional m -> (forall i, lookup m i = firstFor l i) ->
  forEntries m (length items) (boundCompiles items) = true.
Proof.
  intros It V Fi F Hm. unfold forEntries. rewrite forallb_forall. intros [k given] Hk. cbn [fst snd]. apply F in Hk. rewrite Hm in Hk. apply firstFor_In in Hk as (t & In1 & Nm). destruct (Fi t given In1) as [F1 F2]. rewrite Forall_forall in V. destruct (V _ In1) as [Vt _]. cbn [fst] in Vt.
  assert (Len : length inputs = length items) by (clear - It; induction It; cbn [length]; auto).
  assert (G : forall i, (i < length items)%nat -> names t (Z.of_nat i) = true \/ t = AllInputs -> boundCompiles items given (Z.of_nat i) = true).
  { intros i Hi Hn. unfold boundCompiles. rewrite Nat2Z.id. destruct (nth_error items i) as [item|] eqn:E; [|apply nth_error_None in E; lia].
    assert (X : exists a, nth_error inputs i = Some a /\ itemOf a item).
    { clear - It E. revert i E. induction It as [|x y xs ys H It IH]; intros [|i] E; cbn [nth_error] in *; try discriminate; [injection E as <-; exists x; auto | apply IH, E]. }
    destruct X as (a & Ea & (e & d & -> & _ & _ & ->)). cbn [snd]. rewrite map_length. apply Nat.leb_le. apply (F2 i e d); auto. }
  rewrite forallb_forall. intros i Hi. unfold inputIDs in Hi. destruct (Z.eqb_spec k (-1)) as [-> | N].
  - apply in_map_iff in Hi as (j & <- & Hj). apply in_seq in Hj. apply G; [lia|]. destruct (names_range t _ Vt Nm) as [P | [_ P]]; [lia | auto].
  - destruct Hi as [<- | []]. destruct (names_range t k Vt Nm) as [P | [P _]]; [|contradiction]. specialize (F1 k Nm P). rewrite <- (Z2Nat.id k) by auto. apply G; [lia | left; rewrite Z2Nat.id by auto; auto].
Qed.
