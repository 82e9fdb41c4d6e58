(** Lemmas for the signatures of entry points. *)
From Coq Require Import ZArith Ascii String DecimalString Decimal Bool Lia List.
From Verif Require Import SignatureSpec SignatureModel.
Import ListNotations.
Open Scope Z_scope.

Lemma eqb_a x y : Ascii.eqb x y = true <-> x = y.
Proof. apply Ascii.eqb_eq. Qed.
Lemma prefixb_spec : forall w s, prefixb w s = true -> exists q, s = w ++ q.
Proof. induction w as [|a w IH]; intros s H; [exists s; auto|]. destruct s as [|b s]; [discriminate|]. cbn in H. apply andb_prop in H as [E H]. apply eqb_a in E as ->. destruct (IH s H) as [q ->]. exists q. auto. Qed.
Lemma prefixb_app : forall w q, prefixb w (w ++ q) = true.
Proof. induction w as [|a w IH]; intros q; [auto|]. cbn. rewrite Ascii.eqb_refl. apply IH. Qed.
Lemma prefixb_cut : forall w a c t, ~ In c w -> prefixb w (a ++ c :: t) = prefixb w a.
Proof.
  induction w as [|x w IH]; intros a c t H; [auto|]. destruct a as [|y a]; cbn.
  - destruct (Ascii.eqb_spec x c); [subst; exfalso; apply H; left; auto | reflexivity].
  - rewrite IH; [auto|]. intros K. apply H. right; auto.
Qed.

(** Replacing, in one pass: [b] between spaces gets quotes, the second space is looked at again. *)
Fixpoint rp (b : text) (skip : nat) (s : text) : text :=
  match s with
  | [] => []
  | c :: s' =>
      match skip with
      | S k => rp b k s'
      | O => if prefixb (word b) s then [" "%char; quote] ++ b ++ [quote] ++ rp b (length b) s' else c :: rp b 0 s'
      end
  end.
Lemma rp_skip : forall b k s, rp b k s = rp b 0 (skipn k s).
Proof. induction k as [|k IH]; intros s; [reflexivity|]. destruct s; [reflexivity|]. cbn. apply IH. Qed.
Lemma replaceAll_rp b : b <> [] -> forall n s, (length s < n)%nat -> replaceAll n (word b) (word ([quote] ++ b ++ [quote])) s = Some (rp b 0 s).
Proof.
  intros NE. assert (1 <= length b)%nat by (destruct b; [congruence | cbn; lia]). induction n as [|n IH]; intros s L; [lia|]. destruct s as [|c s]; [reflexivity|]. cbn [replaceAll rp]. destruct (prefixb (word b) (c :: s)) eqn:P.
  - apply prefixb_spec in P as [q E]. assert (Lw : length (word b) = S (S (length b))) by (unfold word; rewrite !app_length; cbn; lia).
    assert (F : firstn (S (S (length b))) (word ([quote] ++ b ++ [quote])) = " "%char :: quote :: b). { unfold word. cbn [T list_ascii_of_string app firstn]. rewrite <- app_assoc, firstn_app, Nat.sub_diag, firstn_all. cbn. now rewrite app_nil_r. }
    assert (K : skipn (S (S (length b))) (word ([quote] ++ b ++ [quote])) = [quote; " "%char]). { unfold word. cbn [T list_ascii_of_string app skipn]. rewrite <- app_assoc, skipn_app, Nat.sub_diag, skipn_all. reflexivity. }
    rewrite Lw.
    rewrite F, K.
    assert (E' : c = " "%char /\ s = b ++ " "%char :: q). { unfold word in E. cbn in E. injection E as -> ->. rewrite <- app_assoc. auto. } destruct E' as [-> ->].
    assert (Q : skipn (S (S (length b))) (" "%char :: b ++ " "%char :: q) = q) by (change (skipn (S (length b)) (b ++ " "%char :: q) = q); rewrite skipn_app, skipn_all2 by lia; replace (S (length b) - length b)%nat with 1%nat by lia; reflexivity). rewrite Q. cbn [app].
    cbn [length] in L. rewrite app_length in L. cbn [length] in L. destruct n as [|n]; [lia|].
    rewrite IH by (cbn; lia). cbn [option_map]. f_equal. cbn [app]. f_equal. f_equal. f_equal.
    rewrite (rp_skip b (length b)). rewrite skipn_app, skipn_all, Nat.sub_diag. cbn [skipn app]. cbn [rp]. replace (prefixb (word b) (quote :: " "%char :: q)) with false by reflexivity. reflexivity.
  - rewrite IH by (cbn in L; lia). reflexivity.
Qed.

(** A character that the word does not have separates. *)
Lemma rp_cut b c t : ~ In c (word b) -> forall a k, (k <= length a)%nat -> rp b k (a ++ c :: t) = rp b k a ++ c :: rp b 0 t.
Proof.
  intros H. induction a as [|x a IH]; intros k L.
  - cbn in L. assert (k = 0%nat) as -> by lia. cbn [app rp]. change (c :: t) with ([] ++ c :: t). rewrite prefixb_cut by auto. reflexivity.
  - destruct k as [|k]; cbn [app rp]; [|apply IH; cbn in L; lia]. change (x :: a ++ c :: t) with ((x :: a) ++ c :: t). rewrite prefixb_cut by auto. destruct (prefixb (word b) (x :: a)) eqn:P.
    + apply prefixb_spec in P as [q E]. assert (length b <= length a)%nat by (apply (f_equal (@length ascii)) in E; unfold word in E; rewrite !app_length in E; cbn in E; lia).
      rewrite IH by auto. cbn [app]. do 2 f_equal. rewrite <- app_assoc. reflexivity.
    + rewrite IH by lia. reflexivity.
Qed.
Lemma rp_none b : forall s, (forall p q, s <> p ++ word b ++ q) -> rp b 0 s = s.
Proof.
  induction s as [|c s IH]; intros H; [reflexivity|]. cbn [rp]. destruct (prefixb (word b) (c :: s)) eqn:P.
  - apply prefixb_spec in P as [q E]. exfalso. apply (H [] q). auto.
  - f_equal. apply IH. intros p q E. apply (H (c :: p) q). now rewrite E.
Qed.

(** All the passes. *)
Definition R (s : text) : text := fold_left (fun s b => rp b 0 s) listedTypes s.
Lemma typeMap_listed : typeMap = map (fun b => (word b, word ([quote] ++ b ++ [quote]))) listedTypes.
Proof. reflexivity. Qed.
Lemma replaceTypes_R s : replaceTypes typeMap s = Some (R s).
Proof.
  rewrite typeMap_listed. unfold R. assert (NE : Forall (fun b => b <> []) listedTypes) by (repeat constructor; discriminate). revert NE. generalize listedTypes as l. intros l NE. revert s. induction NE as [|b l Hb F IH]; intros s; [reflexivity|]. cbn [map replaceTypes fold_left]. rewrite replaceAll_rp by (auto; lia). apply IH.
Qed.
Definition sep (c : ascii) : Prop := forall b, In b listedTypes -> ~ In c (word b).
Lemma R_cut c a t : sep c -> R (a ++ c :: t) = R a ++ c :: R t.
Proof.
  unfold R, sep. generalize listedTypes as l. intros l. revert a t. induction l as [|b l IH]; intros a t H; [reflexivity|]. cbn [fold_left]. rewrite rp_cut; [|apply H; left; auto | lia]. apply IH. intros b' Hb. apply H. right; auto.
Qed.
Lemma R_none s : (forall b p q, In b listedTypes -> s <> p ++ word b ++ q) -> R s = s.
Proof.
  unfold R. generalize listedTypes as l. intros l. induction l as [|b l IH]; intros H; [reflexivity|]. cbn [fold_left]. rewrite rp_none; [|intros p q; apply H; left; auto]. apply IH. intros b' p q Hb. apply H. right; auto.
Qed.
(** Texts without the letters of the type names. *)
Definition noLetter (s : text) : Prop := ~ In "f"%char s /\ ~ In "i"%char s.
Lemma word_letter b : In b listedTypes -> In "f"%char (word b) \/ In "i"%char (word b).
Proof. intros H. cbn in H. decompose [or] H; subst; try contradiction; cbn; tauto. Qed.
Lemma R_noLetter s : noLetter s -> R s = s.
Proof. intros [H1 H2]. apply R_none. intros b p q Hb E. destruct (word_letter b Hb) as [K | K]; [apply H1 | apply H2]; rewrite E, !in_app_iff; auto. Qed.
Lemma sep_check c : forallb (fun b => negb (existsb (Ascii.eqb c) (word b))) listedTypes = true -> sep c.
Proof.
  intros H b Hb K. rewrite forallb_forall in H. specialize (H b Hb). apply negb_true_iff in H. assert (Q : existsb (Ascii.eqb c) (word b) = true) by (apply existsb_exists; exists c; split; auto; apply Ascii.eqb_refl). congruence.
Qed.

(** Decimal digits. *)
Lemma digits u : forall c, In c (list_ascii_of_string (NilEmpty.string_of_uint u)) -> In c (T "0123456789").
Proof. induction u; intros c H; cbn in H; [contradiction|..]; destruct H as [<- | H]; auto; cbn; tauto. Qed.
Lemma jsonInt_chars z : forall c, In c (jsonInt z) -> In c (T "-0123456789").
Proof.
  intros c H. unfold jsonInt, T in H. assert (Z0 : forall u c, In c (list_ascii_of_string (NilZero.string_of_uint u)) -> In c (T "0123456789")).
  { intros u c' K. unfold NilZero.string_of_uint in K. destruct u; try (apply (digits _ _ K)). cbn in *. tauto. }
  destruct (Z.to_int z) as [u|u]; cbn in H; [right; apply (Z0 u c H)|]. destruct H as [<- | H]; [left; auto | right; apply (Z0 u c H)].
Qed.
Lemma jsonInt_noLetter z : noLetter (jsonInt z).
Proof. split; intros H; apply jsonInt_chars in H; cbn in H; decompose [or] H; try discriminate; contradiction. Qed.
Lemma noLetter_app a b : noLetter a -> noLetter b -> noLetter (a ++ b).
Proof. intros [A1 A2] [B1 B2]. split; rewrite in_app_iff; tauto. Qed.
Lemma printDims_join l : forall comma, printDims comma l = match l with [] => [] | _ => comma ++ join (T " , ") (map (fun o => jsonInt (match o with Some z => z | None => -1 end)) l) end.
Proof.
  induction l as [|d l IH]; intros comma; [reflexivity|]. cbn [printDims]. rewrite IH. destruct l as [|e l]; cbn [map join]; [now rewrite app_nil_r|]. reflexivity.
Qed.
Lemma join_noLetter l : Forall noLetter l -> noLetter (join (T " , ") l).
Proof.
  induction 1 as [|x l H F IH]; [split; intros []|]. destruct l as [|y l]; [exact H|]. cbn [join]. repeat apply noLetter_app; auto. split; cbn; intros K; decompose [or] K; try discriminate; contradiction.
Qed.
Lemma jsonDims_noLetter d : noLetter (jsonDims d).
Proof. apply join_noLetter. destruct d as [l|]; [|constructor]. induction l; constructor; auto using jsonInt_noLetter. Qed.

(** Strings. *)
Lemma cstring_app s t : ~ In nul s -> cstring (s ++ nul :: t) = Chars s.
Proof. induction s as [|c s IH]; intros H; [reflexivity|]. cbn [app cstring]. destruct (Ascii.eqb_spec c nul); [subst; exfalso; apply H; left; auto|]. rewrite IH; [reflexivity|]. intros K; apply H; right; auto. Qed.
Lemma cstring_none s : ~ In nul s -> cstring s = Unterminated.
Proof. induction s as [|c s IH]; intros H; [reflexivity|]. cbn [cstring]. destruct (Ascii.eqb_spec c nul); [subst; exfalso; apply H; left; auto|]. rewrite IH; [reflexivity|]. intros K; apply H; right; auto. Qed.
Lemma split_app c a t : ~ In c a -> split c (a ++ c :: t) = (a, t).
Proof. induction a as [|x a IH]; intros H; cbn [app split]; [now rewrite Ascii.eqb_refl|]. destruct (Ascii.eqb_spec x c); [subst; exfalso; apply H; left; auto|]. rewrite IH; [reflexivity|]. intros K; apply H; right; auto. Qed.
Lemma strncmp_name : forall a b, ~ In nul a -> ~ In nul b -> strncmpEq a (b ++ [nul]) (length (b ++ [nul])) = true <-> a = b.
Proof.
  induction a as [|x a IH]; intros [|y b] Ha Hb; cbn [app length strncmpEq].
  - split; auto.
  - destruct (Ascii.eqb_spec y nul); [subst; exfalso; apply Hb; left; auto|]. split; discriminate.
  - destruct (Ascii.eqb_spec x nul); [subst; exfalso; apply Ha; left; auto|]. cbn. split; discriminate.
  - destruct (Ascii.eqb_spec x y) as [->|N]; cbn [andb]; [|split; [discriminate | congruence]]. destruct (Ascii.eqb_spec y nul); [subst; exfalso; apply Ha; left; auto|]. cbn [orb].
    rewrite IH; [|intros K; apply Ha; right; auto | intros K; apply Hb; right; auto]. split; [intros ->; auto | congruence].
Qed.
Lemma strncmp_prefix : forall a b, ~ In nul a -> ~ In nul b -> strncmpEq a b (length a) = true <-> exists q, b = a ++ q.
Proof.
  induction a as [|x a IH]; intros b Ha Hb; cbn [length strncmpEq]; [split; [intros _; exists b; auto | auto]|]. destruct b as [|y b].
  - destruct (Ascii.eqb_spec x nul); [subst; exfalso; apply Ha; left; auto|]. split; [discriminate | intros [q E]; discriminate].
  - destruct (Ascii.eqb_spec x y) as [->|N]; cbn [andb]; [|split; [discriminate | intros [q E]; cbn in E; congruence]]. destruct (Ascii.eqb_spec y nul); [subst; exfalso; apply Ha; left; auto|]. cbn [orb].
    rewrite IH; [|intros K; apply Ha; right; auto | intros K; apply Hb; right; auto]. split; intros [q E]; exists q; cbn in *; congruence.
Qed.

(** A text up to a separator. *)
Lemma R_step c a t : sep c -> noLetter a -> R (a ++ c :: t) = a ++ c :: R t.
Proof. intros S N. rewrite R_cut, R_noLetter; auto. Qed.
Lemma R_lit c a t : sep c -> R a = a -> R (a ++ c :: t) = a ++ c :: R t.
Proof. intros S N. rewrite R_cut, N; auto. Qed.
Lemma plain_json s : plainName s -> jsonString s = quote :: s ++ [quote].
Proof.
  intros (Q & B & _). unfold jsonString. f_equal. f_equal. induction s as [|c s IH]; [reflexivity|]. cbn [flat_map].
  destruct (Ascii.eqb_spec c quote); [subst; exfalso; apply Q; left; auto|]. destruct (Ascii.eqb_spec c backslash); [subst; exfalso; apply B; left; auto|].
  cbn. f_equal. apply IH; intros K; [apply Q | apply B]; right; auto.
Qed.
Ltac isSep := apply sep_check; vm_compute; reflexivity.
Ltac lit := vm_compute; reflexivity.
Lemma R_elt e t : e <> BF16 -> R (T " " ++ printElt e ++ T " " ++ ","%char :: t) = T " " ++ jsonString (typeName e) ++ T " " ++ ","%char :: R t.
Proof.
  intros N. replace (T " " ++ printElt e ++ T " " ++ ","%char :: t) with ((T " " ++ printElt e ++ T " ") ++ ","%char :: t) by (rewrite <- !app_assoc; reflexivity). rewrite R_cut by isSep.
  replace (T " " ++ jsonString (typeName e) ++ T " " ++ ","%char :: R t) with ((T " " ++ jsonString (typeName e) ++ T " ") ++ ","%char :: R t) by (rewrite <- !app_assoc; reflexivity).
  f_equal. destruct e; try congruence; lit.
Qed.
Lemma R_name s t : plainName s -> R (s ++ quote :: t) = s ++ quote :: R t.
Proof. intros (_ & _ & _ & H). apply R_lit; [isSep|]. apply R_none. exact H. Qed.
(** The texts, cut at separators. *)
Ltac flat := cbn [T list_ascii_of_string app]; repeat (progress (rewrite <- ?app_assoc; cbn [app])).
Lemma tensor_text e d name t : concatTypeString (Tensor e d) name ++ t =
  T "   " ++ "{"%char :: T " " ++ quote :: T "type" ++ quote :: T " " ++ ":"%char :: T " " ++ printElt e ++ T " " ++ ","%char :: T " " ++ quote :: T "dims" ++ quote :: T " : " ++ "["%char ::
  jsonDims d ++ "]"%char :: T " , " ++ quote :: T "name" ++ quote :: T " : " ++ quote :: name ++ quote :: T " }" ++ nl :: t.
Proof.
  assert (D : match d with Some l => printDims [] l | None => [] end = jsonDims d) by (destruct d as [l|]; [rewrite printDims_join; destruct l; reflexivity | reflexivity]). rewrite <- D.
  cbn [concatTypeString]. flat. reflexivity.
Qed.
Lemma tensor_json e d name t : plainName name -> jsonArg (Tensor e d) name ++ t =
  T "   " ++ "{"%char :: T " " ++ quote :: T "type" ++ quote :: T " " ++ ":"%char :: T " " ++ jsonString (typeName e) ++ T " " ++ ","%char :: T " " ++ quote :: T "dims" ++ quote :: T " : " ++ "["%char ::
  jsonDims d ++ "]"%char :: T " , " ++ quote :: T "name" ++ quote :: T " : " ++ quote :: name ++ quote :: T " }" ++ nl :: t.
Proof.
  intros P. cbn [jsonArg]. rewrite (plain_json name P). flat. reflexivity.
Qed.
Lemma seq_text a name t : concatTypeString (Seq a) name ++ t = T "   " ++ "{"%char :: [] ++ quote :: T "seq" ++ quote :: T " " ++ ":"%char :: T " " ++ concatTypeString a name ++ T " }" ++ nl :: t.
Proof. cbn [concatTypeString]. flat. reflexivity. Qed.
Lemma seq_json a name t : jsonArg (Seq a) name ++ t = T "   " ++ "{"%char :: [] ++ quote :: T "seq" ++ quote :: T " " ++ ":"%char :: T " " ++ jsonArg a name ++ T " }" ++ nl :: t.
Proof. cbn [jsonArg]. flat. reflexivity. Qed.
Ltac noLet := split; cbn; intros K; decompose [or] K; try discriminate; try contradiction.
(** An argument, after spaces. *)
Lemma R_arg a name : plainName name -> hasBF16 a = false -> forall pre t, noLetter pre -> R (pre ++ concatTypeString a name ++ t) = pre ++ jsonArg a name ++ R t.
Proof.
  intros P. induction a as [e d|a IH]; intros B pre t N.
  - assert (NE : e <> BF16) by (intros ->; discriminate B). rewrite tensor_text, tensor_json by auto. rewrite !(app_assoc pre).
    rewrite R_step; [|isSep | apply noLetter_app; auto; noLet]. do 2 f_equal.
    rewrite R_lit by first [isSep | lit]. do 2 f_equal. rewrite R_lit by first [isSep | lit]. do 2 f_equal. rewrite R_lit by first [isSep | lit]. do 2 f_equal.
    rewrite R_elt by auto. do 4 f_equal. 
    rewrite R_lit by first [isSep | lit]. do 2 f_equal. rewrite R_lit by first [isSep | lit]. do 2 f_equal. rewrite R_lit by first [isSep | lit]. do 2 f_equal.
    rewrite R_step by first [isSep | apply jsonDims_noLetter]. do 2 f_equal.
    rewrite R_lit by first [isSep | lit]. do 2 f_equal. rewrite R_lit by first [isSep | lit]. do 2 f_equal. rewrite R_lit by first [isSep | lit]. do 2 f_equal.
    rewrite R_name by auto. do 2 f_equal; rewrite R_lit by first [isSep | lit]; reflexivity.
  - rewrite seq_text, seq_json. rewrite !(app_assoc pre). rewrite R_step; [|isSep | apply noLetter_app; auto; noLet]. do 2 f_equal.
    rewrite R_lit by first [isSep | lit]. do 2 f_equal. rewrite R_lit by first [isSep | lit]. do 2 f_equal. rewrite R_lit by first [isSep | lit]. do 2 f_equal.
    rewrite IH; [|exact B | noLet]. do 2 f_equal; rewrite R_lit by first [isSep | lit]; reflexivity.
Qed.
(** The arguments of an entry point, and what follows them. *)
Definition plainArgs (l : list (argType * text)) : Prop := Forall (fun p => plainName (snd p) /\ hasBF16 (fst p) = false) l.
Lemma R_args l : plainArgs l -> forall comma t, noLetter comma -> R (comma ++ match l with [] => t | _ => concatArgs [] l ++ t end) =
  match l with [] => R (comma ++ t) | _ => comma ++ join (T " , ") (map (fun p => jsonArg (fst p) (snd p)) l) ++ R t end.
Proof.
  induction 1 as [|[a name] l [P B] F IH]; intros comma t N; [reflexivity|]. cbn [fst snd] in *. cbn [concatArgs map join fst snd app].
  rewrite <- app_assoc. rewrite R_arg by auto. destruct l as [|[a' name'] l]; [reflexivity|]. cbn [map]. rewrite <- !app_assoc. do 2 f_equal.
  specialize (IH (T " , ") t ltac:(noLet)). cbn [concatArgs app map] in *. rewrite <- !app_assoc in IH. rewrite <- !app_assoc. exact IH.
Qed.
Lemma args_end pre l t : noLetter pre -> plainArgs l -> R (pre ++ concatArgs [] l ++ [nl] ++ T "]" ++ [nul] ++ t) = pre ++ jsonArgs l ++ nul :: R t.
Proof.
  intros N P. assert (E : forall p, noLetter p -> R (p ++ [nl] ++ T "]" ++ [nul] ++ t) = p ++ [nl] ++ T "]" ++ nul :: R t).
  { intros p Np. replace (p ++ [nl] ++ T "]" ++ [nul] ++ t) with ((p ++ nl :: T "]") ++ nul :: t) by (flat; reflexivity). rewrite R_step; [flat; reflexivity | isSep | apply noLetter_app; auto; noLet]. }
  pose proof (R_args l P pre ([nl] ++ T "]" ++ [nul] ++ t) N) as H. unfold jsonArgs. destruct l as [|p l]; [exact (E pre N)|].
  rewrite H. pose proof (E [] ltac:(noLet)) as E0. cbn [app] in E0 |- *. rewrite E0. rewrite <- !app_assoc. reflexivity.
Qed.
Lemma signature_text e : plainArgs (epInputs e) -> plainArgs (epOutputs e) -> getSignature e = Some ((inputSignature e ++ [nul]) ++ "@"%char :: outputSignature e ++ nul :: []).
Proof.
  intros Pi Po. unfold getSignature. rewrite replaceTypes_R. f_equal. rewrite args_end; [|noLet | auto].
  assert (E : R (T "@[" ++ concatArgs [] (epOutputs e) ++ [nl] ++ T "]" ++ [nul]) = T "@[" ++ jsonArgs (epOutputs e) ++ [nul]) by (pose proof (args_end (T "@[") (epOutputs e) [] ltac:(noLet) Po) as H; rewrite app_nil_r in H; exact H).
  rewrite E. unfold inputSignature, outputSignature. flat. reflexivity.
Qed.
(** The characters of a signature. *)
Lemma in_join c sep0 l : In c (join sep0 l) -> In c sep0 \/ exists x, In x l /\ In c x.
Proof.
  induction l as [|x l IH]; [intros []|]. destruct l as [|y l]; cbn [join]; intros H; [right; exists x; split; [left|]; auto|]. apply in_app_or in H as [H | H]; [right; exists x; split; [left|]; auto|].
  apply in_app_or in H as [H | H]; [left; auto|]. destruct (IH H) as [K | (z & Hz & K)]; [auto | right; exists z; split; [right|]; auto].
Qed.
Lemma jsonDims_chars d c : In c (jsonDims d) -> In c (T " ,-0123456789").
Proof.
  intros H. apply in_join in H as [H | (x & Hx & H)]; [cbn in *; tauto|]. apply in_map_iff in Hx as (o & <- & _). apply jsonInt_chars in H. cbn in *. tauto.
Qed.
Lemma jsonArg_chars c a name : plainName name -> c = nul \/ c = "@"%char -> In c (jsonArg a name) -> In c name.
Proof.
  intros P Hc. induction a as [e d|a IH]; intros H.
  - cbn [jsonArg] in H. rewrite (plain_json name P) in H. repeat (apply in_app_or in H as [H | H]); try (exfalso; clear - Hc H; cbn in H; decompose [or] H; destruct Hc; subst; try discriminate; contradiction).
    + exfalso. clear - Hc H. destruct e; cbn in H; decompose [or] H; destruct Hc; subst; try discriminate; contradiction.
    + exfalso. apply jsonDims_chars in H. clear - Hc H. cbn in H. decompose [or] H; destruct Hc; subst; try discriminate; contradiction.
    + destruct H as [H | H]; [exfalso; destruct Hc; subst; discriminate|]. apply in_app_or in H as [H | H]; auto. exfalso. destruct H as [H | []]. destruct Hc; subst; discriminate.
  - cbn [jsonArg] in H. repeat (apply in_app_or in H as [H | H]); try (exfalso; clear - Hc H; cbn in H; decompose [or] H; destruct Hc; subst; try discriminate; contradiction). auto.
Qed.
Lemma jsonArgs_chars c l : plainArgs l -> c = nul \/ c = "@"%char -> In c (jsonArgs l) -> exists a name, In (a, name) l /\ In c name.
Proof.
  intros P Hc H. unfold jsonArgs in H. apply in_app_or in H as [H | H]; [|exfalso; cbn in H; decompose [or] H; destruct Hc; subst; try discriminate; contradiction].
  apply in_join in H as [H | (x & Hx & H)]; [exfalso; cbn in H; decompose [or] H; destruct Hc; subst; try discriminate; contradiction|].
  apply in_map_iff in Hx as ([a name] & <- & Hp). unfold plainArgs in P. rewrite Forall_forall in P. destruct (P _ Hp) as [Pn _]. exists a, name. split; auto. eapply jsonArg_chars; eauto.
Qed.
