(** C87: a compiled model reports the signatures of its entry points. C88: equality of strings. *)
From Coq Require Import ZArith Ascii String Bool Lia List.
From Verif Require Import SignatureSpec SignatureModel SignatureProofs.
Import ListNotations.
Open Scope Z_scope.

(** Entry points whose signatures are reported: names without zero; arguments with plain names, no
    bfloat16, and no @ in the name of an input. *)
Definition reportable (e : entryPoint) : Prop :=
  ~ In nul (epName e) /\ Forall (fun p => plainName (snd p) /\ hasBF16 (fst p) = false) (epInputs e) /\
  Forall (fun p => plainName (snd p) /\ hasBF16 (fst p) = false) (epOutputs e) /\ forall a name, In (a, name) (epInputs e) -> ~ In "@"%char name.

Lemma record_reportable e : reportable e -> recordEntryPoint e = Some {| gName := epName e ++ [nul]; gIn := inputSignature e ++ [nul]; gOut := outputSignature e ++ [nul] |}.
Proof.
  intros (Hn & Pi & Po & At). unfold recordEntryPoint. rewrite signature_text by auto. rewrite split_app; [reflexivity|]. intros H. apply in_app_or in H as [H | [H | []]]; [|discriminate].
  unfold inputSignature in H. apply in_app_or in H as [H | H]; [cbn in H; decompose [or] H; try discriminate; contradiction|]. apply jsonArgs_chars in H as (a & name & Hp & H); auto. apply (At a name); auto.
Qed.
Lemma noNul l pre : ~ In nul pre -> Forall (fun p => plainName (snd p) /\ hasBF16 (fst p) = false) l -> ~ In nul (pre ++ jsonArgs l).
Proof.
  intros N P H. apply in_app_or in H as [H | H]; [auto|]. apply jsonArgs_chars in H as (a & name & Hp & H); auto. rewrite Forall_forall in P. destruct (P _ Hp) as [(_ & _ & K & _) _]. auto.
Qed.

(** Asking by name gives the signature of the first entry point of that name, or a null pointer. *)
Theorem C87_signature eps : Forall reportable eps -> exists gs, recordAll eps = Some gs /\
  (forall pre e post, eps = pre ++ e :: post -> (forall e', In e' pre -> epName e' <> epName e) ->
     signatureFunction true gs (epName e) = Chars (inputSignature e) /\ signatureFunction false gs (epName e) = Chars (outputSignature e)) /\
  (forall name isInput, ~ In nul name -> (forall e, In e eps -> epName e <> name) -> signatureFunction isInput gs name = NullPtr).
Proof.
  induction 1 as [|x eps Rx F IH].
  - exists []. split; [reflexivity|]. split; [intros [|e0 pre0] e post E; discriminate | reflexivity].
  - destruct IH as (gs & E & H1 & H2). cbn [recordAll]. rewrite (record_reportable x Rx), E. eexists. split; [reflexivity|]. destruct Rx as (Nx & Pi & Po & At). rewrite Forall_forall in F. split.
    + intros [|y pre] e post Eq Hd; cbn [app] in Eq; injection Eq as -> Ee.
      * cbn [signatureFunction gName gIn gOut]. rewrite (proj2 (strncmp_name (epName e) (epName e) Nx Nx) eq_refl). split; apply cstring_app; apply noNul; auto; cbn; intros K; decompose [or] K; try discriminate; contradiction.
      * assert (Ne : ~ In nul (epName e)) by (apply (F e); rewrite Ee; apply in_or_app; right; left; auto). cbn [signatureFunction gName gIn gOut].
        destruct (strncmpEq (epName e) (epName y ++ [nul]) (length (epName y ++ [nul]))) eqn:Q; [apply strncmp_name in Q; auto; exfalso; apply (Hd y); [left; auto | auto]|].
        apply (H1 pre e post Ee). intros e' He. apply Hd. right; auto.
    + intros name isInput Nn Hd. cbn [signatureFunction gName gIn gOut]. destruct (strncmpEq name (epName x ++ [nul]) (length (epName x ++ [nul]))) eqn:Q; [apply strncmp_name in Q; auto; exfalso; apply (Hd x); [left; auto | auto]|].
      apply H2; auto. intros e He. apply Hd. right; auto.
Qed.
(** Two entry points, one name a prefix of the other. *)
Definition exampleEP (name : string) (i : string) : entryPoint :=
  {| epName := T name; epInputs := [(Tensor F32 (Some [Some 2; None]), T i); (Seq (Tensor I1 None), T "mask")]; epOutputs := [(Tensor Str (Some []), T "out@1")] |}.
Lemma plain_check s : forallb (fun c => negb (Ascii.eqb c quote || Ascii.eqb c backslash || Ascii.eqb c nul || Ascii.eqb c " "%char)) s = true -> plainName s.
Proof.
  intros H. rewrite forallb_forall in H. assert (K : forall c, In c s -> c <> quote /\ c <> backslash /\ c <> nul /\ c <> " "%char).
  { intros c Hc. specialize (H c Hc). apply negb_true_iff in H. rewrite !orb_false_iff in H. destruct H as (((H1 & H2) & H3) & H4). repeat split; intros ->; rewrite Ascii.eqb_refl in *; discriminate. }
  split; [intros Q; destruct (K _ Q); tauto|]. split; [intros Q; destruct (K _ Q); tauto|]. split; [intros Q; destruct (K _ Q); tauto|]. intros b p q _ E. assert (Q : In " "%char s) by (rewrite E; apply in_or_app; right; left; auto). destruct (K _ Q); tauto.
Qed.
Example C87_signature_case : reportable (exampleEP "run_main_graph" "x") /\ reportable (exampleEP "run_main_graph_tiny" "y") /\
  inputSignature (exampleEP "run_main_graph" "x") = T "[    { ""type"" : ""f32"" , ""dims"" : [2 , -1] , ""name"" : ""x"" }
 ,    {""seq"" :    { ""type"" : ""i1"" , ""dims"" : [] , ""name"" : ""mask"" }
 }

]".
Proof.
  assert (K : forall n i, (n = "run_main_graph" \/ n = "run_main_graph_tiny")%string -> (i = "x" \/ i = "y")%string -> reportable (exampleEP n i)).
  { intros n i Hn Hi. split; [destruct Hn; subst; cbn; intros Q; decompose [or] Q; try discriminate; contradiction|]. split; [|split].
    - constructor; [split; [apply plain_check; destruct Hi; subst; reflexivity | reflexivity]|]. constructor; [split; [apply plain_check; reflexivity | reflexivity]|]. constructor.
    - constructor; [split; [apply plain_check; reflexivity | reflexivity]|]. constructor.
    - intros a name [E | [E | []]]; apply (f_equal snd) in E; cbn [snd] in E; subst name; destruct Hi; subst; cbn; intros Q; decompose [or] Q; try discriminate; contradiction. }
  split; [apply K; auto|]. split; [apply K; auto | vm_compute; reflexivity].
Qed.

Lemma in_joined (c : ascii) sep0 x l : In x l -> In c x -> In c (join sep0 l).
Proof.
  intros Hx Hc. induction l as [|y l IH]; [contradiction|]. destruct l as [|z l]; cbn [join]; [destruct Hx as [<- | []]; auto|]. apply in_or_app. destruct Hx as [<- | Hx]; [left; auto|]. right. apply in_or_app. right. apply IH; auto.
Qed.
Lemma in_jsonArg c a name : plainName name -> In c name -> In c (jsonArg a name).
Proof.
  intros P H. induction a as [e d|a IH]; cbn [jsonArg]; rewrite ?(plain_json name P).
  - do 11 (apply in_or_app; right). apply in_or_app. left. right. apply in_or_app. left. auto.
  - do 3 (apply in_or_app; right). apply in_or_app. left. exact IH.
Qed.
Lemma split_before c a t : In c a -> exists p q, a = p ++ c :: q /\ split c (a ++ t) = (p, q ++ t).
Proof.
  induction a as [|x a IH]; [contradiction|]. intros H. cbn [app split]. destruct (Ascii.eqb_spec x c) as [->|N]; [exists [], a; auto|]. destruct H as [H | H]; [congruence|].
  destruct (IH H) as (p & q & -> & E). exists (x :: p), q. rewrite E. auto.
Qed.
(** With @ in the name of an input, what is returned for the inputs has no final zero. *)
Theorem C87_at_sign_refuted e a name : Forall (fun p => plainName (snd p) /\ hasBF16 (fst p) = false) (epInputs e) -> Forall (fun p => plainName (snd p) /\ hasBF16 (fst p) = false) (epOutputs e) ->
  ~ In nul (epName e) -> In (a, name) (epInputs e) -> In "@"%char name -> exists gs, recordAll [e] = Some gs /\ signatureFunction true gs (epName e) = Unterminated.
Proof.
  intros Pi Po Nn Hp At. cbn [recordAll]. unfold recordEntryPoint. rewrite signature_text by auto.
  assert (I : In "@"%char (inputSignature e)).
  { unfold inputSignature, jsonArgs. apply in_or_app. right. apply in_or_app. left. apply (in_joined _ _ (jsonArg a name)); [apply in_map_iff; exists (a, name); auto|]. rewrite Forall_forall in Pi. destruct (Pi _ Hp). apply in_jsonArg; auto. }
  rewrite <- app_assoc. destruct (split_before "@"%char (inputSignature e) ([nul] ++ "@"%char :: outputSignature e ++ [nul]) I) as (p & q & E & ->). eexists. split; [reflexivity|]. cbn [signatureFunction gName gIn fst].
  rewrite (proj2 (strncmp_name (epName e) (epName e) Nn Nn) eq_refl). apply cstring_none. intros H. assert (K : ~ In nul (inputSignature e)) by (apply noNul; auto; cbn; intros Q; decompose [or] Q; try discriminate; contradiction). apply K. rewrite E. apply in_or_app. left; auto.
Qed.
Example C87_at_sign_case : exists gs, recordAll [exampleEP "run" "a@b"] = Some gs /\ signatureFunction true gs (T "run") = Unterminated.
Proof. eexists. split; vm_compute; reflexivity. Qed.

Definition oneInput (e : elt) (name : text) : entryPoint := {| epName := T "run"; epInputs := [(Tensor e (Some [Some 2]), name)]; epOutputs := [] |}.
(** bfloat16 is reported without quotes. *)
Theorem C87_bf16_refuted : exists gs s, recordAll [oneInput BF16 (T "x")] = Some gs /\ signatureFunction true gs (T "run") = Chars s /\ s <> inputSignature (oneInput BF16 (T "x")) /\
  s = T "[    { ""type"" : bf16 , ""dims"" : [2] , ""name"" : ""x"" }

]".
Proof. eexists. eexists. split; [vm_compute; reflexivity|]. split; [vm_compute; reflexivity|]. split; [vm_compute; discriminate | vm_compute; reflexivity]. Qed.
(** A type name between spaces within a name gets quotes. *)
Theorem C87_type_word_refuted : exists gs s, recordAll [oneInput F32 (T "to f16 cast")] = Some gs /\ signatureFunction true gs (T "run") = Chars s /\ s <> inputSignature (oneInput F32 (T "to f16 cast")) /\
  s = T "[    { ""type"" : ""f32"" , ""dims"" : [2] , ""name"" : ""to ""f16"" cast"" }

]".
Proof. eexists. eexists. split; [vm_compute; reflexivity|]. split; [vm_compute; reflexivity|]. split; [vm_compute; discriminate | vm_compute; reflexivity]. Qed.
(** Quotes in names are not escaped. *)
Theorem C87_quote_refuted : exists gs s, recordAll [oneInput F32 (T "a""b")] = Some gs /\ signatureFunction true gs (T "run") = Chars s /\ s <> inputSignature (oneInput F32 (T "a""b")) /\
  s = T "[    { ""type"" : ""f32"" , ""dims"" : [2] , ""name"" : ""a""b"" }

]".
Proof. eexists. eexists. split; [vm_compute; reflexivity|]. split; [vm_compute; reflexivity|]. split; [vm_compute; discriminate | vm_compute; reflexivity]. Qed.

(** Equal on strings: is the first a prefix of the second? *)
Theorem C88_prefix a b : ~ In nul a -> ~ In nul b -> (stringEqual a b = true <-> exists q, b = a ++ q).
Proof. apply strncmp_prefix. Qed.
(** So it is equality when the second is not longer than the first. *)
Theorem C88_equal a b : ~ In nul a -> ~ In nul b -> (length b <= length a)%nat -> (stringEqual a b = true <-> a = b).
Proof.
  intros Na Nb L. rewrite C88_prefix by auto. split; [|intros ->; exists []; now rewrite app_nil_r]. intros [q ->]. rewrite app_length in L. destruct q; [now rewrite app_nil_r | cbn in L; lia].
Qed.
(** Different strings are never said equal in both orders, and equal ones always are. *)
Theorem C88_both a b : ~ In nul a -> ~ In nul b -> (stringEqual a b = true /\ stringEqual b a = true <-> a = b).
Proof.
  intros Na Nb. destruct (Nat.le_ge_cases (length b) (length a)) as [L | L].
  - rewrite (C88_equal a b) by auto. split; [tauto|]. intros ->. split; [reflexivity|]. apply C88_equal; auto.
  - rewrite (C88_equal b a) by auto. split; [intros [_ ->]; reflexivity|]. intros ->. split; [|reflexivity]. apply C88_equal; auto.
Qed.
(** Not an equality, not symmetric, and true of the empty string and anything. *)
Theorem C88_equal_refuted : stringEqual (T "cat") (T "category") = true /\ stringEqual (T "category") (T "cat") = false /\ forall b, stringEqual [] b = true.
Proof. split; [reflexivity|]. split; reflexivity. Qed.
Example C88_case : stringEqual (T "cat") (T "cat") = true /\ stringEqual (T "cat") (T "car") = false /\ ~ In nul (T "cat").
Proof. split; [reflexivity|]. split; [reflexivity|]. cbn. intros Q; decompose [or] Q; try discriminate; contradiction. Qed.

Print Assumptions C87_signature.
Print Assumptions C87_at_sign_refuted.
Print Assumptions C87_bf16_refuted.
Print Assumptions C87_type_word_refuted.
Print Assumptions C87_quote_refuted.
Print Assumptions C88_prefix.
Print Assumptions C88_equal.
Print Assumptions C88_both.
Print Assumptions C88_equal_refuted.
