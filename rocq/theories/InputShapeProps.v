(** C89: shapes given to inputs by options. C90: verification of input tensors. *)
From Coq Require Import ZArith Ascii String Bool Lia List.
From Verif Require Import SignatureSpec InputShapeSpec InputShapeModel InputShapeProofs.
Import ListNotations.
Open Scope Z_scope.

(** The text of an option is read back, the first setting of an input counting. *)
Theorem C89_information l : Forall validSetting l -> exists m, parseShapeInformation (optionText l) = Some m /\ forall i, lookup m i = firstFor l i.
Proof. apply parse_back. Qed.
(** --shapeInformation gives an input the dims of its setting, else those of the setting for all inputs. *)
Theorem C89_shape l : Forall validSetting l -> exists m, parseShapeInformation (optionText l) = Some m /\
  forall i dims, 0 <= i -> shapedAs (settingOf l i) dims (reshape None m i dims).
Proof.
  intros F. destruct (parse_back l F) as (m & E & H). exists m. split; [exact E|]. intros i dims Hi. unfold reshape, settingOf. rewrite !H. destruct (firstFor l i) as [u|]; [apply custom_shaped|]. destruct (firstFor l (-1)) as [u|]; [apply custom_shaped|].
  split; reflexivity.
Qed.
(** IMPORTER_FORCE_DYNAMIC makes dims unknown, settings for all inputs first, and then --shapeInformation
    does not count for the input. *)
Theorem C89_forced l info : Forall validForcing l -> l <> [] -> exists m, forcedDims (variableText l) = Some m /\
  forall i dims, 0 <= i -> match forcingOf l i with Some ks => forcedAs ks dims (reshape (Some m) info i dims) | None => reshape (Some m) info i dims = reshape None info i dims end.
Proof.
  intros F N. destruct (forced_back l F N) as (m & E & H). exists m. split; [exact E|]. intros i dims Hi. unfold forcingOf, reshape. rewrite !H. destruct (find (fun f => fst f =? -1) l) as [[j ks]|]; cbn [option_map snd].
  - apply (force_shaped ks dims 0). lia.
  - destruct (find (fun f => fst f =? i) l) as [[j ks]|]; cbn [option_map snd]; [apply (force_shaped ks dims 0); lia | reflexivity].
Qed.
Definition exampleSettings : list setting := [(Range 1 3, [Some 3; None]); (AllInputs, [Some 16]); (One 2, [Some 7])].
Example C89_case : Forall validSetting exampleSettings /\ optionText exampleSettings = T "1-3:3x-1,-1:16,2:7" /\
  settingOf exampleSettings 2 = Some [Some 3; None] /\ settingOf exampleSettings 0 = Some [Some 16] /\
  option_map (fun m => reshape None m 2 [None; Some 5; Some 6]) (parseShapeInformation (optionText exampleSettings)) = Some [Some 3; None; Some 6].
Proof.
  split; [|repeat split; reflexivity]. unfold exampleSettings. apply Forall_cons; [|apply Forall_cons; [|apply Forall_cons; [|constructor]]]; (split; [cbn; unfold int32; lia|]); cbn [snd]; intros d H; cbn in H; unfold int32; decompose [or] H; try contradiction; match goal with K : _ = Some d |- _ => inversion K; subst; lia | _ => idtac end.
Qed.
Example C89_forced_case : Forall validForcing [(0, [1]); (1, [0; 1])] /\ variableText [(0, [1]); (1, [0; 1])] = T "0:1|1:0,1" /\
  option_map (fun m => reshape (Some m) [] 1 [Some 4; Some 5; Some 6]) (forcedDims (T "0:1|1:0,1")) = Some [None; None; Some 6] /\
  option_map (fun m => reshape (Some m) [] 1 [Some 4]) (forcedDims []) = Some [None].
Proof.
  split; [|repeat split; reflexivity]. apply Forall_cons; [|apply Forall_cons; [|constructor]]; (split; [cbn; lia|]; split; [cbn; unfold int32; lia|]; split; [discriminate|]); cbn; intros k H; unfold int32; lia.
Qed.
(** Refuted: text that does not follow the format is refused. Without a colon the dims also are the input
    index; what follows a number is ignored; a range that goes down names no input; a setting has more dims
    than the input. *)
Theorem C89_format_refuted :
  parseShapeInformation (T "3x5") = Some [(3, [Some 3; Some 5])] /\ parseShapeInformation (T "0:3*5x7") = Some [(0, [Some 3; Some 7])] /\
  parseShapeInformation (T "3-1:8") = Some [] /\ option_map (fun m => reshape None m 0 [None]) (parseShapeInformation (T "0:2x3x4")) = Some [Some 2].
Proof. repeat split; reflexivity. Qed.

(** Inputs are accepted exactly when they have the types of the model's inputs and keep to the bounds;
    otherwise the call returns NULL with errno EINVAL. *)
Theorem C90_verify inputs ub lb ts :
  Forall checkable inputs -> Forall validSetting ub -> Forall validSetting lb -> fitsInputs inputs ub -> fitsInputs inputs lb ->
  (acceptable inputs ub lb ts -> verifyInputs inputs (optionText ub) (optionText lb) ts = Accepted) /\
  (~ acceptable inputs ub lb ts -> verifyInputs inputs (optionText ub) (optionText lb) ts = Rejected).
Proof.
  intros C Vu Vl Fu Fl. unfold verifyInputs. destruct (items_of inputs C) as (items & -> & It). destruct (parse_back ub Vu) as (mu & Eu & Hu). destruct (parse_back lb Vl) as (ml & El & Hl). rewrite Eu, El.
  pose proof (functional_parse _ _ Eu) as Nu. pose proof (functional_parse _ _ El) as Nl. rewrite (entries_compile inputs items ub mu), (entries_compile inputs items lb ml) by auto. cbn [andb negb].
  pose proof (tensors_spec inputs items It ts) as Ts. destruct (length items =? length ts)%nat eqn:L; cbn [check andb] in *.
  - apply Nat.eqb_eq in L. rewrite L. pose proof (entries_hold true ub mu ts Vu Nu Hu) as Bu. pose proof (entries_hold false lb ml ts Vl Nl Hl) as Bl. cbn [relOf] in Bu, Bl. unfold acceptable.
    destruct (verifyTensors items ts); cbn [check]; [|split; [intros (A & _); apply Ts in A; discriminate | reflexivity]].
    destruct (forEntries mu (length ts) (boundHolds true ts)); cbn [check]; [|split; [intros (_ & A & _); apply Bu in A; discriminate | reflexivity]].
    destruct (forEntries ml (length ts) (boundHolds false ts)); cbn [check]; [|split; [intros (_ & _ & A); apply Bl in A; discriminate | reflexivity]].
    split; [reflexivity|]. intros N. exfalso. apply N. split; [apply Ts; auto|]. split; [apply Bu; auto | apply Bl; auto].
  - split; [intros (A & _); apply Ts in A; discriminate | reflexivity].
Qed.
Definition exampleInputs : list argType := [Tensor F32 (Some [None; Some 5]); Tensor I64 (Some [Some 2; None])].
Definition rt (ty : Z) (dims : list Z) : rtTensor := {| rtType := ty; rtDims := dims |}.
Example C90_case : Forall checkable exampleInputs /\ fitsInputs exampleInputs [(One 0, [Some 8]); (AllInputs, [None; Some 6])] /\ fitsInputs exampleInputs [(Range 0 1, [Some 2])] /\
  verifyInputs exampleInputs (T "0:8,-1:-1x6") (T "0-1:2") [rt 1 [8; 5]; rt 7 [2; 6]] = Accepted /\
  verifyInputs exampleInputs (T "0:8,-1:-1x6") (T "0-1:2") [rt 1 [8; 5]; rt 7 [2; 7]] = Rejected /\
  verifyInputs exampleInputs (T "0:8,-1:-1x6") (T "0-1:2") [rt 1 [1; 5]; rt 7 [2; 6]] = Rejected /\
  verifyInputs exampleInputs (T "0:8,-1:-1x6") (T "0-1:2") [rt 1 [8; 5]; rt 6 [2; 6]] = Rejected /\
  verifyInputs exampleInputs (T "0:8,-1:-1x6") (T "0-1:2") [rt 1 [8; 5]] = Rejected /\
  verifyInputs exampleInputs [] [] [rt 1 [0; 5]; rt 7 [2; 100]] = Accepted.
Proof.
  split; [unfold exampleInputs; apply Forall_cons; [|apply Forall_cons; [|constructor]]; cbn; intros n H; decompose [or] H; try discriminate; try contradiction; match goal with K : Some _ = Some n |- _ => inversion K; lia end|].
  assert (G : forall l : list setting, forallb (fun s => match fst s with One i => (0 <=? i) && (i <? 2) | Range a b => (0 <=? a) && (b <? 2) | AllInputs => true end && (length (snd s) <=? 2)%nat) l = true -> fitsInputs exampleInputs l).
  { intros l H t given Ht. rewrite forallb_forall in H. specialize (H _ Ht). cbn [fst snd] in H. apply andb_true_iff in H as [H1 H2]. apply Nat.leb_le in H2. split.
    - intros i Hn Hi. cbn [exampleInputs length]. destruct t; cbn [names] in Hn; [apply andb_true_iff in H1 as [_ H1]; apply Z.ltb_lt in H1; apply Z.eqb_eq in Hn; lia | apply andb_true_iff in H1 as [_ H1]; apply Z.ltb_lt in H1; apply andb_true_iff in Hn as [_ Hn]; apply Z.leb_le in Hn; lia | apply Z.eqb_eq in Hn; lia].
    - intros [|[|i]] e d E _; cbn in E; [injection E as <- <-; cbn; lia | injection E as <- <-; cbn; lia | destruct i; discriminate]. }
  split; [apply G; reflexivity|]. split; [apply G; reflexivity|]. repeat split; reflexivity.
Qed.
(** Refuted for other inputs. The data type of a string input is not checked. *)
Theorem C90_string_refuted : verifyInputs [Tensor Str (Some [Some 2])] [] [] [rt 1 [2]] = Accepted /\ ~ acceptable [Tensor Str (Some [Some 2])] [] [] [rt 1 [2]].
Proof. split; [reflexivity|]. intros (A & _). inversion A as [|? ? ? ? H]; subst. destruct H as [H _]. discriminate. Qed.
(** An input of unknown rank accepts scalars only. *)
Theorem C90_unranked_refuted : acceptable [Tensor F32 None] [] [] [rt 1 [2]] /\ verifyInputs [Tensor F32 None] [] [] [rt 1 [2]] = Rejected.
Proof.
  split; [|reflexivity]. split; [constructor; [split; [reflexivity | cbn; constructor; [lia | constructor]] | constructor]|].
  split; intros i t given k b z _ [H | H]; discriminate.
Qed.
(** Models with a sequence or bfloat16 input cannot be compiled with the checks, nor can bounds for all inputs
    when an input has fewer dims, or a bound for an input that does not exist. *)
Theorem C90_compile_refuted : (forall a ub lb ts, verifyInputs [Seq a] ub lb ts = Broken) /\ (forall d ub lb ts, verifyInputs [Tensor BF16 d] ub lb ts = Broken) /\
  (forall ts, verifyInputs [Tensor F32 (Some [None; None]); Tensor F32 (Some [None])] (T "-1:8x8") [] ts = Broken) /\ (forall ts, verifyInputs [Tensor F32 (Some [None])] (T "1:8") [] ts = Broken).
Proof. repeat split; reflexivity. Qed.
Print Assumptions C89_information.
Print Assumptions C89_shape.
Print Assumptions C89_forced.
Print Assumptions C90_verify.
