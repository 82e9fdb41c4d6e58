(** C74, C75, C76: LSTM, GRU and RNN compute what ONNX defines. *)
From Coq Require Import List ZArith Bool Lia.
From Verif Require Import Util RnnSpec RnnModel RnnProofs.
Import ListNotations.
Open Scope Z_scope.

(** ** C74: LSTM *)

(** Without clip and input_forget, and when every sequence has the full length: Y, Y_h and Y_c are
    those of the ONNX definition, in the three directions, with or without biases, peepholes and
    initial states, whatever the activations, and whatever the buffer of Y held before. Only
    associativity and commutativity of the addition are used. *)
Theorem C74_lstm_right {A} (zero one : A) add sub mul :
  (forall a b, add a b = add b a) -> (forall a b c, add a (add b c) = add (add a b) c) ->
  forall (q : lstmIn A) (sigmoid tanh tanh' : A -> A) (junk : Z -> Z -> Z -> Z -> A), let p := base q in
  0 <= seqLen p -> 0 <= batch p -> 0 <= hidSize p -> clip p = None -> inputForget q = false ->
  (forall b, 0 <= b < batch p -> lenOf p b = seqLen p) ->
  let '(Y, Yh, Yc) := lstmLowering zero add mul q sigmoid tanh tanh' junk in
  goodOutputs zero p fst (lstmCell zero one add sub mul q sigmoid tanh tanh')
    (fun d b j => (initOf zero (h0 p) d b j, initOf zero (c0 q) d b j)) Y (fun d b j => (Yh d b j, Yc d b j)).
Proof. intros AC AA q f g h junk p. now apply lstm_good. Qed.

(** Witnesses: numbers in Z, one input, one hidden unit, batch of one. *)
Definition zlstm (T : Z) (l : option (Z -> Z)) (c : option (Z -> Z)) (inpf : bool) : lstmIn Z :=
  {| base := {| seqLen := T; batch := 1; inSize := 1; hidSize := 1; dir := Forward; X := fun t _ _ => t + 5; W := fun _ _ _ => 1; R := fun _ _ _ => 1;
               B := None; h0 := None; lens := l; acts := None; clip := c |}; P := None; c0 := None; inputForget := inpf |}.
Definition zlstmGood (q : lstmIn Z) (f g h : Z -> Z) : Prop :=
  let '(Y, Yh, Yc) := lstmLowering 0 Z.add Z.mul q f g h (fun _ _ _ _ => 0) in
  goodOutputs 0 (base q) fst (lstmCell 0 1 Z.add Z.sub Z.mul q f g h)
    (fun d b j => (initOf 0 (h0 (base q)) d b j, initOf 0 (c0 q) d b j)) Y (fun d b j => (Yh d b j, Yc d b j)).
Lemma zlstm_last q f g h : zlstmGood q f g h -> 0 < numDirections (dir (base q)) -> 0 < batch (base q) -> 0 < hidSize (base q) ->
  fst (states (backwards (dir (base q)) 0) (lenOf (base q) 0) (lstmCell 0 1 Z.add Z.sub Z.mul q f g h 0 0)
    (fun j => (initOf 0 (h0 (base q)) 0 0 j, initOf 0 (c0 q) 0 0 j)) (Z.to_nat (lenOf (base q) 0)) 0) =
  snd (fst (lstmLowering 0 Z.add Z.mul q f g h (fun _ _ _ _ => 0))) 0 0 0.
Proof.
  unfold zlstmGood. destruct (lstmLowering 0 Z.add Z.mul q f g h (fun _ _ _ _ => 0)) as [[Y Yh] Yc]. intros G Hd Hb Hj.
  destruct (G 0 0 0 ltac:(lia) ltac:(lia) ltac:(lia)) as [G1 _]. cbn [fst snd]. rewrite <- G1. reflexivity.
Qed.
(** sequence_lens shorter than the input is ignored: the final states are those after the padding. *)
Theorem C74_lengths_refuted : exists q f g h, clip (base q) = None /\ inputForget q = false /\ (forall b, 0 < lenOf (base q) b < seqLen (base q)) /\ ~ zlstmGood q f g h.
Proof.
  exists (zlstm 2 (Some (fun _ => 1)) None false), (fun _ => 1), (fun _ => 1), (fun x => x). split; [reflexivity|]. split; [reflexivity|]. split; [intros; cbn; lia|].
  intros G. pose proof (zlstm_last _ _ _ _ G eq_refl eq_refl eq_refl) as E. clear G. vm_compute in E. discriminate.
Qed.
(** clip is ignored. *)
Theorem C74_clip_refuted : exists q f g h, lens (base q) = None /\ inputForget q = false /\ clip (base q) = Some (fun x => Z.max (-2) (Z.min 2 x)) /\ ~ zlstmGood q f g h.
Proof.
  exists (zlstm 1 None (Some (fun x => Z.max (-2) (Z.min 2 x))) false), (fun x => x), (fun x => x), (fun x => x). split; [reflexivity|]. split; [reflexivity|]. split; [reflexivity|].
  intros G. pose proof (zlstm_last _ _ _ _ G eq_refl eq_refl eq_refl) as E. clear G. vm_compute in E. discriminate.
Qed.
(** input_forget is ignored. *)
Theorem C74_input_forget_refuted : exists q f g h, lens (base q) = None /\ clip (base q) = None /\ inputForget q = true /\ ~ zlstmGood q f g h.
Proof.
  exists (zlstm 2 None None true), (fun _ => 1), (fun _ => 1), (fun x => x). split; [reflexivity|]. split; [reflexivity|]. split; [reflexivity|].
  intros G. pose proof (zlstm_last _ _ _ _ G eq_refl eq_refl eq_refl) as E. clear G. vm_compute in E. discriminate.
Qed.
(** The theorem applies to a bidirectional LSTM with biases, peepholes, initial states and the
    lengths given: *)
Definition zbi : lstmIn Z :=
  {| base := {| seqLen := 2; batch := 2; inSize := 2; hidSize := 2; dir := Bidirectional; X := fun t b i => t + 2 * b - i; W := fun d r c => d - r + c; R := fun d r c => r - d * c;
               B := Some (fun d k => k - d); h0 := Some (fun d b j => d + b - j); lens := Some (fun _ => 2); acts := Some [fun x => x + 1; fun x => x; fun x => - x; fun x => x - 2; fun x => 2 * x; fun x => x]; clip := None |};
     P := Some (fun d k => k + d); c0 := Some (fun d b j => b - d + j); inputForget := false |}.
Example C74_nonvacuous : zlstmGood zbi (fun x => x) (fun x => x) (fun x => x) /\
  let '(Y, Yh, Yc) := lstmLowering 0 Z.add Z.mul zbi (fun x => x) (fun x => x) (fun x => x) (fun _ _ _ _ => 99) in
  Y 0 1 1 1 = Yh 1 1 1 /\ Y 1 1 1 1 <> Yh 1 1 1 /\ Y 1 0 1 1 = Yh 0 1 1 /\ Yh 0 1 1 <> Yh 1 1 1 /\ Yh 0 1 1 <> Yh 0 1 0.
Proof.
  split.
  - apply (C74_lstm_right 0 1 Z.add Z.sub Z.mul); try (intros; lia); cbn; try lia; try reflexivity; intros; lia.
  - vm_compute. repeat split; discriminate.
Qed.

(** ** C75: GRU *)

(** Without clip, for both values of linear_before_reset and any sequence lengths: the last states
    are those of the ONNX definition, and Y is right inside each sequence; after its end Y holds
    the initial state. *)
Theorem C75_gru_states {A} (zero one : A) add sub mul :
  (forall a b, add a b = add b a) -> (forall a b c, add a (add b c) = add (add a b) c) ->
  forall (p : rnnIn A) linearBeforeReset sigmoid tanh junk,
  0 <= seqLen p -> 0 <= batch p -> 0 <= hidSize p -> clip p = None ->
  (forall b, 0 <= b < batch p -> 0 <= lenOf p b <= seqLen p) ->
  let '(Y, Yh) := gruLowering zero one add sub mul p linearBeforeReset sigmoid tanh junk in
  outputsPadded (initOf zero (h0 p)) p (fun v => v) (gruCell zero one add sub mul p linearBeforeReset sigmoid tanh) (initOf zero (h0 p)) Y Yh.
Proof. intros AC AA p lbr f g junk. now apply gru_good. Qed.
(** So all outputs are right when there is no initial state, or no sequence stops early. *)
Theorem C75_gru_right {A} (zero one : A) add sub mul :
  (forall a b, add a b = add b a) -> (forall a b c, add a (add b c) = add (add a b) c) ->
  forall (p : rnnIn A) linearBeforeReset sigmoid tanh junk,
  0 <= seqLen p -> 0 <= batch p -> 0 <= hidSize p -> clip p = None ->
  (forall b, 0 <= b < batch p -> 0 <= lenOf p b <= seqLen p) ->
  h0 p = None \/ (forall b, 0 <= b < batch p -> lenOf p b = seqLen p) ->
  let '(Y, Yh) := gruLowering zero one add sub mul p linearBeforeReset sigmoid tanh junk in
  goodOutputs zero p (fun v => v) (gruCell zero one add sub mul p linearBeforeReset sigmoid tanh) (initOf zero (h0 p)) Y Yh.
Proof.
  intros AC AA p lbr f g junk HT HN HH HC HL HI.
  pose proof (C75_gru_states zero one add sub mul AC AA p lbr f g junk HT HN HH HC HL) as G.
  destruct (gruLowering zero one add sub mul p lbr f g junk) as [Y Yh]. unfold goodOutputs. eapply padded_pad; [|exact G].
  intros t d b j Ht Hb Hl. destruct HI as [-> |E]; [reflexivity|]. rewrite E in Hl by assumption. lia.
Qed.
Definition zgru (T : Z) (l : option (Z -> Z)) (h : option (Z -> Z -> Z -> Z)) (c : option (Z -> Z)) : rnnIn Z :=
  {| seqLen := T; batch := 1; inSize := 1; hidSize := 1; dir := Reverse; X := fun t _ _ => t + 5; W := fun _ r _ => r + 1; R := fun _ r _ => r - 1;
     B := None; h0 := h; lens := l; acts := None; clip := c |}.
Definition zgruGood (p : rnnIn Z) (lbr : bool) (f g : Z -> Z) : Prop :=
  let '(Y, Yh) := gruLowering 0 1 Z.add Z.sub Z.mul p lbr f g (fun _ _ _ _ => 99) in
  goodOutputs 0 p (fun v => v) (gruCell 0 1 Z.add Z.sub Z.mul p lbr f g) (initOf 0 (h0 p)) Y Yh.
(** With an initial state, Y is not zero after the end of a short sequence. *)
Theorem C75_padding_refuted : exists p lbr f g, clip p = None /\ (forall b, 0 < lenOf p b < seqLen p) /\ ~ zgruGood p lbr f g.
Proof.
  exists (zgru 2 (Some (fun _ => 1)) (Some (fun _ _ _ => 7)) None), true, (fun x => x), (fun x => x). split; [reflexivity|]. split; [intros; cbn; lia|].
  intros G. destruct (G 0 0 0 ltac:(cbn; lia) ltac:(cbn; lia) ltac:(cbn; lia)) as [_ G1]. specialize (G1 1 ltac:(cbn; lia)). vm_compute in G1. discriminate.
Qed.
Theorem C75_clip_refuted : exists p lbr f g, lens p = None /\ h0 p = None /\ clip p = Some (fun x => Z.max (-2) (Z.min 2 x)) /\ ~ zgruGood p lbr f g.
Proof.
  exists (zgru 1 None None (Some (fun x => Z.max (-2) (Z.min 2 x)))), true, (fun x => x), (fun x => x). split; [reflexivity|]. split; [reflexivity|]. split; [reflexivity|].
  intros G. destruct (G 0 0 0 ltac:(cbn; lia) ltac:(cbn; lia) ltac:(cbn; lia)) as [G1 _]. vm_compute in G1. discriminate.
Qed.
Definition zgbi : rnnIn Z :=
  {| seqLen := 3; batch := 2; inSize := 2; hidSize := 2; dir := Bidirectional; X := fun t b i => t + 2 * b - i; W := fun d r c => d - r + c; R := fun d r c => r - d * c;
     B := Some (fun d k => k - d); h0 := None; lens := Some (fun b => b + 1); acts := Some [fun x => x + 1; fun x => - x; fun x => x - 2; fun x => 2 * x]; clip := None |}.
Example C75_nonvacuous : (forall lbr, zgruGood zgbi lbr (fun x => x) (fun x => x)) /\
  let '(Y, Yh) := gruLowering 0 1 Z.add Z.sub Z.mul zgbi false (fun x => x) (fun x => x) (fun _ _ _ _ => 99) in
  Y 1 0 1 1 = Yh 0 1 1 /\ Y 2 0 1 1 = 0 /\ Y 0 1 1 1 = Yh 1 1 1 /\ Y 1 1 0 1 = 0 /\ Yh 0 1 1 <> Yh 1 1 1 /\ Yh 0 1 1 <> 0.
Proof.
  split.
  - intros lbr. apply (C75_gru_right 0 1 Z.add Z.sub Z.mul); try (intros; lia); cbn; try lia; try reflexivity; now left.
  - vm_compute. repeat split; discriminate.
Qed.

(** ** C76: RNN *)

(** Without clip and sequence_lens: compiled, and both outputs are those of the ONNX definition. *)
Theorem C76_rnn_right {A} (zero : A) add mul (p : rnnIn A) tanh junk :
  0 <= seqLen p -> 0 <= batch p -> 0 <= hidSize p -> clip p = None -> lens p = None ->
  exists Y Yh, rnnLowering zero add mul p tanh junk = Some (Y, Yh) /\
    goodOutputs zero p (fun v => v) (rnnCell zero add mul p tanh) (initOf zero (h0 p)) Y Yh.
Proof. apply rnn_good. Qed.
(** sequence_lens stops the compiler, even when it only says that all sequences are full. *)
Theorem C76_lengths_refuted : exists p : rnnIn Z, clip p = None /\ (forall b, lenOf p b = seqLen p) /\ forall tanh junk, rnnLowering 0 Z.add Z.mul p tanh junk = None.
Proof. exists (zgru 2 (Some (fun _ => 2)) None None). split; [reflexivity|]. split; reflexivity. Qed.
(** clip is ignored. *)
Theorem C76_clip_refuted : exists (p : rnnIn Z) tanh Y Yh, lens p = None /\ clip p = Some (fun x => Z.max (-2) (Z.min 2 x)) /\
  rnnLowering 0 Z.add Z.mul p tanh (fun _ _ _ _ => 99) = Some (Y, Yh) /\ ~ goodOutputs 0 p (fun v => v) (rnnCell 0 Z.add Z.mul p tanh) (initOf 0 (h0 p)) Y Yh.
Proof.
  exists (zgru 1 None None (Some (fun x => Z.max (-2) (Z.min 2 x)))), (fun x => x). eexists _, _. split; [reflexivity|]. split; [reflexivity|]. split; [reflexivity|].
  intros G. destruct (G 0 0 0 ltac:(cbn; lia) ltac:(cbn; lia) ltac:(cbn; lia)) as [G1 _]. vm_compute in G1. discriminate.
Qed.
Definition zrbi : rnnIn Z :=
  {| seqLen := 3; batch := 2; inSize := 2; hidSize := 2; dir := Bidirectional; X := fun t b i => t + 2 * b - i; W := fun d r c => d - r + c; R := fun d r c => r - d * c;
     B := Some (fun d k => k - d); h0 := Some (fun d b j => d + b - j); lens := None; acts := Some [fun x => x + 1; fun x => - x]; clip := None |}.
Example C76_nonvacuous : clip zrbi = None /\ lens zrbi = None /\
  match rnnLowering 0 Z.add Z.mul zrbi (fun x => x) (fun _ _ _ _ => 99) with
  | Some (Y, Yh) => Y 2 0 1 1 = Yh 0 1 1 /\ Y 0 1 1 1 = Yh 1 1 1 /\ Yh 0 1 1 <> Yh 1 1 1 /\ Y 1 1 0 0 <> 0
  | None => False end.
Proof. split; [reflexivity|]. split; [reflexivity|]. vm_compute. repeat split; discriminate. Qed.

Print Assumptions C74_lstm_right.
Print Assumptions C75_gru_right.
Print Assumptions C76_rnn_right.
