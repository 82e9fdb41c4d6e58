(** C84: rewriting Pow, Split and the recurrent operations keeps their results. *)
From Coq Require Import List ZArith Bool Lia SpecFloat Permutation.
From Verif Require Import Util TensorSpec TensorLemmas ElementsSpec ShapeOpsModel ShapeOpsSpec BroadcastSpec RnnSpec ConcatRewriteSpec ShapeRewriteModel PowRnnSpec PowRnnModel PowRnnProofs.
Import ListNotations.
Open Scope Z_scope.

(** The integer value of a constant exponent. *)
Definition exponentIs (e : exponentAttr) (n : Z) : Prop :=
  match e with IntExponent v => v = n | FloatExponent v => floatIs v n | OtherExponent => False end.
(** Pow with a constant exponent of one element and of a rank not above that of X becomes products, for
    any associative multiplication with a unit, such as that of integers modulo 2^n. *)
Theorem C84_pow {A} (one : A) mul : (forall a b c, mul a (mul b c) = mul (mul a b) c) -> (forall a, mul one a = a) -> (forall a, mul a one = a) ->
  forall (x : tensor A) eShape e resultType out, okshape eShape -> (length eShape <= length (tShape x))%nat ->
  broadcast [tShape x; eShape] out -> agrees resultType out ->
  (forall z, powToMul one mul 64 x eShape e resultType = Rewritten z -> exists n, exponentIs e n /\ 0 <= n <= 64 /\ isPow one mul x eShape (Z.to_nat n) z) /\
  (forall n, prodZ eShape = 1 -> exponentIs e n -> 0 <= n <= 64 -> n <> 0 \/ resultType = map Some out -> exists z, powToMul one mul 64 x eShape e resultType = Rewritten z).
Proof.
  intros As Ul Ur x eShape e rT out Oe Le Bo Ag. split.
  - intros z E. unfold powToMul in E. destruct (hasIntegerPowerExponent eShape e) as [| |n] eqn:Eh; try discriminate.
    unfold hasIntegerPowerExponent in Eh. destruct (Z.eqb_spec (prodZ eShape) 1) as [P1|]; [|discriminate]. cbn [negb] in Eh. apply prod_one in P1; auto.
    assert (Ei : exponentIs e n).
    { destruct e as [v|v|]; cbn; [congruence| |discriminate]. destruct (isIntegral v) eqn:Ei; [|discriminate]. destruct (toInt64 v) eqn:Et; [|discriminate]. injection Eh as <-. apply toInt64_ok; auto. }
    destruct (Z.leb_spec 0 n); [|discriminate]. destruct (Z.leb_spec n 64); [|discriminate]. cbn [andb negb] in E. exists n. split; auto. split; [lia|].
    pose proof (broadcast_ones_unique _ _ _ P1 Le Bo) as ->. destruct (Z.eqb_spec n 0) as [-> | N0].
    + destruct (staticShape rT) as [s|] eqn:Es; [|discriminate]. apply (staticShape_ok _ _ _ Ag) in Es. subst s. injection E as <-. split; [exact Bo|]. intros idx V. reflexivity.
    + destruct (powLoop_ok one mul As Ul Ur (Z.to_nat n) None x n ltac:(lia) ltac:(lia) ltac:(discriminate)) as (z' & E' & S' & V'). rewrite E' in E. injection E as <-.
      split; [rewrite S'; exact Bo|]. intros idx V. rewrite S' in V. rewrite bindex_self by auto. rewrite V', Ul. reflexivity.
  - intros n P1 Ei Hn Hs. unfold powToMul, hasIntegerPowerExponent. rewrite P1. cbn [negb Z.eqb Pos.eqb].
    assert (Eh : match e with FloatExponent v => if isIntegral v then match toInt64 v with Some z => Rewritten z | None => Undefined end else NoMatch | IntExponent v => Rewritten v | OtherExponent => NoMatch end = Rewritten n).
    { destruct e as [v|v|]; cbn in Ei; [congruence| |contradiction]. destruct (toInt64_defined v n Ei) as [-> ->]; auto. split; [lia|]. apply Z.le_lt_trans with 64; [lia | reflexivity]. }
    rewrite Eh. destruct (Z.leb_spec 0 n); [|lia]. destruct (Z.leb_spec n 64); [|lia]. cbn [andb negb]. destruct (Z.eqb_spec n 0) as [-> | N0].
    + destruct Hs as [|Hs]; [lia|]. subst rT. assert (St : staticShape (map Some out) = Some out) by (clear; induction out as [|d r IH]; [reflexivity|]; cbn; now rewrite IH). rewrite St. eauto.
    + destruct (powLoop_ok one mul As Ul Ur (Z.to_nat n) None x n ltac:(lia) ltac:(lia) ltac:(discriminate)) as (z' & E' & _). rewrite E'. eauto.
Qed.
(** X = (2, 3), exponents the integer 5 and the float 3.0 = 6755399441055744 * 2^-51 of shape (1). *)
Definition x23 : tensor Z := {| tShape := [2]; tAt := fun i => nth 0 i 0 + 2 |}.
Example C84_pow_case : (exists z, powToMul 1 Z.mul 64 x23 [] (IntExponent 5) [None] = Rewritten z /\ tAt z [0] = 32 /\ tAt z [1] = 243) /\
  (exists z, powToMul 1 Z.mul 64 x23 [1] (FloatExponent (S754_finite false 6755399441055744 (-51))) [Some 2] = Rewritten z /\ tAt z [1] = 27) /\
  powToMul 1 Z.mul 64 x23 [] (FloatExponent (S754_finite false 6755399441055744 (-52))) [Some 2] = NoMatch /\ broadcast [[2]; [1]] [2].
Proof.
  split; [eexists; split; [vm_compute; reflexivity | split; reflexivity]|]. split; [eexists; split; [vm_compute; reflexivity | reflexivity]|]. split; [vm_compute; reflexivity|].
  apply broadcast_ones; [repeat constructor | cbn; lia].
Qed.
(** An exponent of one element but more dims than X: the result lacks them. Exponent 0 with a dynamic
    shape is a constant without a static shape. An infinite exponent is converted to an integer. *)
Theorem C84_pow_refuted :
  (exists (x : tensor Z) eShape e out z, okshape eShape /\ broadcast [tShape x; eShape] out /\ powToMul 1 Z.mul 64 x eShape e (map Some out) = Rewritten z /\ ~ isPow 1 Z.mul x eShape 2 z /\ exponentIs e 2) /\
  (exists (x : tensor Z) eShape e out resultType, okshape eShape /\ broadcast [tShape x; eShape] out /\ agrees resultType out /\ exponentIs e 0 /\ powToMul 1 Z.mul 64 x eShape e resultType = Undefined) /\
  (forall (x : tensor Z) out, broadcast [tShape x; []] out -> powToMul 1 Z.mul 64 x [] (FloatExponent (S754_infinity false)) (map Some out) = Undefined).
Proof.
  split; [|split].
  - exists x23, [1; 1], (IntExponent 2), [1; 2]. eexists. split; [repeat constructor; lia|]. split.
    { split; [intros s [<- | [<- | []]]; cbn; lia|]. split; [exists [1; 1]; split; [right; left|]; auto|]. intros [|[|j]] H; cbn in H; try lia; split; cbn; auto; intros v [<- | [<- | []]]; auto. }
    split; [vm_compute; reflexivity|]. split; [|reflexivity]. intros [(B & _) _]. specialize (B [1; 1] (or_intror (or_introl eq_refl))). cbn in B. lia.
  - exists x23, [], (IntExponent 0), [2], [None]. split; [constructor|]. split; [apply broadcast_ones; [constructor | cbn; lia]|]. split; [repeat constructor; discriminate|]. split; reflexivity.
  - intros x out B. reflexivity.
Qed.

(** The model's Transpose is that of ONNX. *)
Theorem C84_transpose {A} perm (x : tensor A) : Permutation perm (seq 0 (length (tShape x))) -> isTransposed perm x (transposeT perm x).
Proof.
  intros P. split; [reflexivity|]. intros idx V. cbn [transposeT tAt]. f_equal. assert (L : length idx = length (tShape x)) by (clear - V; induction V; cbn; auto). rewrite <- L in P.
  rewrite (TransposeLoopProofs.perm_length _ _ P). apply (BroadcastProofs.list_ext_nth 0); [rewrite map_length, seq_length; auto|]. intros o Ho. rewrite map_length, seq_length in Ho.
  rewrite (nth_indep _ 0 (nth (TransposeLoopProofs.idxOf 0 perm) (permute perm idx) 0)) by (rewrite map_length, seq_length; auto).
  rewrite (map_nth (fun o => nth (TransposeLoopProofs.idxOf o perm) (permute perm idx) 0)), seq_nth by auto. cbn [Nat.add].
  assert (I : In o perm) by (apply (TransposeLoopProofs.perm_all _ _ P); auto). destruct (TransposeLoopProofs.idxOf_ok o perm I) as [B E].
  rewrite (TransposeLoopProofs.permute_nth _ _ P) by (rewrite <- (TransposeLoopProofs.perm_length _ _ P); auto). now rewrite E.
Qed.
(** layout = 1: if the operation of layout 0 on the transposed inputs has outputs y, yh, yc, then their
    transposes are the outputs of the operation of layout 1. *)
Definition rank3 {A} (t : rnnTensors A) : Prop :=
  length (tShape (tX t)) = 3%nat /\ (forall h, tH0 t = Some h -> length (tShape h) = 3%nat) /\ (forall c, tC0 t = Some c -> length (tShape c) = 3%nat).
Lemma permute3 s i j k : length s = 3%nat -> permute perm3RNN s = shape3 false i j k -> s = shape3 true i j k.
Proof. destruct s as [|a [|b [|c [|]]]]; try discriminate. cbn. congruence. Qed.
Lemma layoutShapes {A} (p : rnnIn A) (t : rnnTensors A) y yh yc : rank3 t -> rightShapes false p (rewriteLayoutIn t y yh yc) -> rightShapes true p (rewriteLayoutOut t y yh yc).
Proof.
  intros (R1 & R2 & R3) (S1 & S2 & S3 & S4 & S5 & S6). unfold rightShapes. cbn [rewriteLayoutIn rewriteLayoutOut tX tH0 tC0 tY tYh tYc transposeT tShape] in *. split; [apply permute3; auto|].
  split; [intros h E; apply permute3; auto; apply (S2 (transposeT perm3RNN h)); rewrite E; reflexivity|]. split; [intros c E; apply permute3; auto; apply (S3 (transposeT perm3RNN c)); rewrite E; reflexivity|].
  rewrite S4, S5, S6. repeat split; reflexivity.
Qed.
Theorem C84_layout {A} (zero one : A) add sub mul (p : rnnIn A) (t : rnnTensors A) (y yh yc : tensor A) : rank3 t ->
  (forall tanh, isRnn zero add mul tanh false p (rewriteLayoutIn t y yh yc) -> isRnn zero add mul tanh true p (rewriteLayoutOut t y yh yc)) /\
  (forall lbr sigmoid tanh, isGru zero one add sub mul lbr sigmoid tanh false p (rewriteLayoutIn t y yh yc) -> isGru zero one add sub mul lbr sigmoid tanh true p (rewriteLayoutOut t y yh yc)) /\
  (forall P inpf sigmoid tanh tanh', isLstm zero one add sub mul P inpf sigmoid tanh tanh' false p (rewriteLayoutIn t y yh yc) -> isLstm zero one add sub mul P inpf sigmoid tanh tanh' true p (rewriteLayoutOut t y yh yc)).
Proof.
  intros R. pose proof (layoutShapes p t y yh yc R) as LS.
  split; [|split]; intros; (destruct H as [S G]; split; [apply LS, S|]); destruct t as [x [h|] [c|] ty tyh tyc]; exact G.
Qed.
(** An RNN of layout 1: batch 2, two steps, one input and one hidden unit, weights 1, identity for tanh. *)
Definition rnnP : rnnIn Z := {| seqLen := 2; batch := 2; inSize := 1; hidSize := 1; dir := Forward; X := fun _ _ _ => 0; W := fun _ _ _ => 1; R := fun _ _ _ => 1; B := None;
  h0 := None; lens := None; acts := None; clip := None |}.
Definition rnnT : rnnTensors Z := {| tX := {| tShape := [2; 2; 1]; tAt := fun i => 10 * nth 0 i 0 + nth 1 i 0 + 1 |}; tH0 := None; tC0 := None;
  tY := {| tShape := []; tAt := fun _ => 0 |}; tYh := {| tShape := []; tAt := fun _ => 0 |}; tYc := {| tShape := []; tAt := fun _ => 0 |} |}.
Definition rnnY : tensor Z := {| tShape := [2; 1; 2; 1]; tAt := fun i => if nth 0 i 0 =? 0 then 10 * nth 2 i 0 + 1 else 20 * nth 2 i 0 + 3 |}.
Definition rnnYh : tensor Z := {| tShape := [1; 2; 1]; tAt := fun i => 20 * nth 1 i 0 + 3 |}.
Example C84_layout_case : rank3 rnnT /\ isRnn 0 Z.add Z.mul (fun v => v) false rnnP (rewriteLayoutIn rnnT rnnY rnnYh rnnYh) /\ tAt (tY (rewriteLayoutOut rnnT rnnY rnnYh rnnYh)) [1; 0; 0; 0] = 11.
Proof.
  split; [repeat split; discriminate|]. split; [|reflexivity]. split; [repeat split; discriminate|].
  intros d b j Hd Hb Hj. cbn in Hd, Hb, Hj. assert (d = 0) as -> by lia. assert (j = 0) as -> by lia. assert (b = 0 \/ b = 1) as [-> | ->] by lia; (split; [reflexivity|]); intros t Ht; cbn in Ht; assert (t = 0 \/ t = 1) as [-> | ->] by lia; reflexivity.
Qed.

(** sequence_lens dropped: layout 0, the types right, the one sequence of full length. *)
Theorem C84_sequence_lens {A} (zero one : A) add sub mul (p : rnnIn A) (t : rnnTensors A) xType hType lensType l :
  rightShapes false p t -> (forall s, xType = Some s -> agrees s (tShape (tX t))) -> (hType = None <-> tH0 t = None) -> (forall s h, hType = Some (Some s) -> tH0 t = Some h -> agrees s (tShape h)) ->
  lens p = Some l -> (forall s, lensType = Some (Some s) -> agrees s [batch p]) ->
  rewriteSeqLen xType hType lensType <> Undefined /\
  (rewriteSeqLen xType hType lensType = Rewritten tt -> batch p = 1 /\
   (l 0 = seqLen p ->
    (forall tanh, isRnn zero add mul tanh false (withoutLens p) t <-> isRnn zero add mul tanh false p t) /\
    (forall lbr sigmoid tanh, isGru zero one add sub mul lbr sigmoid tanh false (withoutLens p) t <-> isGru zero one add sub mul lbr sigmoid tanh false p t) /\
    (forall P inpf sigmoid tanh tanh', isLstm zero one add sub mul P inpf sigmoid tanh tanh' false (withoutLens p) t <-> isLstm zero one add sub mul P inpf sigmoid tanh tanh' false p t))).
Proof.
  intros (S1 & S2 & _) Ax Hn Ah Hl Al.
  assert (Dim : forall T i j k s, agrees T s -> s = [i; j; k] -> exists b, dimIsOne (Some T) 1 = Some b /\ (b = true -> j = 1)).
  { intros T i j k s Ag ->. inversion Ag as [|? ? ? ? _ A1]; subst. inversion A1 as [|o ? ? ? E A2]; subst. unfold dimIsOne, zget. cbn. eexists. split; [reflexivity|].
    destruct o as [v|]; [|discriminate]. intros H. apply Z.eqb_eq in H. subst v. symmetry. apply E. reflexivity. }
  assert (DX : exists b, dimIsOne xType 1 = Some b /\ (b = true -> batch p = 1)).
  { destruct xType as [s|]; [|exists false; split; [reflexivity | discriminate]]. eapply Dim; [apply Ax; reflexivity | exact S1]. }
  assert (DH : exists b, match hType with None => Some false | Some h => dimIsOne h 1 end = Some b /\ (b = true -> batch p = 1)).
  { destruct hType as [[s|]|]; try (exists false; split; [reflexivity | discriminate]). destruct (tH0 t) as [h|] eqn:Eh; [|destruct Hn as [_ Hn]; specialize (Hn eq_refl); discriminate].
    eapply Dim; [apply (Ah s h); auto | apply S2; auto]. }
  destruct DX as (bx & EX & PX), DH as (bh & EH & PH). unfold rewriteSeqLen. rewrite EX, EH.
  assert (DL : forall lt, lensType = Some lt -> match lt with Some [Some v] => v =? 1 | _ => false end = true -> batch p = 1).
  { intros lt E H. destruct lt as [[|[v|] [|]]|]; try discriminate. specialize (Al _ E). inversion Al as [|? ? ? ? E1 _]; subst. apply Z.eqb_eq in H. subst v. symmetry. apply E1. reflexivity. }
  destruct lensType as [lt|]; [|split; discriminate]. split; [destruct (_ && _); discriminate|]. intros E.
  assert (B1 : batch p = 1). { specialize (DL lt eq_refl). destruct bx; auto. destruct bh; auto. cbn [negb andb] in E. destruct (match lt with Some [Some v] => v =? 1 | _ => false end); auto. discriminate. }
  split; auto. intros L0.
  assert (G : forall V (hid : V -> A) cell s0 q Y last, seqLen q = seqLen p -> batch q = batch p -> hidSize q = hidSize p -> dir q = dir p -> lens q = lens p ->
    (goodOutputs zero (withoutLens q) hid cell s0 Y last <-> goodOutputs zero q hid cell s0 Y last)).
  { intros V hid cell s0 q Y last Q1 Q2 Q3 Q4 Q5. unfold goodOutputs, outputsPadded, lenOf. cbn [withoutLens seqLen batch hidSize dir lens]. rewrite Q1, Q2, Q3, Q4, Q5, Hl, B1. split; intros H d b j Hd Hb Hj; assert (b = 0) as -> by lia; specialize (H d 0 j Hd Hb Hj); cbn zeta in *; rewrite L0 in *; exact H. }
  split; [|split]; intros; split; intros [S K]; (split; [exact S|]).
  - exact (proj1 (G _ _ _ _ (withInputs p (at3 false (tX t)) (option_map (at3 false) (tH0 t))) _ _ eq_refl eq_refl eq_refl eq_refl eq_refl) K).
  - exact (proj2 (G _ _ _ _ (withInputs p (at3 false (tX t)) (option_map (at3 false) (tH0 t))) _ _ eq_refl eq_refl eq_refl eq_refl eq_refl) K).
  - exact (proj1 (G _ _ _ _ (withInputs p (at3 false (tX t)) (option_map (at3 false) (tH0 t))) _ _ eq_refl eq_refl eq_refl eq_refl eq_refl) K).
  - exact (proj2 (G _ _ _ _ (withInputs p (at3 false (tX t)) (option_map (at3 false) (tH0 t))) _ _ eq_refl eq_refl eq_refl eq_refl eq_refl) K).
  - exact (proj1 (G _ _ _ _ (withInputs p (at3 false (tX t)) (option_map (at3 false) (tH0 t))) _ _ eq_refl eq_refl eq_refl eq_refl eq_refl) K).
  - exact (proj2 (G _ _ _ _ (withInputs p (at3 false (tX t)) (option_map (at3 false) (tH0 t))) _ _ eq_refl eq_refl eq_refl eq_refl eq_refl) K).
Qed.
(** A batch of one whose sequence is shorter than the input: other outputs. With layout 1 the dim read
    as the batch of initial_h is the number of directions: sequence_lens is dropped for two sequences. *)
Definition oneShort (b T : Z) (l : Z -> Z) : rnnIn Z := {| seqLen := T; batch := b; inSize := 1; hidSize := 1; dir := Forward; X := fun _ _ _ => 0; W := fun _ _ _ => 1; R := fun _ _ _ => 1; B := None;
  h0 := None; lens := Some l; acts := None; clip := None |}.
Theorem C84_sequence_lens_refuted :
  (exists (p : rnnIn Z) xType lensType l, lens p = Some l /\ batch p = 1 /\ 0 < l 0 < seqLen p /\ agrees xType [seqLen p; batch p; inSize p] /\
     rewriteSeqLen (Some xType) None (Some lensType) = Rewritten tt /\ exists t, isRnn 0 Z.add Z.mul (fun v => v) false p t /\ ~ isRnn 0 Z.add Z.mul (fun v => v) false (withoutLens p) t) /\
  (exists (p : rnnIn Z) xType hType lensType l, lens p = Some l /\ batch p = 2 /\ (forall b, 0 <= b < 2 -> 0 < l b <= seqLen p) /\ agrees xType (shape3 true (seqLen p) (batch p) (inSize p)) /\
     agrees hType (shape3 true (numDirections (dir p)) (batch p) (hidSize p)) /\ rewriteSeqLen (Some xType) (Some (Some hType)) (Some lensType) = Rewritten tt /\ l 0 < seqLen p).
Proof.
  split.
  - exists (oneShort 1 2 (fun _ => 1)), [None; Some 1; None], None, (fun _ => 1). split; [reflexivity|]. split; [reflexivity|]. split; [cbn; lia|]. split; [repeat constructor; cbn; congruence|]. split; [reflexivity|].
    exists {| tX := {| tShape := [2; 1; 1]; tAt := fun _ => 5 |}; tH0 := None; tC0 := None; tY := {| tShape := [2; 1; 1; 1]; tAt := fun i => if nth 0 i 0 =? 0 then 5 else 0 |};
      tYh := {| tShape := [1; 1; 1]; tAt := fun _ => 5 |}; tYc := {| tShape := [1; 1; 1]; tAt := fun _ => 0 |} |}. split.
    + split; [repeat split; discriminate|]. intros d b j Hd Hb Hj. cbn in Hd, Hb, Hj. assert (d = 0) as -> by lia. assert (j = 0) as -> by lia. assert (b = 0) as -> by lia. split; [reflexivity|]. intros t Ht. cbn in Ht. assert (t = 0 \/ t = 1) as [-> | ->] by lia; reflexivity.
    + intros [_ G]. destruct (G 0 0 0 ltac:(cbn; lia) ltac:(cbn; lia) ltac:(cbn; lia)) as [G1 _]. vm_compute in G1. discriminate.
  - exists (oneShort 2 3 (fun b => b + 2)), [None; None; None], [None; Some 1; None], None, (fun b => b + 2). split; [reflexivity|]. split; [reflexivity|]. split; [cbn; lia|].
    split; [repeat constructor; cbn; congruence|]. split; [repeat constructor; cbn; congruence|]. split; [reflexivity | cbn; lia].
Qed.
Example C84_sequence_lens_case : rewriteSeqLen (Some [None; None; Some 4]) None (Some (Some [Some 1])) = Rewritten tt /\ rewriteSeqLen (Some [Some 1; None; Some 4]) None (Some (Some [None])) = NoMatch.
Proof. split; reflexivity. Qed.

(** One elementwise operation before a Split instead of one after each of its results. *)
Theorem C84_split {Attr A B} (eqAttrs : Attr -> Attr -> bool) (f : Attr -> A -> B) axis sizes (x : tensor A) us :
  (forall a b, eqAttrs a b = true -> a = b) ->
  (forall a, pullUsers eqAttrs None us = Rewritten a -> forall u, In u us -> uTarget u = true /\ same (userBefore f axis sizes x u) (userAfter f axis sizes x a u)) /\
  (us <> [] -> pullUsers eqAttrs None us <> Undefined).
Proof.
  intros He. split.
  - intros a E u I. apply pullUsers_ok in E as [_ F]; auto. rewrite Forall_forall in F. destruct (F u I) as [T <-]. split; auto. split; [reflexivity|]. intros idx V. reflexivity.
  - intros N. destruct us as [|u r]; [congruence|]. cbn [pullUsers]. destruct (negb (uTarget u)); [discriminate|]. destruct (negb (uSameType u)); [discriminate|].
    generalize (uAttrs u). clear. induction r as [|u r IH]; intros a; [discriminate|]. cbn [pullUsers]. destruct (negb (uTarget u)); [discriminate|]. destruct (negb (uSameType u)); [discriminate|]. destruct (eqAttrs a (uAttrs u)); [apply IH | discriminate].
Qed.
Example C84_split_case : pullUsers Z.eqb None [{| uTarget := true; uAttrs := 7; uSameType := true; uResult := 1 |}; {| uTarget := true; uAttrs := 7; uSameType := true; uResult := 0 |}] = Rewritten 7 /\
  pullUsers Z.eqb None [{| uTarget := true; uAttrs := 7; uSameType := true; uResult := 1 |}; {| uTarget := true; uAttrs := 8; uSameType := true; uResult := 0 |}] = NoMatch.
Proof. split; reflexivity. Qed.
(** The first of no users is read. *)
Theorem C84_split_unused_refuted : exists us : list (user Z), pullUsers Z.eqb None us = Undefined.
Proof. exists []. reflexivity. Qed.

Print Assumptions C84_pow.
Print Assumptions C84_pow_refuted.
Print Assumptions C84_transpose.
Print Assumptions C84_layout.
Print Assumptions C84_sequence_lens.
Print Assumptions C84_sequence_lens_refuted.
Print Assumptions C84_split.
Print Assumptions C84_split_unused_refuted.
