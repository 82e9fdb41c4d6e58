(** The code emitted for RNN, GRU and LSTM:
    /repo/src/Conversion/ONNXToKrnl/RNN/RNNBase.hpp, RNNBase.cpp, RNN.cpp, GRU.cpp, LSTM.cpp and
    /repo/src/Conversion/ONNXConversionCommon/RNN/LSTM.cpp, for layout 0.

    A buffer is a function from positions to numbers, updated one position at a time; the content
    before the first store is given ([junk]). The products by create.onnx.matmul are [matmul]
    (their lowering is C64); Squeeze, Split and Transpose of the weights are done by indexing.
    Activation functions are arbitrary. Attributes clip and input_forget are not looked at. *)
From Coq Require Import List ZArith Bool.
From Verif Require Import Util RnnSpec.
Import ListNotations.
Open Scope Z_scope.

Definition zfor {S} (n : Z) (f : Z -> S -> S) (s : S) : S := fold_left (fun s i => f i s) (zrange n) s.
Definition loop2 {S} (n m : Z) (f : Z -> Z -> S -> S) (s : S) : S := zfor n (fun b s => zfor m (fun h s => f b h s) s) s.

Section Model.
Context {A : Type}.
Variables (zero one : A) (add sub mul : A -> A -> A).
Notation mat := (Z -> Z -> A).
Notation in_ := (rnnIn A).

Definition store2 (m : mat) (b h : Z) (v : A) : mat := fun b' h' => if (b' =? b) && (h' =? h) then v else m b' h'.
Definition store4 (m : Z -> Z -> Z -> Z -> A) (t d b h : Z) (v : A) : Z -> Z -> Z -> Z -> A :=
  fun t' d' b' h' => if (t' =? t) && (d' =? d) && (b' =? b) && (h' =? h) then v else m t' d' b' h'.
Definition matmul (n : Z) (a b : mat) : mat := fun i j => sum zero add n (fun k => mul (a i k) (b k j)).
(** RNNBase.cpp 251-286 emitXSliceAt: copied for every batch and input. *)
Definition emitXSliceAt (p : in_) (t : Z) : mat := fun b i => X p t b i.
(** RNN.cpp 130-201, GRU.cpp 165-273, LSTM.cpp 37-112: the weights of a direction (squeezed, or
    split in two then squeezed), transposed. [isForward] as in RNNBase.hpp 159-222. *)
Definition dirIndex (p : in_) (isForward : bool) : Z := if isForward then 0 else match dir p with Bidirectional => 1 | _ => 0 end.
Definition transposed (m : mat) : mat := fun k j => m j k.
(** RNNBase.cpp 77-148 initializeIntermediateStates. *)
Definition initialState (p : in_) (o : option (Z -> Z -> Z -> A)) (isForward : bool) : mat :=
  let d := if isForward then 0 else match dir p with Reverse => 0 | _ => 1 end in
  fun b h => match o with None => zero | Some f => f d b h end.
(** GRU.cpp 62-161, RNN.cpp 52-126, ONNXConversionCommon LSTM.cpp 30-154, activation names: the
    list starts with the forward ones, when there are any. *)
Definition getActivation (p : in_) (n : nat) (isForward : bool) (q : nat) (dflt : A -> A) : A -> A :=
  match acts p with
  | None => dflt
  | Some l => let startIndex := if isForward then O else match dir p with Reverse => O | _ => n end in
              if (startIndex + q <? length l)%nat then nth (startIndex + q) l dflt else dflt
  end.
(** RNNBase.cpp 288-316: the value stored in Y and the value stored in Ht. *)
Definition handleSequenceLens (p : in_) (nextHt : A) (t d b h : Z) (Ht : mat) : A * A :=
  match lens p with
  | None => (nextHt, nextHt)
  | Some lens =>
    let initial := match h0 p with None => zero | Some f => f d b h end in
    let cond := lens b <=? t in
    let next := if cond then initial else nextHt in
    (next, if cond then Ht b h else next)
  end.

(** RNNBase.hpp 159-222: one pass over the time steps per direction; [step isForward d t]. *)
Definition passes {S} (p : in_) (step : bool -> Z -> Z -> S * (Z -> Z -> Z -> Z -> A) -> S * (Z -> Z -> Z -> Z -> A))
    (fwd rev : S) (Y : Z -> Z -> Z -> Z -> A) : S * S * (Z -> Z -> Z -> Z -> A) :=
  let '(fwd, Y) := match dir p with Reverse => (fwd, Y) | _ => zfor (seqLen p) (step true 0) (fwd, Y) end in
  let '(rev, Y) := match dir p with Forward => (rev, Y) | _ =>
    zfor (seqLen p) (fun t => step false (match dir p with Reverse => 0 | _ => 1 end) (seqLen p - t - 1)) (rev, Y) end in
  (fwd, rev, Y).
(** RNNBase.cpp 214-245 stateToOutputForHiddenOrCell. *)
Definition stateToOutput (p : in_) (fwd rev : mat) : Z -> Z -> Z -> A :=
  match dir p with
  | Forward => fun _ b h => fwd b h
  | Reverse => fun _ b h => rev b h
  | Bidirectional => fun d b h => if d =? 0 then fwd b h else rev b h
  end.

(** ** RNN.cpp 306-370; an assertion rejects sequence_lens (322). *)
Definition rnnStep (p : in_) (tanh : A -> A) (isForward : bool) (d t : Z) (s : mat * (Z -> Z -> Z -> Z -> A)) : mat * (Z -> Z -> Z -> Z -> A) :=
  let (Ht, Y) := s in
  let k := dirIndex p isForward in
  let H := hidSize p in
  let XtWi := matmul (inSize p) (emitXSliceAt p t) (transposed (W p k)) in
  let HtRi := matmul H Ht (transposed (R p k)) in
  loop2 (batch p) H (fun bs hs '(Ht, Y) =>
    let nextHt := add (XtWi bs hs) (HtRi bs hs) in
    let nextHt := match B p with Some B => add (add nextHt (B k hs)) (B k (H + hs)) | None => nextHt end in
    let nextHt := getActivation p 1 isForward 0 tanh nextHt in
    (store2 Ht bs hs nextHt, store4 Y t d bs hs nextHt)) (Ht, Y).
Definition rnnLowering (p : in_) (tanh : A -> A) (junk : Z -> Z -> Z -> Z -> A) : option ((Z -> Z -> Z -> Z -> A) * (Z -> Z -> Z -> A)) :=
  match lens p with
  | Some _ => None
  | None => let '(f, r, Y) := passes p (rnnStep p tanh) (initialState p (h0 p) true) (initialState p (h0 p) false) junk in
            Some (Y, stateToOutput p f r)
  end.

(** ** GRU.cpp 396-625 *)
Definition gruStep (p : in_) (linearBeforeReset : bool) (sigmoid tanh : A -> A) (isForward : bool) (d t : Z) (s : mat * (Z -> Z -> Z -> Z -> A)) : mat * (Z -> Z -> Z -> Z -> A) :=
  let (Ht, Y) := s in
  let k := dirIndex p isForward in
  let H := hidSize p in
  let f := getActivation p 2 isForward 0 sigmoid in let g := getActivation p 2 isForward 1 tanh in
  let bias (v : A) (n hs : Z) := match B p with Some B => add v (B k (n * H + hs)) | None => v end in
  let XtWT := matmul (inSize p) (emitXSliceAt p t) (transposed (W p k)) in
  if linearBeforeReset then
    let HtRT := matmul H Ht (transposed (R p k)) in
    loop2 (batch p) H (fun bs hs '(Ht, Y) =>
      let HtVal := Ht bs hs in
      let zt := add (XtWT bs hs) (HtRT bs hs) in
      let zt := f (bias (bias zt 0 hs) 3 hs) in
      let rt := add (XtWT bs (hs + H)) (HtRT bs (hs + H)) in
      let rt := f (bias (bias rt 1 hs) 4 hs) in
      let HtRh := bias (HtRT bs (hs + 2 * H)) 5 hs in
      let ht := add (XtWT bs (hs + 2 * H)) (mul rt HtRh) in
      let ht := g (bias ht 2 hs) in
      let nextHt := add (mul (sub one zt) ht) (mul zt HtVal) in
      let '(nextHt, lastHt) := handleSequenceLens p nextHt t d bs hs Ht in
      (store2 Ht bs hs lastHt, store4 Y t d bs hs nextHt)) (Ht, Y)
  else
    let Rpart (n : Z) : mat := transposed (fun j k' => R p k (n * H + j) k') in
    let HtRz := matmul H Ht (Rpart 0) in
    let HtRr := matmul H Ht (Rpart 1) in
    let rtHt := loop2 (batch p) H (fun bs hs rtHt =>
      let rt := add (XtWT bs (hs + H)) (HtRr bs hs) in
      let rt := f (bias (bias rt 1 hs) 4 hs) in
      store2 rtHt bs hs (mul rt (Ht bs hs))) (fun _ _ => zero) in
    let rtHtRh := matmul H rtHt (Rpart 2) in
    loop2 (batch p) H (fun bs hs '(Ht, Y) =>
      let HtVal := Ht bs hs in
      let zt := add (XtWT bs hs) (HtRz bs hs) in
      let zt := f (bias (bias zt 0 hs) 3 hs) in
      let ht := add (XtWT bs (hs + 2 * H)) (rtHtRh bs hs) in
      let ht := g (bias (bias ht 2 hs) 5 hs) in
      let nextHt := add (mul (sub one zt) ht) (mul zt HtVal) in
      let '(nextHt, lastHt) := handleSequenceLens p nextHt t d bs hs Ht in
      (store2 Ht bs hs lastHt, store4 Y t d bs hs nextHt)) (Ht, Y).
Definition gruLowering (p : in_) (linearBeforeReset : bool) (sigmoid tanh : A -> A) (junk : Z -> Z -> Z -> Z -> A) : (Z -> Z -> Z -> Z -> A) * (Z -> Z -> Z -> A) :=
  let '(f, r, Y) := passes p (gruStep p linearBeforeReset sigmoid tanh) (initialState p (h0 p) true) (initialState p (h0 p) false) junk in
  (Y, stateToOutput p f r).

(** ** LSTM.cpp 291-444; sequence_lens is not looked at (305-310). *)
Definition lstmStep (q : lstmIn A) (sigmoid tanh tanh' : A -> A) (isForward : bool) (d t : Z) (s : mat * mat * (Z -> Z -> Z -> Z -> A)) : mat * mat * (Z -> Z -> Z -> Z -> A) :=
  let p := base q in
  let '(Ht, Ct, Y) := s in
  let k := dirIndex p isForward in
  let H := hidSize p in
  let f := getActivation p 3 isForward 0 sigmoid in let g := getActivation p 3 isForward 1 tanh in let h := getActivation p 3 isForward 2 tanh' in
  (* LSTM.cpp 115-237: the biases in the order Wi Wo Wf Wc Ri Ro Rf Rc, the peepholes Pi Po Pf *)
  let bias (v : A) (n hs : Z) := match B p with Some B => add v (B k (n * H + hs)) | None => v end in
  let peep (v : A) (n hs : Z) (c : A) := match P q with Some P => add v (mul (P k (n * H + hs)) c) | None => v end in
  let XtWT := matmul (inSize p) (emitXSliceAt p t) (transposed (W p k)) in
  let HtRT := matmul H Ht (transposed (R p k)) in
  loop2 (batch p) H (fun bs hs '(Ht, Ct, Y) =>
    let CtVal := Ct bs hs in
    let it := add (XtWT bs hs) (HtRT bs hs) in
    let it := f (peep (bias (bias it 0 hs) 4 hs) 0 hs CtVal) in
    let ft := add (XtWT bs (hs + 2 * H)) (HtRT bs (hs + 2 * H)) in
    let ft := f (peep (bias (bias ft 2 hs) 6 hs) 2 hs CtVal) in
    let ct := add (XtWT bs (hs + 3 * H)) (HtRT bs (hs + 3 * H)) in
    let ct := g (bias (bias ct 3 hs) 7 hs) in
    let nextCt := add (mul ft CtVal) (mul it ct) in
    let ot := add (XtWT bs (hs + H)) (HtRT bs (hs + H)) in
    let ot := f (peep (bias (bias ot 1 hs) 5 hs) 1 hs nextCt) in
    let nextHt := mul ot (h nextCt) in
    (store2 Ht bs hs nextHt, store2 Ct bs hs nextCt, store4 Y t d bs hs nextHt)) (Ht, Ct, Y).
Definition lstmLowering (q : lstmIn A) (sigmoid tanh tanh' : A -> A) (junk : Z -> Z -> Z -> Z -> A) : (Z -> Z -> Z -> Z -> A) * (Z -> Z -> Z -> A) * (Z -> Z -> Z -> A) :=
  let p := base q in
  let st isF := (initialState p (h0 p) isF, initialState p (c0 q) isF) in
  let '(f, r, Y) := passes p (fun isF d t s => let '(hc, Y) := s in let '(H, C, Y) := lstmStep q sigmoid tanh tanh' isF d t (fst hc, snd hc, Y) in ((H, C), Y)) (st true) (st false) junk in
  (Y, stateToOutput p (fst f) (fst r), stateToOutput p (snd f) (snd r)).
End Model.
