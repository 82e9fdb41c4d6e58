(** The text of --shapeInformation, --shapeInformationUB and --shapeInformationLB, of the environment
    variable IMPORTER_FORCE_DYNAMIC, and what tensors a compiled model accepts as inputs. *)
From Coq Require Import ZArith Ascii String DecimalString List.
From Verif Require Import SignatureSpec.
Import ListNotations.
Open Scope Z_scope.

(** INPUT_ID: an index, a range of indices, or -1 for all inputs. *)
Inductive target := One (i : Z) | Range (first last : Z) | AllInputs.
(** INPUT_ID:D1xD2x...xDn, where -1 (None) is an unknown dim. *)
Definition setting : Type := target * list (option Z).
Definition targetText (t : target) : text :=
  match t with One i => jsonInt i | Range a b => jsonInt a ++ T "-" ++ jsonInt b | AllInputs => T "-1" end.
Definition dimText (d : option Z) : text := match d with Some z => jsonInt z | None => T "-1" end.
Definition settingText (s : setting) : text := targetText (fst s) ++ T ":" ++ join (T "x") (map dimText (snd s)).
Definition optionText (l : list setting) : text := join (T ",") (map settingText l).

Definition int32 (z : Z) : Prop := z <= 2147483647.
Definition validTarget (t : target) : Prop :=
  match t with One i => 0 <= i /\ int32 i | Range a b => 0 <= a /\ int32 a /\ 0 <= b /\ int32 b | AllInputs => True end.
Definition validSetting (s : setting) : Prop :=
  validTarget (fst s) /\ forall d, In (Some d) (snd s) -> 0 < d /\ int32 d.

(** Does a setting name input i? -1 asks for the settings of all inputs. *)
Definition names (t : target) (i : Z) : bool :=
  match t with One j => i =? j | Range a b => (a <=? i) && (i <=? b) | AllInputs => i =? -1 end.
(** The first setting that names the input counts. *)
Definition firstFor (l : list setting) (i : Z) : option (list (option Z)) := option_map snd (find (fun s => names (fst s) i) l).
(** Settings of the input go before settings of all inputs. *)
Definition settingOf (l : list setting) (i : Z) : option (list (option Z)) :=
  match firstFor l i with Some d => Some d | None => firstFor l (-1) end.
(** The first dims are those of the setting, the others stay. *)
Definition shapedAs (given : option (list (option Z))) (old new : list (option Z)) : Prop :=
  length new = length old /\
  forall k, (k < length old)%nat ->
    nth_error new k = match given with Some l => if (k <? length l)%nat then nth_error l k else nth_error old k | None => nth_error old k end.

(** IMPORTER_FORCE_DYNAMIC: inputs (-1: all) and dims (-1: all) that become unknown. *)
Definition forcing : Type := Z * list Z.
Definition forcingText (f : forcing) : text := jsonInt (fst f) ++ T ":" ++ join (T ",") (map jsonInt (snd f)).
Definition variableText (l : list forcing) : text := join (T "|") (map forcingText l).
Definition validForcing (f : forcing) : Prop := -1 <= fst f /\ int32 (fst f) /\ snd f <> [] /\ forall k, In k (snd f) -> -1 <= k /\ int32 k.
Definition forcingOf (l : list forcing) (i : Z) : option (list Z) :=
  match find (fun f => fst f =? -1) l with Some f => Some (snd f) | None => option_map snd (find (fun f => fst f =? i) l) end.
Definition forcedAs (ks : list Z) (old new : list (option Z)) : Prop :=
  length new = length old /\
  forall k, (k < length old)%nat ->
    (In (-1) ks \/ In (Z.of_nat k) ks -> nth_error new k = Some None) /\ (~ In (-1) ks /\ ~ In (Z.of_nat k) ks -> nth_error new k = nth_error old k).

(** A tensor at run time: ONNX data type and dims. *)
Record rtTensor := { rtType : Z; rtDims : list Z }.
(** onnx.proto, TensorProto.DataType. *)
Definition onnxType (e : elt) : Z :=
  match e with F32 => 1 | U8 => 2 | I8 => 3 | U16 => 4 | I16 => 5 | I32 => 6 | I64 => 7 | Str => 8 | I1 => 9 | F16 => 10 | F64 => 11 | U32 => 12 | U64 => 13 | BF16 => 16 end.
(** A tensor has the type of an input. *)
Definition hasType (a : argType) (t : rtTensor) : Prop :=
  match a with
  | Tensor e dims => rtType t = onnxType e /\ match dims with Some l => Forall2 (fun d z => match d with Some n => z = n | None => 0 <= z end) l (rtDims t) | None => Forall (fun z => 0 <= z) (rtDims t) end
  | Seq _ => False
  end.
(** Every dim of every input that a setting bounds is in the relation R with the bound; settings of the
    input and settings of all inputs both count. *)
Definition bounded (R : Z -> Z -> Prop) (l : list setting) (ts : list rtTensor) : Prop :=
  forall i t given k b z, nth_error ts i = Some t -> firstFor l (Z.of_nat i) = Some given \/ firstFor l (-1) = Some given ->
    nth_error given k = Some (Some b) -> nth_error (rtDims t) k = Some z -> R z b.
Definition acceptable (inputs : list argType) (ub lb : list setting) (ts : list rtTensor) : Prop :=
  Forall2 hasType inputs ts /\ bounded Z.le ub ts /\ bounded Z.ge lb ts.

(** Inputs the checks are made for: tensors of known rank whose element type is not string or bfloat16. *)
Definition checkable (a : argType) : Prop :=
  match a with Tensor Str _ | Tensor BF16 _ | Seq _ | Tensor _ None => False | Tensor _ (Some l) => forall n, In (Some n) l -> 0 <= n end.
(** Bounds for inputs that exist, and for no more dims than they have. *)
Definition fitsInputs (inputs : list argType) (l : list setting) : Prop :=
  forall t given, In (t, given) l ->
    (forall i, names t i = true -> 0 <= i -> i < Z.of_nat (length inputs)) /\
    (forall i e d, nth_error inputs i = Some (Tensor e (Some d)) -> names t (Z.of_nat i) = true \/ t = AllInputs -> (length given <= length d)%nat).
