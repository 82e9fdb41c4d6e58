(** The shape information options (parseShapeInformation in src/Support/TypeUtilities.cpp), the shapes of
    inputs (src/Builder/ModelInputShaper.cpp) and the verification of input tensors
    (src/Conversion/KrnlToLLVM/KrnlEntryPoint.cpp). *)
From Coq Require Import ZArith Ascii String Bool List.
From Verif Require Import SignatureSpec SignatureModel InputShapeSpec.
Import ListNotations.
Open Scope Z_scope.

(** std::stoi: white space, a sign, digits (what follows them is ignored). None: it throws, as there is no
    digit or the number is not an int. *)
Definition digitOf (c : ascii) : option Z :=
  let n := Z.of_nat (nat_of_ascii c) in if (48 <=? n) && (n <=? 57) then Some (n - 48) else None.
Fixpoint readDigits (acc : Z) (s : text) : Z :=
  match s with [] => acc | c :: r => match digitOf c with Some d => readDigits (10 * acc + d) r | None => acc end end.
Definition readNumber (s : text) : option Z :=
  match s with [] => None | c :: _ => match digitOf c with Some _ => Some (readDigits 0 s) | None => None end end.
Fixpoint skipSpace (s : text) : text :=
  match s with c :: r => if Ascii.eqb c " " || ((9 <=? nat_of_ascii c) && (nat_of_ascii c <=? 13))%nat then skipSpace r else s | [] => [] end.
Definition stoi (s : text) : option Z :=
  match (match skipSpace s with
         | c :: r => if Ascii.eqb c "-" then option_map Z.opp (readNumber r) else if Ascii.eqb c "+" then readNumber r else readNumber (c :: r)
         | [] => None
         end) with
  | Some z => if (-2147483648 <=? z) && (z <=? 2147483647) then Some z else None
  | None => None
  end.

(** std::getline in a loop: pieces between separators, without an empty last one. *)
Fixpoint getlines (sep : ascii) (cur : text) (s : text) : list text :=
  match s with
  | [] => match cur with [] => [] | _ => [cur] end
  | c :: r => if Ascii.eqb c sep then cur :: getlines sep [] r else getlines sep (cur ++ [c]) r
  end.
(** s.substr(0, pos) and s.substr(pos + 1) with pos = s.find(c): both are s when c does not occur (npos + 1
    is 0). *)
Fixpoint has (c : ascii) (s : text) : bool := match s with [] => false | x :: r => Ascii.eqb x c || has c r end.
Definition cut (c : ascii) (s : text) : text * text := if has c s then split c s else (s, s).

(** std::map, as an association list in the order of insertion; the order plays a part only in which of
    several messages is printed first. *)
Definition infoMap := list (Z * list (option Z)).
Fixpoint lookup {A} (m : list (Z * A)) (k : Z) : option A := match m with [] => None | (j, v) :: r => if j =? k then Some v else lookup r k end.
Definition insertNew {A} (m : list (Z * A)) (k : Z) (v : A) : list (Z * A) := match lookup m k with Some _ => m | None => m ++ [(k, v)] end.

(** TypeUtilities.cpp 136-144. None: an assertion fails or stoi throws. *)
Fixpoint parseDims (l : list text) : option (list (option Z)) :=
  match l with
  | [] => Some []
  | s :: r => match stoi s with
              | Some n => if (n =? -1) || (0 <? n) then option_map (cons (if n =? -1 then None else Some n)) (parseDims r) else None
              | None => None
              end
  end.
(** TypeUtilities.cpp 147-171: the input indices. *)
Definition count (c : ascii) (s : text) : nat := length (filter (fun x => Ascii.eqb x c) s).
Definition parseIDs (inputString : text) : option (list Z) :=
  if negb (count "-" inputString <=? 1)%nat then None else
  let (startString, endString) := cut "-" inputString in
  match endString with
  | [] => None
  | _ =>
      match startString with
      | _ :: _ =>
          match stoi startString, stoi endString with
          | Some startID, Some endID =>
              if (0 <=? startID) && (0 <=? endID) then Some (map (fun k => startID + Z.of_nat k) (seq 0 (Z.to_nat (endID - startID + 1)))) else None
          | _, _ => None
          end
      | [] => match stoi inputString with Some inputID => if (0 <=? inputID) || (inputID =? -1) then Some [inputID] else None | None => None end
      end
  end.
(** TypeUtilities.cpp 130-177. *)
Fixpoint parseAll (m : infoMap) (l : list text) : option infoMap :=
  match l with
  | [] => Some m
  | s :: r => let (inputString, dimString) := cut ":" s in
      match parseDims (getlines "x" [] dimString), parseIDs inputString with
      | Some dims, Some ids => parseAll (fold_left (fun m i => insertNew m i dims) ids m) r
      | _, _ => None
      end
  end.
(** TypeUtilities.cpp 108-180. *)
Definition parseShapeInformation (s : text) : option infoMap := parseAll [] (getlines "," [] s).

(** ModelInputShaper.cpp 26-53: the environment variable. *)
Fixpoint parseInts (l : list text) : option (list Z) :=
  match l with [] => Some [] | s :: r => match stoi s, parseInts r with Some n, Some ns => Some (n :: ns) | _, _ => None end end.
Fixpoint parseForced (m : list (Z * list Z)) (l : list text) : option (list (Z * list Z)) :=
  match l with
  | [] => Some m
  | s :: r => let (inputString, dimString) := cut ":" s in
      match parseInts (getlines "," [] dimString), stoi inputString with
      | Some dims, Some i => parseForced (insertNew m i (match dims with [] => [-1] | _ => dims end)) r
      | _, _ => None
      end
  end.
Definition forcedDims (env : text) : option (list (Z * list Z)) :=
  match parseForced [] (getlines "|" [] env) with Some [] => Some [(-1, [-1])] | o => o end.

(** ModelInputShaper.cpp 61-75. *)
Fixpoint forceShape (i : Z) (shape : list (option Z)) (ks : list Z) : list (option Z) :=
  match shape with [] => [] | d :: r => (if existsb (Z.eqb (-1)) ks || existsb (Z.eqb i) ks then None else d) :: forceShape (i + 1) r ks end.
(** ModelInputShaper.cpp 107-115. *)
Fixpoint customDims (userDims origDims : list (option Z)) : list (option Z) :=
  match origDims, userDims with
  | [], _ => []
  | o :: os, u :: us => u :: customDims us os
  | o :: os, [] => o :: customDims [] os
  end.
(** ModelInputShaper.cpp 78-122, for an input of known rank. forced: None when IMPORTER_FORCE_DYNAMIC is
    not set. *)
Definition reshape (forced : option (list (Z * list Z))) (info : infoMap) (inputIndex : Z) (origDims : list (option Z)) : list (option Z) :=
  let custom :=
    match lookup info inputIndex with
    | Some userDims => customDims userDims origDims
    | None => match lookup info (-1) with Some userDims => customDims userDims origDims | None => origDims end
    end in
  match forced with
  | Some m => match lookup m (-1) with
              | Some ks => forceShape 0 origDims ks
              | None => match lookup m inputIndex with Some ks => forceShape 0 origDims ks | None => custom end
              end
  | None => custom
  end.

(** The entry point fails to compile (or has undefined behaviour), returns NULL with errno EINVAL, or goes
    on to run the model. *)
Inductive verdict := Broken | Rejected | Accepted.
Definition check (b : bool) (rest : verdict) : verdict := if b then rest else Rejected.

(** OpHelper.cpp 682-746. *)
Definition mlirTypeToOnnxType (e : elt) : Z :=
  match e with Str => 8 | BF16 => 16 | F16 => 10 | F32 => 1 | F64 => 11 | I1 => 9 | I8 => 3 | U8 => 2 | I16 => 5 | U16 => 4 | I32 => 6 | U32 => 12 | I64 => 7 | U64 => 13 end.
(** KrnlEntryPoint.cpp 437-440, 466-468: the JSON text lists, for each input, a type and dims; bfloat16 is
    not quoted, so that the text is not JSON; sequences have no "type". The JSON parser itself is not
    modelled. *)
Definition jsonItem (a : argType) : option (elt * list Z) :=
  match a with
  | Tensor BF16 _ | Seq _ => None
  | Tensor e dims => Some (e, map (fun d => match d with Some z => z | None => -1 end) (match dims with Some l => l | None => [] end))
  end.
Fixpoint jsonItems (l : list argType) : option (list (elt * list Z)) :=
  match l with [] => Some [] | a :: r => match jsonItem a, jsonItems r with Some x, Some xs => Some (x :: xs) | _, _ => None end end.
(** KrnlEntryPoint.cpp 499-538. *)
Fixpoint verifyDims (dims actual : list Z) : bool :=
  match dims, actual with
  | d :: ds, a :: r => (if d =? -1 then negb (a <? 0) else d =? a) && verifyDims ds r
  | _, _ => true
  end.
(** KrnlEntryPoint.cpp 464-539; parseType fails on "string", and the data type is not checked. *)
Definition verifyTensor (item : elt * list Z) (t : rtTensor) : bool :=
  (match fst item with Str => true | e => mlirTypeToOnnxType e =? rtType t end) &&
  (length (snd item) =? length (rtDims t))%nat && verifyDims (snd item) (rtDims t).
Fixpoint verifyTensors (items : list (elt * list Z)) (ts : list rtTensor) : bool :=
  match items, ts with
  | item :: items', t :: ts' => verifyTensor item t && verifyTensors items' ts'
  | _, _ => true
  end.
(** KrnlEntryPoint.cpp 594-617. *)
Fixpoint checkBounds (upper : bool) (bounds : list (option Z)) (actual : list Z) : bool :=
  match bounds, actual with
  | b :: bs, a :: r => (match b with None => true | Some n => if upper then negb (n <? a) else negb (n >? a) end) && checkBounds upper bs r
  | _, _ => true
  end.
(** KrnlEntryPoint.cpp 562-575: the inputs of an entry of the map. *)
Definition inputIDs (inputNum : nat) (k : Z) : list Z := if k =? -1 then map Z.of_nat (seq 0 inputNum) else [k].
(** KrnlEntryPoint.cpp 577-592, at compile time. *)
Definition boundCompiles (items : list (elt * list Z)) (bounds : list (option Z)) (i : Z) : bool :=
  match nth_error items (Z.to_nat i) with Some item => (length bounds <=? length (snd item))%nat | None => false end.
(** At run time; the inputs are as many as the items when this runs. *)
Definition boundHolds (upper : bool) (ts : list rtTensor) (bounds : list (option Z)) (i : Z) : bool :=
  match nth_error ts (Z.to_nat i) with Some t => checkBounds upper bounds (rtDims t) | None => true end.
Definition forEntries (m : infoMap) (n : nat) (f : list (option Z) -> Z -> bool) : bool :=
  forallb (fun p => forallb (f (snd p)) (inputIDs n (fst p))) m.
(** KrnlEntryPoint.cpp 428-620, called at 191-206. *)
Definition verifyInputs (inputs : list argType) (ub lb : text) (ts : list rtTensor) : verdict :=
  match jsonItems inputs, parseShapeInformation ub, parseShapeInformation lb with
  | Some items, Some mu, Some ml =>
      let n := length items in
      if negb (forEntries mu n (boundCompiles items) && forEntries ml n (boundCompiles items)) then Broken else
      check (n =? length ts)%nat (check (verifyTensors items ts)
        (check (forEntries mu n (boundHolds true ts)) (check (forEntries ml n (boundHolds false ts)) Accepted)))
  | _, _, _ => Broken
  end.
