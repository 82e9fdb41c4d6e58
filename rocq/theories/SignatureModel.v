(** Signatures of entry points: their construction (src/Conversion/ONNXToKrnl/ConvertONNXToKrnl.cpp), their
    storage (src/Conversion/KrnlToLLVM/KrnlEntryPoint.cpp) and the generated functions omInputSignature
    and omOutputSignature (src/Conversion/KrnlToLLVM/ConvertKrnlToLLVM.cpp). Also the equality of strings
    in Equal (src/Conversion/ONNXToKrnl/Math/Elementwise.cpp). *)
From Coq Require Import ZArith Ascii String DecimalString Bool List.
From Verif Require Import SignatureSpec.
Import ListNotations.
Open Scope Z_scope.

(** ConvertONNXToKrnl.cpp 82-90: the element type, as MLIR prints it. *)
Definition printElt (e : elt) : text :=
  match e with
  | Str => [quote] ++ T "string" ++ [quote]
  | F16 => T "f16" | F32 => T "f32" | F64 => T "f64" | BF16 => T "bf16" | I1 => T "i1" | I8 => T "i8" | I16 => T "i16" | I32 => T "i32" | I64 => T "i64"
  | U8 => T "ui8" | U16 => T "ui16" | U32 => T "ui32" | U64 => T "ui64"
  end.
(** ConvertONNXToKrnl.cpp 92-102; kUserDynamic is -1. *)
Fixpoint printDims (comma : text) (dims : list (option Z)) : text :=
  match dims with
  | [] => []
  | d :: r => let dimSize := match d with Some z => z | None => -1 end in comma ++ T (NilZero.string_of_int (Z.to_int dimSize)) ++ printDims (T " , ") r
  end.
(** ConvertONNXToKrnl.cpp 69-112. *)
Fixpoint concatTypeString (a : argType) (name : text) : text :=
  (match a with
   | Seq et => T "   {" ++ [quote] ++ T "seq" ++ [quote] ++ T " : " ++ concatTypeString et name
   | Tensor et dims =>
       T "   { " ++ [quote] ++ T "type" ++ [quote] ++ T " : " ++ printElt et ++ T " , " ++ [quote] ++ T "dims" ++ [quote] ++ T " : [" ++
       (match dims with Some l => printDims [] l | None => [] end) ++ T "] " ++
       T ", " ++ [quote] ++ T "name" ++ [quote] ++ T " : " ++ [quote] ++ name ++ [quote]
   end) ++ T " }" ++ [nl].
(** ConvertONNXToKrnl.cpp 129-143, 149-161. *)
Fixpoint concatArgs (comma : text) (l : list (argType * text)) : text :=
  match l with [] => [] | (a, name) :: r => comma ++ concatTypeString a name ++ concatArgs (T " , ") r end.

(** ConvertONNXToKrnl.cpp 165-172: find and replace; the search goes on after as many characters as the
    word has, in the new string. None: out of fuel. *)
Fixpoint prefixb (w s : text) : bool :=
  match w, s with [], _ => true | a :: w', b :: s' => Ascii.eqb a b && prefixb w' s' | _, _ => false end.
Fixpoint replaceAll (fuel : nat) (w r s : text) : option text :=
  match fuel with
  | O => None
  | S n =>
      match s with
      | [] => Some []
      | c :: s' =>
          if prefixb w s
          then option_map (app (firstn (length w) r)) (replaceAll n w r (skipn (length w) r ++ skipn (length w) s))
          else option_map (cons c) (replaceAll n w r s')
      end
  end.
(** ConvertONNXToKrnl.cpp 178-190, in the order of the std::map. *)
Definition word (t : text) : text := T " " ++ t ++ T " ".
Definition typeMap : list (text * text) :=
  map (fun s => (word (T s), word ([quote] ++ T s ++ [quote]))) ["f16"; "f32"; "f64"; "i1"; "i16"; "i32"; "i64"; "i8"; "ui16"; "ui32"; "ui64"; "ui8"]%string.
Fixpoint replaceTypes (m : list (text * text)) (s : text) : option text :=
  match m with [] => Some s | (w, r) :: rest => match replaceAll (S (length s)) w r s with None => None | Some s' => replaceTypes rest s' end end.
(** ConvertONNXToKrnl.cpp 114-175. *)
Definition getSignature (e : entryPoint) : option text :=
  let dString := T "[ " ++ concatArgs [] (epInputs e) ++ [nl] ++ T "]" ++ [nul] ++ T "@[" ++ concatArgs [] (epOutputs e) ++ [nl] ++ T "]" ++ [nul] in
  replaceTypes typeMap dString.

(** StringRef::split: at the first occurrence. *)
Fixpoint split (c : ascii) (s : text) : text * text :=
  match s with [] => ([], []) | x :: r => if Ascii.eqb x c then ([], r) else let (a, b) := split c r in (x :: a, b) end.
(** KrnlEntryPoint.cpp 622-686: the three global constants of an entry point. *)
Record globals := { gName : text; gIn : text; gOut : text }.
Definition recordEntryPoint (e : entryPoint) : option globals :=
  match getSignature e with
  | None => None
  | Some signature => let splitSig := split "@"%char signature in
      Some {| gName := epName e ++ [nul]; gIn := fst splitSig; gOut := snd splitSig |}
  end.
Fixpoint recordAll (l : list entryPoint) : option (list globals) :=
  match l with [] => Some [] | e :: r => match recordEntryPoint e, recordAll r with Some g, Some gs => Some (g :: gs) | _, _ => None end end.

(** strlen, and strncmp of zero-terminated strings (given without the zero): is the result 0? *)
Definition strlen (s : text) : nat := length s.
Fixpoint strncmpEq (a b : text) (n : nat) : bool :=
  match n with
  | O => true
  | S m => match a, b with
           | [], [] => true
           | x :: a', y :: b' => Ascii.eqb x y && (Ascii.eqb x nul || strncmpEq a' b' m)
           | x :: _, [] | [], x :: _ => Ascii.eqb x nul
           end
  end.
(** Reading a C string from the start of a constant. *)
Fixpoint cstring (s : text) : answer :=
  match s with [] => Unterminated | c :: r => if Ascii.eqb c nul then Chars [] else match cstring r with Chars t => Chars (c :: t) | o => o end end.
(** ConvertKrnlToLLVM.cpp 418-475. [isInput]: omInputSignature. *)
Fixpoint signatureFunction (isInput : bool) (gs : list globals) (name : text) : answer :=
  match gs with
  | [] => NullPtr
  | g :: r => let len := length (gName g) in
      if strncmpEq name (gName g) len then cstring (if isInput then gIn g else gOut g) else signatureFunction isInput r name
  end.

(** Elementwise.cpp 1243-1250: Equal on strings. *)
Definition stringEqual (lhs rhs : text) : bool := strncmpEq lhs rhs (strlen lhs).
