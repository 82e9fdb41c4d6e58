(** The signatures a compiled model reports: JSON texts that list the element type, dims and name of each
    input (output) of an entry point. *)
From Coq Require Import ZArith Ascii String DecimalString List.
Import ListNotations.
Open Scope Z_scope.

Definition text := list ascii.
Definition T (s : string) : text := list_ascii_of_string s.
Definition nl : ascii := ascii_of_nat 10.
Definition nul : ascii := ascii_of_nat 0.
Definition quote : ascii := """"%char.
Definition backslash : ascii := "\"%char.

Inductive elt := F16 | F32 | F64 | BF16 | I1 | I8 | I16 | I32 | I64 | U8 | U16 | U32 | U64 | Str.
(** A tensor, its dims when the rank is known (None: unknown dim), or a sequence. *)
Inductive argType := Tensor (e : elt) (dims : option (list (option Z))) | Seq (a : argType).
Record entryPoint := { epName : text; epInputs : list (argType * text); epOutputs : list (argType * text) }.

(** JSON strings: quotes and backslashes are escaped (control characters are not considered). *)
Definition jsonString (s : text) : text :=
  quote :: flat_map (fun c => if Ascii.eqb c quote || Ascii.eqb c backslash then [backslash; c] else [c])%bool s ++ [quote].
Definition jsonInt (z : Z) : text := T (NilZero.string_of_int (Z.to_int z)).
Definition typeName (e : elt) : text :=
  T match e with F16 => "f16" | F32 => "f32" | F64 => "f64" | BF16 => "bf16" | I1 => "i1" | I8 => "i8" | I16 => "i16" | I32 => "i32" | I64 => "i64"
    | U8 => "ui8" | U16 => "ui16" | U32 => "ui32" | U64 => "ui64" | Str => "string" end.
Fixpoint join (sep : text) (l : list text) : text :=
  match l with [] => [] | [x] => x | x :: r => x ++ sep ++ join sep r end.
(** Unknown dims are -1; no dims are listed when the rank is unknown. *)
Definition jsonDims (d : option (list (option Z))) : text :=
  join (T " , ") (map (fun o => jsonInt (match o with Some z => z | None => -1 end)) (match d with Some l => l | None => [] end)).
(** The JSON object of an argument (the spaces do not matter to JSON). *)
Fixpoint jsonArg (a : argType) (name : text) : text :=
  match a with
  | Tensor e d => T "   { " ++ jsonString (T "type") ++ T " : " ++ jsonString (typeName e) ++ T " , " ++ jsonString (T "dims") ++ T " : [" ++ jsonDims d ++ T "] , " ++ jsonString (T "name") ++ T " : " ++ jsonString name ++ T " }" ++ [nl]
  | Seq b => T "   {" ++ jsonString (T "seq") ++ T " : " ++ jsonArg b name ++ T " }" ++ [nl]
  end.
Definition jsonArgs (l : list (argType * text)) : text := join (T " , ") (map (fun p => jsonArg (fst p) (snd p)) l) ++ [nl] ++ T "]".
Definition inputSignature (e : entryPoint) : text := T "[ " ++ jsonArgs (epInputs e).
Definition outputSignature (e : entryPoint) : text := T "[" ++ jsonArgs (epOutputs e).

(** What the caller of a signature function gets: a null pointer, a string, or a pointer to characters
    without a final zero. *)
Inductive answer := NullPtr | Chars (s : text) | Unterminated.

(** Element types the compiler quotes. *)
Definition listedTypes : list text := map typeName [F16; F32; F64; I1; I16; I32; I64; I8; U16; U32; U64; U8].
(** Names that are copied as they are: no quote, backslash or zero, and no type name between spaces. *)
Definition plainName (s : text) : Prop :=
  ~ In quote s /\ ~ In backslash s /\ ~ In nul s /\ forall b p q, In b listedTypes -> s <> p ++ (" "%char :: b ++ [" "%char]) ++ q.
Fixpoint hasBF16 (a : argType) : bool := match a with Tensor BF16 _ => true | Tensor _ _ => false | Seq b => hasBF16 b end.
