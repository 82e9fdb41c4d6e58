(** The perfect hash table of CategoryMapper: construction in the compiler
    (src/Conversion/ONNXToKrnl/PerfectHash.cpp), lookup in the runtime
    (src/Runtime/OMIndexLookup.c), use (src/Conversion/ONNXToKrnl/ML/CategoryMapper.cpp). *)
From Coq Require Import List ZArith Bool.
From Verif Require Import Util.
Import ListNotations.
Open Scope Z_scope.

(** A string is a list of bytes 0..255.  [sgn]: plain char is signed on the
    machine that runs the code. *)
Definition bytes := list Z.
Definition prime : Z := 16777619.
Definition w32 (z : Z) : Z := z mod 2 ^ 32.
(** [hval ^= c] with a char promoted to int and converted to uint32_t. *)
Definition charZ (sgn : bool) (c : Z) : Z := if sgn && (128 <=? c) then c - 256 else c.
Definition hstep (sgn : bool) (h c : Z) : Z := Z.lxor (w32 (h * prime)) (w32 (charZ sgn c)).

(** PerfectHash.cpp:33-42; [hval] is an int32_t argument converted to uint32_t. *)
Definition hash (sgn : bool) (hval : Z) (str : bytes) : Z :=
  let h := w32 hval in
  fold_left (hstep sgn) str (if h =? 0 then prime else h).
(** OMIndexLookup.c:21-32: the length is that of a C string (up to the first NUL). *)
Fixpoint cstr (s : bytes) : bytes := match s with [] => [] | c :: r => if c =? 0 then [] else c :: cstr r end.
Definition hash_string (sgn : bool) (hval : Z) (str : bytes) : Z :=
  let h := w32 hval in
  fold_left (hstep sgn) (cstr str) (if h =? 0 then prime else h).

(** Decimal digits of [n >= 0], most significant first; 20 digits are enough for
    64-bit numbers. *)
Fixpoint digits (fuel : nat) (n : Z) : bytes :=
  match fuel with
  | O => []
  | S f => if n <? 10 then [48 + n] else digits f (n / 10) ++ [48 + n mod 10]
  end.
(** std::to_string(int64_t) and "%lld". *)
Definition to_string (v : Z) : bytes := if v <? 0 then 45 :: digits 20 (- v) else digits 20 v.
(** PerfectHash.cpp:45-47. *)
Definition hash_i64 (hval : Z) (v : Z) : Z := hash true hval (to_string v).
(** OMIndexLookup.c:35-40: snprintf into 20 bytes keeps 19 characters. *)
Definition hash_int64 (hval : Z) (v : Z) : Z := hash_string true hval (firstn 19 (to_string v)).

(** [Overflow]: a signed overflow; [Fault]: any other undefined behaviour. *)
Inductive res (A : Type) := Done (a : A) | OutOfFuel | Overflow | Fault.
Arguments Done {A} a. Arguments OutOfFuel {A}. Arguments Overflow {A}. Arguments Fault {A}.
Definition rbind {A B} (r : res A) (f : A -> res B) : res B :=
  match r with Done a => f a | OutOfFuel => OutOfFuel | Overflow => Overflow | Fault => Fault end.
Definition ofo {A} (o : option A) : res A := match o with Some a => Done a | None => Fault end.
Notation "x <~ m ;; f" := (rbind m (fun x => f)) (at level 61, m at next level, right associativity).

Section Construction.
Variable K : Type.
Variable hsh : Z -> K -> Z.            (* Utilities::hash *)
Variable keq : K -> K -> bool.         (* equality of keys (std::map) *)
(** llvm::sort by decreasing bucket size; it is not stable, so it is a parameter. *)
Variable sortB : list (list K) -> list (list K).

Definition at_ (dict : list (K * Z)) (k : K) : res Z :=
  match find (fun p => keq (fst p) k) dict with Some p => Done (snd p) | None => Fault end.

(** PerfectHash.cpp:132-134. *)
Definition mkBuckets (size : Z) (keys : list K) : option (list (list K)) :=
  foldM (fun k bs => b <- zget bs (hsh 0 k mod size) ;; zset bs (hsh 0 k mod size) (b ++ [k]))
        keys (repeat [] (Z.to_nat size)).

(** PerfectHash.cpp:150-167: the while loop; [fuel] bounds the iterations, [hval++]
    past INT32_MAX is undefined. *)
Fixpoint search (fuel : nat) (size : Z) (V : list Z) (bucket : list K) (hval : Z) (item : nat) (slots : list Z) : res (Z * list Z) :=
  if (item <? length bucket)%nat then
    match fuel with
    | O => OutOfFuel
    | S f =>
        k <~ ofo (nth_error bucket item) ;;
        let slot := hsh hval k mod size in
        v <~ ofo (zget V slot) ;;
        if negb (v =? -1) || existsb (Z.eqb slot) slots then
          if hval + 1 <? 2 ^ 31 then search f size V bucket (hval + 1) 0 [] else Overflow
        else search f size V bucket hval (S item) (slots ++ [slot])
    end
  else Done (hval, slots).

(** PerfectHash.cpp:170-171. *)
Fixpoint place (dict : list (K * Z)) (V : list Z) (slots : list Z) (bucket : list K) : res (list Z) :=
  match bucket with
  | [] => Done V
  | k :: bucket' =>
      match slots with
      | [] => Fault
      | s :: slots' => v <~ at_ dict k ;; V' <~ ofo (zset V s v) ;; place dict V' slots' bucket'
      end
  end.

(** PerfectHash.cpp:142-175; the result contains the buckets from biMax on. *)
Fixpoint loop1 (fuel : nat) (size : Z) (dict : list (K * Z)) (bs : list (list K)) (G V : list Z) : res (list (list K) * list Z * list Z) :=
  match bs with
  | [] => Done ([], G, V)
  | bucket :: rest =>
      match bucket with
      | [] | [_] => Done (bs, G, V)
      | b0 :: _ =>
          hs <~ search fuel size V bucket 1 0 [] ;;
          G' <~ ofo (zset G (hsh 0 b0 mod size) (fst hs)) ;;
          V' <~ place dict V (snd hs) bucket ;;
          match rest with
          | [] => Done (bs, G', V')      (* biMax stays at the last bucket *)
          | _ => loop1 fuel size dict rest G' V'
          end
      end
  end.

(** PerfectHash.cpp:187-201; [freeList] reversed, so that back() is its head. *)
Fixpoint loop2 (size : Z) (dict : list (K * Z)) (bs : list (list K)) (free G V : list Z) : res (list Z * list Z) :=
  match bs with
  | [] => Done (G, V)
  | [] :: _ => Done (G, V)
  | (b0 :: _) :: rest =>
      match free with
      | [] => Fault
      | slot :: free' =>
          G' <~ ofo (zset G (hsh 0 b0 mod size) (- slot - 1)) ;;
          v <~ at_ dict b0 ;;
          V' <~ ofo (zset V slot v) ;;
          loop2 size dict rest free' G' V'
      end
  end.

(** PerfectHash.cpp:110-202. *)
Definition createPerfectHash (fuel : nat) (dict : list (K * Z)) : res (list Z * list Z) :=
  let size := Z.of_nat (length dict) in
  match dict with
  | [] => Fault
  | _ =>
      bs <~ ofo (mkBuckets size (map fst dict)) ;;
      r <~ loop1 fuel size dict (sortB bs) (repeat 0 (length dict)) (repeat (-1) (length dict)) ;;
      let '(rest, G, V) := r in
      let freeList := filter (fun i => match zget V i with Some v => v =? -1 | None => false end) (zrange size) in
      loop2 size dict rest (rev freeList) G V
  end.
End Construction.

(** OMIndexLookup.c:48-55 and 63-70: [find_index_str], [find_index_i64] with the
    hash of the key; a failing assertion or an access out of bounds is [None]. *)
Definition find_index {K} (hsh : Z -> K -> Z) (k : K) (G V : list Z) (dictSize : Z) : option Z :=
  if 0 <? dictSize then
    d <- zget G (hsh 0 k mod dictSize) ;;
    index <- (if d <? 0 then zget V (- d - 1) else zget V (hsh d k mod dictSize)) ;;
    if (0 <=? index) && (index <? dictSize) then Some index else None
  else None.
Definition find_index_str (sgn : bool) := find_index (hash_string sgn).
Definition find_index_i64 := find_index hash_int64.

(** CategoryMapper.cpp:219-225, 234-240: later entries replace earlier ones. *)
Fixpoint indexed {K} (i : Z) (cats : list K) : list (K * Z) :=
  match cats with [] => [] | c :: r => (c, i) :: indexed (i + 1) r end.
Definition mapDict {K} (keq : K -> K -> bool) (cats : list K) : list (K * Z) :=
  fold_left (fun d p => filter (fun q => negb (keq (fst q) (fst p))) d ++ [p]) (indexed 0 cats) [].

(** strncmp(a, b, n) = 0 on C strings. *)
Fixpoint strncmp0 (a b : bytes) (n : nat) : bool :=
  match n with
  | O => true
  | S n' =>
      match a, b with
      | [], [] => true
      | x :: a', y :: b' => (x =? y) && strncmp0 a' b' n'
      | _, _ => false
      end
  end.

(** CategoryMapper.cpp:304-338 and 347-390: int64 input, string input.  [outs] is
    the other list of categories, [dflt] the default. *)
Definition mapInt {B} (cats : list Z) (outs : list B) (dflt : B) (G V : list Z) (x : Z) : option B :=
  index <- find_index_i64 x G V (Z.of_nat (length G)) ;;
  c <- zget cats index ;;
  if x =? c then zget outs index else Some dflt.
Definition mapStr {B} (sgn : bool) (cats : list bytes) (outs : list B) (dflt : B) (G V : list Z) (x : bytes) : option B :=
  index <- find_index_str sgn x G V (Z.of_nat (length G)) ;;
  c <- zget cats index ;;
  if strncmp0 x c (length c) then zget outs index else Some dflt.
