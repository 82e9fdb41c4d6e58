(** Constants kept in a file: the runtime that loads them
    (src/Runtime/OMExternalConstant.c) and the part of the compiler that packs them and
    emits the loading code (src/Conversion/KrnlToLLVM/ConvertKrnlToLLVM.cpp).

    The operating system is a record of oracles, one per call.  Memory is a list of blocks
    (a mapping or an allocation each); a byte that cannot be read is [None].  [None] as the
    result of a call is undefined behaviour. *)
From Coq Require Import String List ZArith Bool Lia.
From Verif Require Import Util.
Import ListNotations.
Open Scope Z_scope.
Open Scope list_scope.

(** OMExternalConstant.c:34-35. *)
Definition CHUNK_SIZE : Z := 1073741824.
Definition PAGESIZE_IN_BYTES : Z := 4096.

(** ** Memory *)
(** One mapping or allocation: start address, whether it is still allocated, contents. *)
Record block := { bAddr : Z; bLive : bool; bData : list (option Z) }.
(** A pointer: null, into a block, or arithmetic on null (OMExternalConstant.c:171). *)
Inductive ptr := PNull | PBlk (b : nat) (off : Z) | PWild (a : Z).
(** The heap, and the global variables of type void* that the calls are given. *)
Record state := { heap : list block; slot : nat -> ptr }.
Definition setSlot (s : state) (c : nat) (p : ptr) : state :=
  {| heap := heap s; slot := fun c' => if Nat.eqb c' c then p else slot s c' |}.
Definition setHeap (s : state) (h : list block) : state := {| heap := h; slot := slot s |}.
Definition free (s : state) (b : nat) : option state :=
  match nth_error (heap s) b with
  | Some k => if bLive k then Some (setHeap s (upd b {| bAddr := bAddr k; bLive := false; bData := bData k |} (heap s))) else None
  | None => None
  end.

(** ** The operating system during one call.
    [readCap i] is what the i-th read gives: an error (a signal, an I/O error), or at most
    that many bytes plus one.  A read of a regular file gives 0 only at its end. *)
Record os := {
  sysLE : bool;
  constantPath : option string;          (* getenv("OM_CONSTANT_PATH") *)
  mallocOk : bool;                       (* malloc of the path *)
  fileAt : string -> option (list Z);    (* open: the contents found *)
  mapPage : option Z;                    (* mmap: the page it maps to *)
  memPage : option Z;                    (* posix_memalign: the page it allocates at *)
  readCap : nat -> option nat }.

(** ** mallocAndReadFile, OMExternalConstant.c:203-249 *)
(** Store [d] at position [a] of a buffer. *)
Definition blit (buf : list (option Z)) (a : Z) (d : list Z) : option (list (option Z)) :=
  if (0 <=? a) && (a + Z.of_nat (length d) <=? Z.of_nat (length buf))
  then Some (firstn (Z.to_nat a) buf ++ map Some d ++ skipn (Z.to_nat a + length d) buf)
  else None.
Inductive reading := ReadOk (i : nat) (pos : Z) (buf : list (option Z)) | ReadFailed | ReadOverrun | ReadFuel.
(** The inner loop, lines 222-241. [pos] is the file position. *)
Fixpoint readChunk (fuel : nat) (o : nat -> option nat) (file : list Z) (offset chunkSize : Z)
    (i : nat) (pos totalRead : Z) (buf : list (option Z)) : reading :=
  if totalRead <? chunkSize then
    match fuel with
    | O => ReadFuel
    | S f =>
        match o i with
        | None => ReadFailed
        | Some k =>
            let n := Z.min (Z.min (chunkSize - totalRead) (Z.of_nat (S k))) (Z.of_nat (length file) - pos) in
            if n <=? 0 then ReadFailed
            else match blit buf (offset + totalRead) (firstn (Z.to_nat n) (skipn (Z.to_nat pos) file)) with
                 | None => ReadOverrun
                 | Some buf' => readChunk f o file offset chunkSize (S i) (pos + n) (totalRead + n) buf'
                 end
        end
    end
  else ReadOk i pos buf.
(** The outer loop, lines 217-246. *)
Fixpoint readAll (fuel : nat) (o : nat -> option nat) (file : list Z)
    (i : nat) (pos remaining offset : Z) (buf : list (option Z)) : reading :=
  if 0 <? remaining then
    match fuel with
    | O => ReadFuel
    | S f =>
        let chunkSize := if CHUNK_SIZE <? remaining then CHUNK_SIZE else remaining in
        match readChunk (Z.to_nat chunkSize) o file offset chunkSize i pos 0 buf with
        | ReadOk i' pos' buf' => readAll f o file i' pos' (remaining - chunkSize) (offset + chunkSize) buf'
        | r => r
        end
    end
  else ReadOk i pos buf.
(** The result is (failed, state). free(constAddr[0]) leaves constAddr[0] as it is. *)
Definition mallocAndReadFile (e : os) (s : state) (c : nat) (file : list Z) (fileSize : Z) : option (bool * state) :=
  match memPage e with
  | None => Some (true, s)
  | Some pg =>
      let b := length (heap s) in
      let blk := {| bAddr := PAGESIZE_IN_BYTES * pg; bLive := true; bData := repeat None (Z.to_nat fileSize) |} in
      let s1 := setSlot (setHeap s (heap s ++ [blk])) c (PBlk b 0) in
      match readAll (Z.to_nat fileSize) (readCap e) file O 0 fileSize 0 (bData blk) with
      | ReadOk _ _ buf => Some (false, setHeap s1 (upd b {| bAddr := bAddr blk; bLive := true; bData := buf |} (heap s1)))
      | ReadFailed => s2 <- free s1 b ;; Some (true, s2)
      | ReadOverrun | ReadFuel => None
      end
  end.

(** ** mmapAndReadFile, OMExternalConstant.c:261-276 *)
(** What a mapping of [size] bytes of a file shows: the bytes of the file, zeros up to the
    end of its last page, and bytes that raise a bus error beyond. Changes made to the file
    after the call are not modelled. *)
Definition mapped (file : list Z) (size : Z) : list (option Z) :=
  let len := Z.of_nat (length file) in
  let pad := (- len) mod PAGESIZE_IN_BYTES in
  firstn (Z.to_nat size) (map Some file ++ repeat (Some 0) (Z.to_nat pad) ++ repeat None (Z.to_nat size)).
Definition mapBlock (pg : Z) (file : list Z) (size : Z) : block :=
  {| bAddr := PAGESIZE_IN_BYTES * pg; bLive := true; bData := mapped file size |}.
Definition mmapAndReadFile (e : os) (s : state) (c : nat) (file : list Z) (fileSize : Z) : option (bool * state) :=
  match mapPage e with
  | None => Some (true, s)
  | Some pg => Some (false, setSlot (setHeap s (heap s ++ [mapBlock pg file fileSize])) c (PBlk (length (heap s)) 0))
  end.

(** ** The three entry points *)
(** checkEndianness, OMExternalConstant.c:47-52: the argument is passed as a char. *)
Definition checkEndianness (sys : bool) (isLE : Z) : bool := Bool.eqb sys (negb (isLE mod 256 =? 0)).
(** Lines 93-111: the path, or a failed malloc. *)
Definition filePath (e : os) (fname : string) : option string :=
  match constantPath e with
  | Some base => if mallocOk e then Some (String.append base (String.append "/" fname)) else None
  | None => Some fname
  end.
(** __MVS__ chooses the malloc path, lines 124-128. *)
Inductive platform := UseMalloc | UseMmap.
(** omLoadConstantData, lines 70-147. A null constAddr is [None]. *)
Definition omLoadConstantData (pl : platform) (e : os) (s : state) (constAddr : option nat) (fname : string) (size isLE : Z)
  : option (bool * state) :=
  match constAddr with
  | None => Some (false, s)
  | Some c =>
      if size <=? 0 then Some (false, s) else
      match slot s c with
      | PBlk _ _ | PWild _ => Some (true, s)
      | PNull =>
          if checkEndianness (sysLE e) isLE then
            match filePath e fname with
            | None => Some (false, s)
            | Some path =>
                match fileAt e path with
                | None => Some (false, s)
                | Some file =>
                    r <- (match pl with UseMalloc => mallocAndReadFile | UseMmap => mmapAndReadFile end) e s c file size ;;
                    Some (negb (fst r), snd r)
                end
            end
          else Some (false, s)
      end
  end.
(** omGetExternalConstantAddr, lines 157-172. Arithmetic on null gives a pointer that is
    null only for offset 0. *)
Definition ptrAdd (p : ptr) (off : Z) : ptr :=
  match p with
  | PBlk b o => PBlk b (o + off)
  | PNull => if off =? 0 then PNull else PWild off
  | PWild a => PWild (a + off)
  end.
Definition omGetExternalConstantAddr (s : state) (outputAddr baseAddr : option nat) (offset : Z) : state :=
  match outputAddr, baseAddr with
  | Some o, Some b =>
      match slot s o with
      | PNull => setSlot s o (ptrAdd (slot s b) offset)
      | _ => s
      end
  | _, _ => s
  end.
(** omUnloadConstantData, lines 181-193. Unmapping or freeing anything but a whole live
    block is undefined. *)
Definition omUnloadConstantData (s : state) (constAddr : option nat) (size : Z) : option (bool * state) :=
  match constAddr with
  | None => Some (false, s)
  | Some c =>
      match slot s c with
      | PNull => Some (false, s)
      | PBlk b 0 => s' <- free s b ;; Some (true, s')
      | _ => None
      end
  end.

(** ** Histories of calls *)
Inductive call :=
| Load (e : os) (c : option nat) (fname : string) (size isLE : Z)
| GetAddr (out base : option nat) (offset : Z)
| Unload (c : option nat) (size : Z).
Definition runCall (pl : platform) (k : call) (s : state) : option (bool * state) :=
  match k with
  | Load e c fname size isLE => omLoadConstantData pl e s c fname size isLE
  | GetAddr o b off => Some (true, omGetExternalConstantAddr s o b off)
  | Unload c size => omUnloadConstantData s c size
  end.
Fixpoint runCalls (pl : platform) (ks : list call) (s : state) : option (list bool * state) :=
  match ks with
  | [] => Some ([], s)
  | k :: r => x <- runCall pl k s ;; y <- runCalls pl r (snd x) ;; Some (fst x :: fst y, snd y)
  end.
(** When the library is loaded every global is null (ConvertKrnlToLLVM.cpp:605-616,
    KrnlGlobal.cpp:228-238). *)
Definition initial (h : list block) : state := {| heap := h; slot := fun _ => PNull |}.

(** ** Several threads loading the same constant (the claim at OMExternalConstant.c:259).
    A load is three steps on the mmap path (the test of line 83, the mmap of line 265, the
    store of line 274) and, on the malloc path, the test, the allocation that also stores
    the pointer (line 206), and the reads. *)
Inductive thread :=
| TStart (e : os) | TTested (e : os) | TMapped (p : ptr) | TAllocated (e : os) (b : nat) | TDone (ok : bool).
Definition threadStep (pl : platform) (c : nat) (file : list Z) (size : Z) (t : thread) (s : state) : option (thread * state) :=
  match t with
  | TStart e => match slot s c with PNull => Some (TTested e, s) | _ => Some (TDone true, s) end
  | TTested e =>
      match pl with
      | UseMmap => match mapPage e with
                   | None => Some (TDone false, s)
                   | Some pg => Some (TMapped (PBlk (length (heap s)) 0), setHeap s (heap s ++ [mapBlock pg file size]))
                   end
      | UseMalloc => match memPage e with
                     | None => Some (TDone false, s)
                     | Some pg => Some (TAllocated e (length (heap s)),
                         setSlot (setHeap s (heap s ++ [{| bAddr := PAGESIZE_IN_BYTES * pg; bLive := true; bData := repeat None (Z.to_nat size) |}]))
                                 c (PBlk (length (heap s)) 0))
                     end
      end
  | TMapped p => Some (TDone true, setSlot s c p)
  | TAllocated e b =>
      match readAll (Z.to_nat size) (readCap e) file O 0 size 0 (repeat None (Z.to_nat size)), nth_error (heap s) b with
      | ReadOk _ _ buf, Some k => Some (TDone true, setHeap s (upd b {| bAddr := bAddr k; bLive := bLive k; bData := buf |} (heap s)))
      | ReadFailed, Some _ => s' <- free s b ;; Some (TDone false, s')
      | _, _ => None
      end
  | TDone _ => Some (t, s)
  end.
(** A schedule names the thread that makes each step. *)
Fixpoint runThreads (pl : platform) (c : nat) (file : list Z) (size : Z) (sched : list nat) (ts : list thread) (s : state)
  : option (list thread * state) :=
  match sched with
  | [] => Some (ts, s)
  | n :: r =>
      match nth_error ts n with
      | None => None
      | Some t => x <- threadStep pl c file size t s ;; runThreads pl c file size r (upd n (fst x) ts) (snd x)
      end
  end.

(** ** The compiler: extractConstantsToFile, ConvertKrnlToLLVM.cpp:481-619 *)
(** A constant of the module: its name, raw bytes, alignment, and the facts lines 500-527
    look at; [kOffset] is set when it has been moved to the file. *)
Record konst := {
  kName : string; kRaw : list Z; kAlign : option Z;
  kReturned : bool; kBool : bool; kSplat : bool }.
(** Lines 500-531. *)
Definition ofInterest (single : Z) (k : konst) : bool :=
  negb (kReturned k) && negb (kBool k) && negb (Nat.eqb (length (kRaw k)) 0)
  && negb (kSplat k || (Z.of_nat (length (kRaw k)) <=? single)).
Definition alignOf (k : konst) : Z := match kAlign k with Some a => a | None => -1 end.
(** Lines 553-581 for one constant: the padding, its offset, the bytes written. *)
Definition padSize (total alignment : Z) : Z :=
  if (0 <? alignment) && negb (total mod alignment =? 0) then (total / alignment + 1) * alignment - total else 0.
Definition writeConst (k : konst) (st : Z * list Z * list (konst * Z)) : Z * list Z * list (konst * Z) :=
  let '(total, out, offs) := st in
  let pads := padSize total (alignOf k) in
  let out1 := out ++ repeat 0 (Z.to_nat pads) in
  let total1 := total + pads in
  (total1 + Z.of_nat (length (kRaw k)), out1 ++ kRaw k, offs ++ [(k, total1)]).
(** What the pass leaves: the file, the file-size global, and the offset of each constant
    moved out. *)
Record packed := { pFile : list Z; pSize : Z; pOffsets : list (konst * Z) }.
(** [sorted] is the order llvm::sort leaves (lines 540-549); it is visited from the end
    (line 557). [old] is what the file holds if line 555 could not remove it: the stream is
    opened for appending. None: the constants stay in the module. *)
Definition extractConstantsToFile (single totalThreshold : Z) (module : list konst) (sorted : list konst) (old : list Z) : option packed :=
  let total := sumZ (map (fun k => Z.of_nat (length (kRaw k))) (filter (ofInterest single) module)) in
  if total <=? totalThreshold then None else
  let '(size, out, offs) := fold_left (fun st k => writeConst k st) (rev sorted) (0, old, []) in
  if size =? 0 then None else Some {| pFile := out; pSize := size; pOffsets := offs |}.

(** emitLoadConstantDataFunc, lines 624-721: global 0 is packedConst, global i+1 the
    pointer of the i-th constant moved to the file. Result: what the function leaves. *)
Fixpoint getAddrs (offs : list Z) (g : nat) (s : state) : state :=
  match offs with
  | [] => s
  | o :: r => getAddrs r (S g) (omGetExternalConstantAddr s (Some g) (Some 0%nat) o)
  end.
Definition loadConstantDataCtor (pl : platform) (e : os) (fname : string) (isLE : Z) (p : packed) (s : state) : option state :=
  r <- omLoadConstantData pl e s (Some 0%nat) fname (pSize p) isLE ;;
  if fst r then Some (getAddrs (map snd (pOffsets p)) 1 (snd r)) else Some (snd r).
(** emitUnloadConstantDataFunc, lines 725-771. *)
Definition unloadConstantDataDtor (p : packed) (s : state) : option state :=
  r <- omUnloadConstantData s (Some 0%nat) (pSize p) ;; Some (snd r).
