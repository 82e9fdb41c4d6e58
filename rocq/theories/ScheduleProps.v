(** C78: a schedule of krnl directives runs every iteration of the loops once. *)
From Coq Require Import List ZArith Bool Lia Permutation.
From Verif Require Import Util ScheduleSpec ScheduleModel ScheduleProofs ScheduleInv ScheduleRun ScheduleOrder.
Import ListNotations.
Open Scope Z_scope.

Lemma lower_ssa p x : lower p = Some x -> NoDup (map fst (dims p) ++ outers (directives p) ++ locals (directives p)).
Proof. unfold lower. destruct (nodupb _) eqn:E; [|discriminate]. intros _. now apply nodupb_NoDup. Qed.

(** The indices read through the loops that stand for the original ones, over the iterations of the
    loops around the body, are those the schedule asks for, each once. *)
Theorem C78_each_iteration_once : forall p outer inner ar qs,
  lower p = Some (outer, inner, ar) -> plans p = Some qs ->
  sizesOK p -> blocksFirst (directives p) -> carriedOK p ->
  (forall r, In r (kernel p) -> notIterated p r = true) ->
  (forall l, In l inner -> notIterated p (ref l) = true) ->
  Permutation (map (fun e => map (fun q => look e (handle q)) qs) (trace outer [])) (iterations p qs).
Proof.
  intros p outer inner ar qs Hl Hq Hs Hb Hc Hk Hi. pose proof (lower_ssa _ _ Hl) as Ssa.
  edestruct iterations_ok as (H & _); eauto.
Qed.

(** With every loop iterated over, the arguments of the iterate take every tuple of indices once. *)
Theorem C78_arguments_once : forall p outer ar,
  lower p = Some (outer, [], ar) ->
  sizesOK p -> blocksFirst (directives p) -> carriedOK p -> kernel p = [] ->
  (forall r, notIterated p r = false) ->
  Permutation (map (fun e => map (look e) ar) (trace outer [])) (grid (map (fun d => points (fst (snd d)) (snd (snd d))) (dims p))).
Proof.
  intros p outer ar Hl Hs Hb Hc Hk Hn. pose proof (lower_ssa _ _ Hl) as Ssa.
  assert (X : forall ds qs, length qs = length (dims p) -> (forall q, In q qs -> snd q = None) ->
    exists qs', foldM (stepPlan (notIterated p)) ds qs = Some qs' /\ length qs' = length (dims p) /\ forall q, In q qs' -> snd q = None).
  { induction ds as [|d ds IH]; intros qs L N; cbn [foldM]; [eauto|]. destruct d; cbn [stepPlan]; rewrite ?Hn; cbn [obind]; auto.
    apply IH; [now rewrite map_length|]. intros q Hq. apply in_map_iff in Hq as ([[h c] l] & <- & Hq). apply N in Hq. cbn [snd] in Hq. subst l.
    destruct (h =? loop); reflexivity. }
  destruct (X (directives p) (map (fun d => (fst d, [], None)) (dims p))) as (qs & Hq & Hlen & HN).
  { now rewrite map_length. } { intros q Hq. apply in_map_iff in Hq as (d & <- & _). reflexivity. }
  destruct (iterations_ok p Ssa Hs Hb outer [] ar qs Hc Hl Hq) as (H & Ha & Hal & _); [rewrite Hk; intros r [] | intros l [] |].
  assert (E : ar = map handle qs).
  { clear - Ha Hal HN. revert qs Ha Hal HN. induction ar as [|a ar IH]; intros [|q qs] Ha Hal HN; try discriminate; auto. cbn [map]. f_equal.
    - apply (Ha 0%nat a q); auto. apply HN. cbn; auto.
    - apply IH; [| now injection Hal | intros; apply HN; cbn; auto]. intros i a' q' E1 E2. apply (Ha (S i)); auto. }
  assert (E2 : iterations p qs = grid (map (fun d => points (fst (snd d)) (snd (snd d))) (dims p))).
  { unfold iterations. f_equal. clear - Hlen HN. revert qs Hlen HN. induction (dims p) as [|d ds IH]; intros [|q qs] L N; try discriminate; auto.
    cbn [map2 map]. f_equal; [| apply IH; [now injection L | intros; apply N; cbn; auto]]. rewrite (N q) by (cbn; auto). reflexivity. }
  rewrite <- E2, E. erewrite map_ext; [exact H|]. intros e. now rewrite map_map.
Qed.

(** Without a permute they take them in the order of the original loops. *)
Theorem C78_order : forall p outer ar,
  lower p = Some (outer, [], ar) ->
  sizesOK p -> (forall rs to, ~ In (Permute rs to) (directives p)) -> carriedOK p -> kernel p = [] ->
  (forall r, notIterated p r = false) ->
  map (fun e => map (look e) ar) (trace outer []) = grid (map (fun d => points (fst (snd d)) (snd (snd d))) (dims p)).
Proof.
  intros p outer ar Hl Hs Hp Hc Hk Hn. exact (order_ok p (lower_ssa _ _ Hl) Hs Hp Hn outer ar Hc Hl Hk).
Qed.

(** When the size of the last tile divides those of the others, the starts visited are those of
    the range cut in tiles of this size. *)
Theorem C78_tile_starts : forall lo hi sizes s x,
  0 < s -> Forall (fun c => 0 < c /\ (s | c)) sizes ->
  In x (visited lo hi sizes (Some s)) <-> lo <= x < hi /\ (s | x - lo).
Proof.
  intros lo hi sizes s x Hs Hf. cbn [visited]. rewrite filter_In, In_points.
  assert (E : (s | tileStart lo sizes x - lo)).
  { revert lo. induction Hf as [|c cs [Hc Hd] _ IH]; intros lo; cbn [tileStart]; [rewrite Z.sub_diag; apply Z.divide_0_r|].
    specialize (IH (lo + (x - lo) / c * c)). replace (tileStart _ _ _ - lo) with (tileStart (lo + (x - lo) / c * c) cs x - (lo + (x - lo) / c * c) + (x - lo) / c * c) by ring.
    apply Z.divide_add_r; auto. now apply Z.divide_mul_r. }
  rewrite Z.eqb_eq. split; intros [H1 H2]; split; auto.
  - apply Z.mod_divide in H2; [|lia]. replace (x - lo) with (x - tileStart lo sizes x + (tileStart lo sizes x - lo)) by ring. now apply Z.divide_add_r.
  - apply Z.mod_divide; [lia|]. replace (x - tileStart lo sizes x) with (x - lo - (tileStart lo sizes x - lo)) by ring. now apply Z.divide_sub_r.
Qed.

(** The body is directly inside the last loop named by the innermost iterate. *)
Theorem C78_body_under_last_loop : forall p outer inner ar, lower p = Some (outer, inner, ar) ->
  exists rs r ls l, last (optimized p :: map fst (nested p)) [] = rs ++ [r] /\ outer = ls ++ [l] /\ ref l = r.
Proof.
  intros p outer inner ar H. unfold lower in H. destruct (negb _); [discriminate|].
  destruct (interpret _ _ _) as [st|]; [|discriminate]. cbn [obind] in H. destruct (foldM _ _ _) as [st'|]; [|discriminate]. cbn [obind] in H.
  destruct (negb _); [discriminate|]. destruct (bodyLoop p) as [r|] eqn:Er; [|discriminate]. cbn [obind] in H.
  destruct (splitAfter r (nest st')) as [[a b]|] eqn:Es; [|discriminate]. cbn [obind fst snd] in H. destruct (existsb _ a); [discriminate|].
  assert (a = outer) by (injection H; auto). subst a. clear H.
  unfold bodyLoop in Er. rewrite <- (rev_involutive (optimized p :: map fst (nested p))). destruct (rev (optimized p :: map fst (nested p))) as [|rs ?]; [discriminate|].
  cbn [rev]. rewrite last_last. destruct (rev rs) as [|r' x] eqn:Ex; [discriminate|]. inversion Er; subst r'.
  assert (Eo : exists ls l, outer = ls ++ [l] /\ ref l = r).
  { revert outer b Es. induction (nest st') as [|m ls IH]; intros outer b; cbn [splitAfter]; [discriminate|].
    destruct (Z.eqb_spec (ref m) r) as [E | _]; [intros X; inversion X; subst; exists [], m; auto|].
    destruct (splitAfter r ls) as [[a b']|]; [|discriminate]. cbn [obind fst snd]. intros X; inversion X; subst.
    destruct (IH a _ eq_refl) as (ls' & lm & -> & El). exists (m :: ls'), lm. auto. }
  destruct Eo as (ls & lm & E1 & E2). exists (rev x), r, ls, lm. split; auto. rewrite <- (rev_involutive rs), Ex. reflexivity.
Qed.

(** Two loops, both tiled, with the tile loops moved outside. *)
Definition tiled2 : program :=
  {| dims := [(0, (0, 7)); (1, (2, 6))]; directives := [Block 0 2 3 3; Block 1 4 5 2; Permute [2; 3; 4; 5] [0; 2; 1; 3]];
     optimized := [2; 4; 3; 5]; nested := []; indices := []; kernel := [] |}.
Example tiled2_ok : exists outer ar, lower tiled2 = Some (outer, [], ar) /\ sizesOK tiled2 /\ blocksFirst (directives tiled2)
  /\ carriedOK tiled2 /\ (forall r, notIterated tiled2 r = false) /\ map ref outer = [2; 4; 3; 5] /\ ar = [3; 5]
  /\ length (trace outer []) = 28%nat /\ firstn 4 (map (fun e => map (look e) ar) (trace outer [])) = [[0; 2]; [0; 3]; [1; 2]; [1; 3]].
Proof.
  eexists _, _. split; [vm_compute; reflexivity|]. split; [intros r r1 r2 s [E | [E | [E | []]]]; inversion E; lia|].
  split; [cbn; auto|]. split; [intros rs []|]. split; [|vm_compute; auto].
  intros r. unfold notIterated. cbn [locals directives tiled2 flat_map app memb existsb optimized].
  destruct (Z.eqb_spec r 3) as [-> |]; [reflexivity|]. destruct (Z.eqb_spec r 5) as [-> |]; reflexivity.
Qed.

(** One dimension of a tiled product: blocked twice, the points of the inner block handed to the kernel. *)
Definition gemm2 : program :=
  {| dims := [(0, (0, 20)); (1, (0, 9))];
     directives := [Block 0 2 3 8; Block 3 4 5 4; Block 1 6 7 4; Permute [2; 4; 5; 6; 7] [0; 2; 3; 1; 4]];
     optimized := [2; 6; 4]; nested := []; indices := [4; 6]; kernel := [5; 7] |}.
Example gemm2_ok : exists outer inner ar qs, lower gemm2 = Some (outer, inner, ar) /\ plans gemm2 = Some qs /\ sizesOK gemm2
  /\ blocksFirst (directives gemm2) /\ carriedOK gemm2 /\ (forall r, In r (kernel gemm2) -> notIterated gemm2 r = true) /\ inner = []
  /\ map handle qs = [4; 6] /\ map (fun e => map (fun q => look e (handle q)) qs) (trace outer [])
     = [[0; 0]; [4; 0]; [0; 4]; [4; 4]; [0; 8]; [4; 8]; [8; 0]; [12; 0]; [8; 4]; [12; 4]; [8; 8]; [12; 8]; [16; 0]; [16; 4]; [16; 8]].
Proof.
  eexists _, _, _, _. split; [vm_compute; reflexivity|]. split; [vm_compute; reflexivity|].
  split; [intros r r1 r2 s [E | [E | [E | [E | []]]]]; inversion E; lia|].
  split; [cbn; auto|]. split; [intros rs []|]. split; [intros r [<- | [<- | []]]; reflexivity|]. vm_compute. auto.
Qed.

(** A vectorised loop: the points of the block are not iterated over; a nested iterate carries a value. *)
Definition simd1 : program :=
  {| dims := [(0, (0, 3)); (1, (0, 10))]; directives := [Block 1 2 3 4]; optimized := [0; 2]; nested := []; indices := [2]; kernel := [] |}.
Example simd1_ok : exists outer inner ar qs, lower simd1 = Some (outer, inner, ar) /\ plans simd1 = Some qs
  /\ (forall l, In l inner -> notIterated simd1 (ref l) = true) /\ iterations simd1 qs = [[0; 0]; [0; 4]; [0; 8]; [1; 0]; [1; 4]; [1; 8]; [2; 0]; [2; 4]; [2; 8]].
Proof.
  eexists _, _, _, _. split; [vm_compute; reflexivity|]. split; [vm_compute; reflexivity|]. split; [|vm_compute; reflexivity].
  intros l [<- | []]. reflexivity.
Qed.
Definition carried1 : program :=
  {| dims := [(0, (0, 3)); (1, (0, 5))]; directives := [Block 1 2 3 2]; optimized := [0; 2]; nested := [([3], true)]; indices := []; kernel := [] |}.
Example carried1_ok : exists outer ar, lower carried1 = Some (outer, [], ar) /\ carriedOK carried1 /\ length (trace outer []) = 15%nat
  /\ (forall rs to, ~ In (Permute rs to) (directives carried1)) /\ (forall r, notIterated carried1 r = false).
Proof.
  eexists _, _. split; [vm_compute; reflexivity|]. split; [intros rs [E | []] r Hr; inversion E; subst; destruct Hr as [<- | []]; cbn; auto|].
  split; [vm_compute; reflexivity|]. split; [intros rs to [E | []]; discriminate|].
  intros r. unfold notIterated. cbn [locals directives carried1 flat_map app memb existsb optimized].
  destruct (Z.eqb_spec r 3) as [-> |]; reflexivity.
Qed.
(** A permute that puts the points of a tile outside its tile loop is rejected. *)
Example points_outside : lower {| dims := [(0, (0, 4))]; directives := [Block 0 1 2 2; Permute [1; 2] [1; 0]];
  optimized := [2; 1]; nested := []; indices := []; kernel := [] |} = None.
Proof. vm_compute. reflexivity. Qed.

Lemma not_permutation_length {A} (l m : list A) : length l <> length m -> ~ Permutation l m.
Proof. intros H P. apply H. now apply Permutation_length. Qed.

(** A block after a permute: the permute erases the outer iterate, so the points of the block, which
    only the iterate names, look unused; their loop is replaced by one iteration of index 0. *)
Theorem C78_block_after_permute_refuted : exists p outer ar,
  lower p = Some (outer, [], ar) /\ sizesOK p /\ carriedOK p /\ kernel p = [] /\ (forall r, notIterated p r = false)
  /\ ~ Permutation (map (fun e => map (look e) ar) (trace outer [])) (grid (map (fun d => points (fst (snd d)) (snd (snd d))) (dims p)))
  /\ forall e, In e (trace outer []) -> nth 1 (map (look e) ar) 1 = 0.
Proof.
  exists {| dims := [(0, (0, 4)); (1, (0, 4))]; directives := [Block 0 2 3 2; Permute [2; 3; 1] [0; 2; 1]; Block 1 4 5 2];
            optimized := [2; 4; 5; 3]; nested := []; indices := []; kernel := [] |}.
  eexists _, _. split; [vm_compute; reflexivity|]. split; [intros r r1 r2 s [E | [E | [E | []]]]; inversion E; lia|].
  split; [intros rs []|]. split; [reflexivity|]. split; [|split].
  - intros r. unfold notIterated. cbn [locals directives flat_map app memb existsb optimized].
    destruct (Z.eqb_spec r 3) as [-> |]; [reflexivity|]. destruct (Z.eqb_spec r 5) as [-> |]; reflexivity.
  - apply not_permutation_length. vm_compute. discriminate.
  - apply Forall_forall. vm_compute. repeat constructor.
Qed.

(** A nested iterate that carries values over a tile loop goes over it one by one, so iterations
    are repeated. *)
Theorem C78_carried_tile_refuted : exists p outer ar,
  lower p = Some (outer, [], ar) /\ sizesOK p /\ blocksFirst (directives p) /\ kernel p = [] /\ (forall r, notIterated p r = false)
  /\ ~ NoDup (map (fun e => map (look e) ar) (trace outer [])).
Proof.
  exists {| dims := [(0, (0, 2)); (1, (0, 4))]; directives := [Block 1 2 3 2];
            optimized := [0]; nested := [([2], true); ([3], true)]; indices := []; kernel := [] |}.
  eexists _, _. split; [vm_compute; reflexivity|]. split; [intros r r1 r2 s [E | []]; inversion E; lia|].
  split; [cbn; auto|]. split; [reflexivity|]. split.
  - intros r. unfold notIterated. cbn [locals directives flat_map app memb existsb optimized].
    destruct (Z.eqb_spec r 3) as [-> |]; reflexivity.
  - match goal with |- ~ NoDup ?l => let v := eval vm_compute in l in change (~ NoDup v) end.
    intros H. inversion H as [|? ? _ H1]; subst. inversion H1 as [|? ? H2 _]; subst. apply H2. cbn. auto.
Qed.

(** When the points of a block are not iterated over, the argument of the iterate is always 0. *)
Theorem C78_argument_of_unused_block_refuted : exists p outer inner ar qs,
  lower p = Some (outer, inner, ar) /\ plans p = Some qs /\ sizesOK p /\ blocksFirst (directives p) /\ carriedOK p /\ kernel p = []
  /\ (forall l, In l inner -> notIterated p (ref l) = true)
  /\ map (fun e => map (look e) ar) (trace (outer ++ inner) []) = [[0]; [0]] /\ iterations p qs = [[0]; [4]].
Proof.
  exists {| dims := [(0, (0, 8))]; directives := [Block 0 1 2 4]; optimized := [1]; nested := []; indices := []; kernel := [] |}.
  eexists _, _, _, _. split; [vm_compute; reflexivity|]. split; [vm_compute; reflexivity|].
  split; [intros r r1 r2 s [E | []]; inversion E; lia|]. split; [cbn; auto|]. split; [intros rs []|]. split; [reflexivity|].
  split; [intros l [<- | []]; reflexivity|]. vm_compute. auto.
Qed.

(** A tile size of 2^32 + 1 becomes 1: the points not iterated over are counted as tiles. *)
Theorem C78_large_tile_refuted : exists p outer inner ar qs,
  lower p = Some (outer, inner, ar) /\ plans p = Some qs /\ blocksFirst (directives p) /\ carriedOK p /\ kernel p = []
  /\ (forall l, In l inner -> notIterated p (ref l) = true)
  /\ map (fun e => map (fun q => look e (handle q)) qs) (trace outer []) = [[0]; [1]; [2]] /\ iterations p qs = [[0]].
Proof.
  exists {| dims := [(0, (0, 3))]; directives := [Block 0 1 2 (2 ^ 32 + 1)]; optimized := [1]; nested := []; indices := []; kernel := [] |}.
  eexists _, _, _, _. split; [vm_compute; reflexivity|]. split; [vm_compute; reflexivity|].
  split; [cbn; auto|]. split; [intros rs []|]. split; [reflexivity|].
  split; [intros l [<- | []]; reflexivity|]. vm_compute. auto.
Qed.

Print Assumptions C78_each_iteration_once.
Print Assumptions C78_arguments_once.
Print Assumptions C78_order.
