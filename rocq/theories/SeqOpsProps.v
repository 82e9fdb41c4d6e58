(** C93: sequence operators at run time. C94: Clip and the fusion of Clip operations. *)
From Coq Require Import List ZArith Lia Bool Arith.
From Verif Require Import Util TensorSpec TensorLemmas LoopModel LoopProofs SeqOpsSpec SeqOpsModel SeqOpsProofs.
Import ListNotations.
Open Scope Z_scope.

(** The sequence holds exactly the tensors of l, in order. *)
Definition holds {T} (seq : mem T) (l : list T) : Prop :=
  mShape seq = [Z.of_nat (length l)] /\ forall q, (q < length l)%nat -> mAt seq [Z.of_nat q] = nth_error l q.
Lemma holds_nth {T} (seq : mem T) l d : holds seq l -> forall k, 0 <= k < Z.of_nat (length l) -> mAt seq [k] = Some (nth (Z.to_nat k) l d).
Proof. intros [_ H] k B. specialize (H (Z.to_nat k) ltac:(lia)). rewrite Z2Nat.id in H by lia. rewrite H. apply nth_error_nth'. lia. Qed.

(** SequenceAt gives the tensor at the position, counted from either end. *)
Theorem C93_at (T : Type) (seq : mem T) (l : list T) (place : nat) (pos : Z) (x : T) : holds seq l -> nth_error l place = Some x ->
  names_place (Z.of_nat (length l)) (Z.of_nat place) pos -> sequenceAt seq pos = Some x.
Proof.
  intros H E P. pose proof (proj1 (nth_error_Some l place) ltac:(congruence)) as B. rewrite (at_ok seq (fun k => nth (Z.to_nat k) l x) _ (proj1 H) (holds_nth seq l x H) pos (Z.of_nat place)) by (auto; lia).
  rewrite Nat2Z.id. f_equal. now apply nth_error_nth.
Qed.
Theorem C93_length (T : Type) (seq : mem T) (l : list T) : holds seq l -> sequenceLength seq = Z.of_nat (length l).
Proof. intros [H _]. unfold sequenceLength, seqLen. now rewrite H. Qed.
Theorem C93_empty (T : Type) : holds (@sequenceEmpty T) [].
Proof. split; [reflexivity|]. cbn. intros; lia. Qed.

(** What SequenceInsert leaves in the result, for every sequence and position: the new tensor at its place and
    the tensors that were after the place, each one further; everything else is never stored. *)
Theorem C93_insert_exact (T : Type) (staticOne : bool) (seq : mem T) (l : list T) (tensor : T) (place : nat) (pos : option Z) :
  holds seq l -> (staticOne = true -> l = []) -> (place <= length l)%nat ->
  match pos with None => place = length l | Some p => names_place (Z.of_nat (length l)) (Z.of_nat place) p end ->
  exists out, sequenceInsert staticOne seq tensor pos = Some out /\ mShape out = [Z.of_nat (length (insertAt place tensor l))] /\
  forall q, (q <= length l)%nat ->
    (q = place -> mAt out [Z.of_nat q] = Some tensor) /\ ((S place < q)%nat -> mAt out [Z.of_nat q] = nth_error l (q - 1)) /\
    ((q < place \/ q = S place)%nat -> mAt out [Z.of_nat q] = None).
Proof.
  intros H HO B P. destruct (insert_ok seq (fun k => nth (Z.to_nat k) l tensor) _ (proj1 H) (holds_nth seq l tensor H) staticOne tensor pos (Z.of_nat place)) as (out & E & So & O).
  { intros ->. now rewrite (HO eq_refl). } { lia. } { destruct pos; [exact P | now subst]. }
  exists out. split; [exact E|]. split. { rewrite So. f_equal. unfold insertAt. rewrite app_length, firstn_length. cbn [length]. rewrite skipn_length. lia. }
  intros q Bq. rewrite (O (Z.of_nat q)) by lia. destruct (Z.eqb_spec (Z.of_nat q) (Z.of_nat place)), (Z.ltb_spec (Z.of_nat place + 1) (Z.of_nat q)); (split; [|split]); intros; try reflexivity; try (exfalso; lia).
  symmetry. replace (Z.to_nat (Z.of_nat q - 1)) with (q - 1)%nat by lia. apply nth_error_nth'. lia.
Qed.
(** So it is right on the empty sequence, *)
Theorem C93_insert_empty (T : Type) (staticOne : bool) (seq : mem T) (tensor : T) (pos : option Z) : holds seq [] -> pos = None \/ pos = Some 0 ->
  exists out, sequenceInsert staticOne seq tensor pos = Some out /\ holds out [tensor].
Proof.
  intros H P. destruct (C93_insert_exact T staticOne seq [] tensor 0 pos H (fun _ => eq_refl) (le_n 0)) as (out & E & So & O).
  { destruct P as [-> | ->]; [reflexivity | now left]. }
  exists out. split; [exact E|]. split; [exact So|]. intros q Hq. cbn in Hq. assert (q = 0)%nat by lia. subst q. now apply (O 0%nat (le_n 0)).
Qed.
(** and wrong on every other sequence, at every position. *)
Theorem C93_insert_refuted (T : Type) (seq : mem T) (l : list T) (tensor : T) (place : nat) (pos : option Z) : holds seq l -> l <> [] -> (place <= length l)%nat ->
  match pos with None => place = length l | Some p => names_place (Z.of_nat (length l)) (Z.of_nat place) p end ->
  exists out, sequenceInsert false seq tensor pos = Some out /\ ~ holds out (insertAt place tensor l).
Proof.
  intros H NE B P. destruct (C93_insert_exact T false seq l tensor place pos H ltac:(discriminate) B P) as (out & E & So & O). exists out. split; [exact E|]. intros [_ C].
  assert (L : length (insertAt place tensor l) = S (length l)) by (unfold insertAt; rewrite app_length, firstn_length; cbn [length]; rewrite skipn_length; lia).
  assert (0 < length l)%nat by (destruct l; [contradiction | cbn; lia]).
  assert (X : exists q, (q <= length l)%nat /\ (q < place \/ q = S place)%nat) by (destruct place; [exists 1%nat | exists 0%nat]; lia). destruct X as (q & Bq & Q).
  specialize (C q ltac:(lia)). rewrite (proj2 (proj2 (O q Bq)) Q) in C. symmetry in C. apply nth_error_None in C. lia.
Qed.

(** SequenceErase is right for the first tensor, *)
Theorem C93_erase_first (T : Type) (seq : mem T) (y : T) (l : list T) (pos : option Z) : holds seq (y :: l) ->
  match pos with None => l = [] | Some p => names_place (Z.of_nat (length (y :: l))) 0 p end ->
  exists out, sequenceErase seq pos = Some out /\ holds out (eraseAt 0 (y :: l)).
Proof.
  intros H P. destruct (erase_ok seq (fun k => nth (Z.to_nat k) (y :: l) y) _ (proj1 H) (holds_nth seq (y :: l) y H) pos 0) as (out & E & So & O).
  { cbn [length]. lia. } { now left. } { destruct pos; [exact P | subst; reflexivity]. }
  exists out. split; [exact E|]. unfold eraseAt. cbn [firstn skipn app]. split; [rewrite So; cbn [length]; f_equal; lia|]. intros q Hq. rewrite O by (cbn [length]; lia).
  destruct (Z.leb_spec 0 (Z.of_nat q)); [|lia]. replace (Z.to_nat (Z.of_nat q + 1)) with (S q) by lia. cbn [nth]. symmetry. now apply nth_error_nth'.
Qed.
(** wrong for every tensor between the first and the last (the tensors before it are lost), *)
Theorem C93_erase_middle_refuted (T : Type) (seq : mem T) (l : list T) (place : nat) (p : Z) : holds seq l -> (0 < place < length l - 1)%nat ->
  names_place (Z.of_nat (length l)) (Z.of_nat place) p ->
  exists out, sequenceErase seq (Some p) = Some out /\ (forall q, (q < place)%nat -> mAt out [Z.of_nat q] = None) /\ ~ holds out (eraseAt place l).
Proof.
  intros H B P. destruct l as [|y l]; [cbn in B; lia|]. destruct (erase_ok seq (fun k => nth (Z.to_nat k) (y :: l) y) _ (proj1 H) (holds_nth seq (y :: l) y H) (Some p) (Z.of_nat place)) as (out & E & So & O); [lia | lia | exact P |].
  exists out. split; [exact E|]. assert (N : forall q, (q < place)%nat -> mAt out [Z.of_nat q] = None) by (intros q Hq; rewrite O by lia; destruct (Z.leb_spec (Z.of_nat place) (Z.of_nat q)); [lia | reflexivity]).
  split; [exact N|]. intros [_ C]. destruct place as [|place]; [lia|]. unfold eraseAt in C. cbn [firstn app length] in C. specialize (C 0%nat ltac:(lia)). rewrite (N 0%nat) in C by lia. discriminate.
Qed.
(** and it stores outside the result for the last one, also when the position is missing. *)
Theorem C93_erase_last_refuted (T : Type) (seq : mem T) (l : list T) (pos : option Z) : holds seq l -> (2 <= length l)%nat ->
  match pos with None => True | Some p => names_place (Z.of_nat (length l)) (Z.of_nat (length l) - 1) p end -> sequenceErase seq pos = None.
Proof. intros H B P. destruct l as [|y l]; [cbn in B; lia|]. apply (erase_last seq (fun k => nth (Z.to_nat k) (y :: l) y) _ (proj1 H) (holds_nth seq (y :: l) y H)); [lia | exact P]. Qed.

(** The lowered Clip is the operator. *)
Theorem C94_clip (lo hi : option Z) (x : Z) : clip lo hi x = Clip lo hi x.
Proof. unfold clip, Clip. destruct lo as [l|], hi as [h|]; cbn zeta; try destruct (Z.ltb_spec x l); try match goal with |- context [h <? ?q] => destruct (Z.ltb_spec h q) end; lia. Qed.
(** One Clip replaces two for every input exactly when the second lower bound does not exceed the first upper
    bound, or the second upper bound does not exceed it either. *)
Theorem C94_fuse_exact (min1 max1 min2 max2 : option Z) :
  (forall x, let b := fuseClips min1 max1 min2 max2 in clip (fst b) (snd b) x = Clip min2 max2 (Clip min1 max1 x)) <->
  (forall m M, min2 = Some m -> max1 = Some M -> m <= M \/ exists M', max2 = Some M' /\ M' <= M).
Proof.
  split.
  - intros H m M -> ->. destruct (Z.le_gt_cases m M) as [|G]; [now left|]. right. specialize (H m). rewrite <- !C94_clip in H. unfold fuseClips, clip, maxOrDefault, minOrDefault in H. destruct max2 as [M'|].
    + exists M'. split; [reflexivity|]. destruct min1; cbn [fst snd] in H; lia.
    + exfalso. destruct min1; cbn [fst snd] in H; lia.
  - intros H x b. subst b. rewrite <- !C94_clip. unfold fuseClips, clip, maxOrDefault, minOrDefault. destruct min2 as [m|], max1 as [M|].
    + destruct (H m M eq_refl eq_refl) as [G | (M' & -> & G)]; [destruct max2|]; destruct min1; cbn [fst snd]; lia.
    + destruct max2, min1; cbn [fst snd]; lia.
    + destruct max2, min1; cbn [fst snd]; lia.
    + destruct max2, min1; cbn [fst snd]; lia.
Qed.
(** The usual case: the ranges overlap. *)
Theorem C94_fuse_overlap (a b c d x : Z) : Z.max a c <= Z.min b d -> let m := fuseClips (Some a) (Some b) (Some c) (Some d) in
  clip (fst m) (snd m) x = Clip (Some c) (Some d) (Clip (Some a) (Some b) x).
Proof. intros H. apply C94_fuse_exact. intros m M [= <-] [= <-]. left. lia. Qed.
(** The rewrite has no such condition: ranges apart give the bound of the first instead of the second. *)
Theorem C94_fuse_refuted (a b c d x : Z) : a <= b -> b < c -> c <= d -> let m := fuseClips (Some a) (Some b) (Some c) (Some d) in
  clip (fst m) (snd m) x = b /\ Clip (Some c) (Some d) (Clip (Some a) (Some b) x) = c.
Proof. intros H1 H2 H3 m. subst m. rewrite <- !C94_clip. unfold fuseClips, clip, maxOrDefault, minOrDefault. cbn [fst snd]. split; lia. Qed.

(** Non-trivial cases. *)
Example C93_holds_case : holds (Mem [3] (fun i => nth_error [10; 20; 30] (Z.to_nat (nth 0 i 0)))) [10; 20; 30].
Proof. split; [reflexivity|]. intros q _. cbn [mAt nth]. now rewrite Nat2Z.id. Qed.
Example C93_erase_case : option_map (fun m => map (fun q => mAt m [q]) [0; 1]) (sequenceErase (Mem [3] (fun i => nth_error [10; 20; 30] (Z.to_nat (nth 0 i 0)))) (Some (-3))) = Some [Some 20; Some 30].
Proof. vm_compute. reflexivity. Qed.
Example C93_insert_case : option_map (fun m => map (fun q => mAt m [q]) [0; 1; 2; 3]) (sequenceInsert false (Mem [3] (fun i => nth_error [10; 20; 30] (Z.to_nat (nth 0 i 0)))) 99 (Some 1)) = Some [None; Some 99; None; Some 30].
Proof. vm_compute. reflexivity. Qed.
Example C94_case : clip (Some 2) (Some 1) 0 = 1 /\ Clip (Some 2) (Some 3) (Clip (Some 0) (Some 1) 0) = 2.
Proof. split; reflexivity. Qed.

Print Assumptions C93_at.
Print Assumptions C93_length.
Print Assumptions C93_empty.
Print Assumptions C93_insert_exact.
Print Assumptions C93_insert_empty.
Print Assumptions C93_insert_refuted.
Print Assumptions C93_erase_first.
Print Assumptions C93_erase_middle_refuted.
Print Assumptions C93_erase_last_refuted.
Print Assumptions C94_clip.
Print Assumptions C94_fuse_exact.
Print Assumptions C94_fuse_overlap.
Print Assumptions C94_fuse_refuted.
