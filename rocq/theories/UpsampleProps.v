(** C95: UpsampleAndPad. *)
From Coq Require Import List ZArith Lia Bool Arith.
From Verif Require Import Util TensorSpec TensorLemmas LoopModel LoopProofs CopyLoopSpec CopyLoopModel UpsampleSpec UpsampleModel UpsampleProofs.
Import ListNotations.
Open Scope Z_scope.

(** The operation is accepted exactly when its attributes fit the rank. *)
Theorem C95_verify (rank : nat) (strides pads : option (list Z)) : upVerify rank strides pads = true <-> fits rank strides pads.
Proof. symmetry. apply fits_verify. Qed.
(** The inferred shape. *)
Theorem C95_shape (strides pads : option (list Z)) (s : list Z) : fits (length s) strides pads -> upsampledShape strides pads s (upShape strides pads s).
Proof. apply upShape_ok. Qed.
(** The lowered loops place every element and leave zero elsewhere, for non-empty inputs and pads that are not
    negative. *)
Theorem C95_upsample (T : Type) (zero : T) (strides pads : option (list Z)) (X : mem T) (x : list Z -> T) : let s := mShape X in
  fits (length s) strides pads -> Forall (fun d => 0 < d) s ->
  (forall r, (r < length s)%nat -> 0 <= beginAt (length s) pads r /\ 0 <= endAt (length s) pads r) ->
  (forall i, valid s i -> mAt X i = Some (x i)) ->
  exists out, upsampleAndPad zero strides pads X = Some out /\ isUpsampled zero strides pads s x (mShape out) (mAt out).
Proof. exact (upsample_ok zero strides pads X x). Qed.
(** When the rewrite to the input itself or to Pad applies, the result is the same function, also for empty
    inputs. *)
Theorem C95_canonical (T : Type) (zero : T) (strides pads : option (list Z)) (X : mem T) (x : list Z -> T) (r : option (mem T)) : let s := mShape X in
  fits (length s) strides pads ->
  (forall r, (r < length s)%nat -> 0 <= beginAt (length s) pads r /\ 0 <= endAt (length s) pads r) ->
  (forall i, valid s i -> mAt X i = Some (x i)) ->
  upCanonical zero strides pads X = Some r -> exists out, r = Some out /\ isUpsampled zero strides pads s x (mShape out) (mAt out).
Proof. exact (canonical_ok zero strides pads X x r). Qed.
(** It applies exactly when every stride is one. *)
Theorem C95_canonical_applies (T : Type) (zero : T) (strides pads : option (list Z)) (X : mem T) : let s := mShape X in fits (length s) strides pads ->
  ((exists r, upCanonical zero strides pads X = Some r) <-> forall r, (r < length s)%nat -> strideAt (length s) strides r = 1).
Proof.
  intros s HF. split.
  - intros (r & H) q _. apply ones. unfold upCanonical in H. destruct (allOnes strides); [reflexivity | discriminate].
  - intros H. assert (A : allOnes strides = true).
    { destruct strides as [l|]; [|reflexivity]. cbn [allOnes]. apply forallb_forall. intros y I. apply (In_nth _ _ 1) in I as (j & Hj & <-). destruct HF as [[L _] _].
      specialize (H (length s - length l + j)%nat ltac:(lia)). unfold strideAt in H. destruct (Nat.ltb_spec (length s - length l + j) (length s - length l)); [lia|]. replace (length s - length l + j - (length s - length l))%nat with j in H by lia. now apply Z.eqb_eq. }
    unfold upCanonical. rewrite A. destruct (allZeros pads) eqn:Z0; [eauto|]. destruct pads; [eauto | discriminate].
Qed.

(** Not so for empty inputs: the size of the result can be negative although the operation is accepted. *)
Theorem C95_empty_refuted (T : Type) (zero : T) (at_ : list Z -> option T) (stride : Z) : 2 <= stride ->
  fits 1 (Some [stride]) None /\ upsampleAndPad zero (Some [stride]) None (Mem [0] at_) = None /\ upShape (Some [stride]) None [0] = [1 - stride].
Proof.
  intros H. assert (F : fits 1 (Some [stride]) None) by (split; [split; [cbn; lia | repeat constructor; lia] | auto]).
  assert (S : upShape (Some [stride]) None [0] = [1 - stride]) by (unfold upShape; cbn [length upK Nat.eqb map seq Nat.sub Nat.ltb Nat.leb nth orDefault repeat Nat.mul Nat.add]; f_equal; lia).
  split; [exact F|]. split; [|exact S]. unfold upsampleAndPad. cbn [mShape length]. rewrite (proj1 (fits_verify _ _ _) F), S. cbn [negb existsb]. destruct (Z.ltb_spec (1 - stride) 0); [reflexivity|lia].
Qed.
(** Nor for negative pads, which are accepted too: the first element is stored outside the result. *)
Theorem C95_negative_pads_refuted : exists X : mem Z, mShape X = [3] /\ (forall i, mAt X i = Some 1) /\ fits 1 (Some [2]) (Some [-1; 0]) /\ upsampleAndPad 0 (Some [2]) (Some [-1; 0]) X = None.
Proof.
  exists (Mem [3] (fun _ => Some 1)). split; [reflexivity|]. split; [reflexivity|]. split; [|reflexivity].
  split; [split; [cbn; lia | repeat constructor; lia]|]. exists 1%nat. cbn. lia.
Qed.

(** Non-trivial cases. *)
Example C95_case : option_map (fun m => (mShape m, map (mAt m) (indices (mShape m)))) (upsampleAndPad 0 (Some [3]) (Some [1; 2]) (Mem [2; 2] (fun i => Some (1 + 2 * nth 0 i 0 + nth 1 i 0)))) =
  Some ([2; 7], map Some [0; 1; 0; 0; 2; 0; 0; 0; 3; 0; 0; 4; 0; 0]).
Proof. vm_compute. reflexivity. Qed.
Example C95_fits_case : fits 2 (Some [3]) (Some [1; 2]) /\ forall r, (r < 2)%nat -> 0 <= beginAt 2 (Some [1; 2]) r /\ 0 <= endAt 2 (Some [1; 2]) r.
Proof. split; [split; [split; [cbn; lia | repeat constructor; lia] | exists 1%nat; cbn; lia]|]. intros [|[|r]] H; cbn; lia. Qed.
Example C95_canonical_case : option_map (option_map (fun m => (mShape m, map (mAt m) (indices (mShape m))))) (upCanonical 0 (Some [1]) (Some [1; 2]) (Mem [2; 2] (fun i => Some (1 + 2 * nth 0 i 0 + nth 1 i 0)))) =
  Some (Some ([2; 5], map Some [0; 1; 2; 0; 0; 0; 3; 4; 0; 0])).
Proof. vm_compute. reflexivity. Qed.

Print Assumptions C95_verify.
Print Assumptions C95_shape.
Print Assumptions C95_upsample.
Print Assumptions C95_canonical.
Print Assumptions C95_canonical_applies.
Print Assumptions C95_empty_refuted.
Print Assumptions C95_negative_pads_refuted.
