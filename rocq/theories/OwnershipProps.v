(** C35: tensors, tensor lists and their memory. *)
From Coq Require Import List Bool Arith ZArith Lia.
From Verif Require Import OwnershipModel OwnershipSpec OwnershipProofs.
Import ListNotations.

(** Whatever the calls made so far and whichever allocations failed, an allowed call has
    no undefined behaviour (no use after free, double free or wild free) and does exactly
    what [effect] says. *)
Theorem C35_allowed_calls_are_safe : forall ok s w c, history ok s w -> allowed w c ->
  exists s' r w', step ok c s = Some (s', r) /\ effect w c r (omTensorGetDataPtr r s') w' /\ history ok s' w'.
Proof.
  intros ok s w c H HA. destruct (history_inv ok s w H) as [ro I]. destruct (simulation ok s w ro c I HA) as (s' & r & w' & ro' & E & HE & _).
  exists s', r, w'. split; [auto|]. split; [auto|]. exact (H_step ok s w c s' r w' H HA E HE).
Qed.

(** The live memory is exactly what the client's view accounts for: the data buffers it
    or its tensors own, a structure and two arrays for each tensor, a structure and (when
    not empty) one array for each list. *)
Theorem C35_live_memory_is_accounted_for : forall ok s w b, history ok s w ->
  (live s b = true <->
   owner w b <> None \/ tensorBuf w b <> None \/ listOf w b <> None \/
   (exists t v, tensorBuf w t <> None /\ tens s t = Some v /\ (tShape v = b \/ tStrides v = b)) \/
   (exists l v, listOf w l <> None /\ lists s l = Some v /\ lOmts v = Some b)).
Proof.
  intros ok s w b H. destruct (history_inv ok s w H) as [ro [A1 A2 A3 A4 A5 A6 A7 A8 A9 A10 A11]]. rewrite A2. split.
  - intros R. destruct (ro b) as [[o| |t|t| |l]|] eqn:ER; [| | | | | |congruence].
    + left. apply A3 in ER. congruence.
    + right; left. apply A4. auto.
    + do 3 right; left. destruct (A8 b t ER) as (v & B1 & B2 & B3). exists t, v. auto.
    + do 3 right; left. destruct (A9 b t ER) as (v & B1 & B2 & B3). exists t, v. auto.
    + right; right; left. apply A5. auto.
    + do 4 right. destruct (A11 b l ER) as (v & B1 & B2 & B3). exists l, v. auto.
  - intros [Q|[Q|[Q|[(t & v & B1 & B2 & B3)|(l & v & B1 & B2 & B3)]]]].
    + destruct (owner w b) as [o|] eqn:E; [|congruence]. apply A3 in E. congruence.
    + apply A4 in Q. congruence.
    + apply A5 in Q. congruence.
    + destruct (tensorBuf w t) as [d|] eqn:E; [|congruence]. destruct (A6 t d E) as (v' & C1 & _ & _ & C4 & C5). assert (v' = v) by congruence. subst v'. destruct B3 as [<-|<-]; congruence.
    + destruct (listOf w l) as [ts|] eqn:E; [|congruence]. destruct (A10 l ts E) as (v' & C1 & _ & _ & C4). assert (v' = v) by congruence. subst v'. rewrite (C4 b B3). discriminate.
Qed.

(** No block plays two parts: a data buffer is not also a structure or an array, and two
    tensors never share their shape or stride arrays. *)
Theorem C35_parts_are_disjoint : forall ok s w, history ok s w ->
  (forall b, owner w b <> None -> tensorBuf w b = None /\ listOf w b = None) /\
  (forall b, tensorBuf w b <> None -> listOf w b = None) /\
  (forall t t' v v', tensorBuf w t <> None -> tensorBuf w t' <> None -> tens s t = Some v -> tens s t' = Some v' ->
     tShape v <> tStrides v' /\ (tShape v = tShape v' -> t = t') /\ (tStrides v = tStrides v' -> t = t') /\ owner w (tShape v) = None /\ owner w (tStrides v) = None) /\
  (forall b t t', owner w b = Some (Some t) -> owner w b = Some (Some t') -> t = t').
Proof.
  intros ok s w H. destruct (history_inv ok s w H) as [ro [A1 A2 A3 A4 A5 A6 A7 A8 A9 A10 A11]]. split; [|split; [|split]].
  - intros b Q. destruct (owner w b) as [o|] eqn:E; [|congruence]. apply A3 in E. split.
    + destruct (tensorBuf w b) eqn:X; [|auto]. assert (Y : tensorBuf w b <> None) by congruence. apply A4 in Y. congruence.
    + destruct (listOf w b) eqn:X; [|auto]. assert (Y : listOf w b <> None) by congruence. apply A5 in Y. congruence.
  - intros b Q. apply A4 in Q. destruct (listOf w b) eqn:X; [|auto]. assert (Y : listOf w b <> None) by congruence. apply A5 in Y. congruence.
  - intros t t' v v' Q Q' E E'. destruct (tensorBuf w t) as [d|] eqn:ET; [|congruence]. destruct (tensorBuf w t') as [d'|] eqn:ET'; [|congruence].
    destruct (A6 t d ET) as (u & C1 & _ & _ & C4 & C5). destruct (A6 t' d' ET') as (u' & C1' & _ & _ & C4' & C5').
    assert (u = v) by congruence. assert (u' = v') by congruence. subst u u'.
    split; [congruence|]. split; [congruence|]. split; [congruence|].
    split; (destruct (owner w _) eqn:X; [|reflexivity]); apply A3 in X; congruence.
  - congruence.
Qed.

(** What a tensor or a list holds is what was put there. *)
Theorem C35_contents : forall ok s w, history ok s w ->
  (forall t d, tensorBuf w t = Some d -> omTensorGetDataPtr (Some t) s = d) /\
  (forall b t, owner w b = Some (Some t) -> tensorBuf w t = Some (Some b)) /\
  (forall l ts, listOf w l = Some ts -> exists v, getL s l = Some v /\ lTensors v = ts).
Proof.
  intros ok s w H. destruct (history_inv ok s w H) as [ro [A1 A2 A3 A4 A5 A6 A7 A8 A9 A10 A11]]. split; [|split].
  - intros t d E. destruct (A6 t d E) as (v & C1 & C2 & _). cbn. unfold getT. rewrite (proj2 (A2 t)), C1 by (rewrite (proj2 (A4 t)); congruence). exact C2.
  - intros b t E. destruct (A7 b t E) as (v & B & _). exact B.
  - intros l ts E. destruct (A10 l ts E) as (v & C1 & C2 & _). exists v. unfold getL. rewrite (proj2 (A2 l)), C1 by (rewrite (proj2 (A5 l)); congruence). auto.
Qed.

(** A client that has destroyed its tensors and lists and freed its buffers leaks nothing. *)
Corollary C35_no_leak : forall ok s w, history ok s w ->
  (forall b, owner w b = None) -> (forall t, tensorBuf w t = None) -> (forall l, listOf w l = None) -> forall b, live s b = false.
Proof.
  intros ok s w H H1 H2 H3 b. destruct (live s b) eqn:E; [|reflexivity]. apply (C35_live_memory_is_accounted_for ok s w b H) in E.
  destruct E as [Q|[Q|[Q|[(t & v & Q & _)|(l & v & Q & _)]]]]; rewrite ?H1, ?H2, ?H3 in Q; congruence.
Qed.

(** A creation that fails leaves no block behind, at whichever allocation it failed. *)
Theorem C35_failed_creation_leaves_nothing : forall ok s w c s', history ok s w ->
  (match c with Create _ _ | CreateEmpty _ | ListCreate _ => True | _ => False end) ->
  step ok c s = Some (s', None) -> forall b, live s' b = live s b.
Proof.
  intros ok s w c s' H HC HS b. destruct (history_inv ok s w H) as [ro I].
  assert (F : forall x, next s <= x -> live s x = false) by (intros x Hx; apply (fresh_next s w ro x I Hx)).
  assert (F0 : live s (next s) = false) by (apply F; lia). assert (F1 : live s (S (next s)) = false) by (apply F; lia). assert (F2 : live s (S (S (next s))) = false) by (apply F; lia).
  destruct c as [|?|d o|ty|? ? ?|? ?|?|ts|?|?|? ?]; try tauto; cbn [step] in HS.
  - unfold omTensorCreate in HS. rewrite malloc_eq in HS. destruct (ok (clock s)); [|injection HS as <-; reflexivity].
    rewrite malloc_eq in HS. destruct (ok (clock (grow s))).
    2:{ cbn [free live bump grow] in HS. rewrite upd_same in HS. injection HS as <-. cbn [live]. unfold upd. destruct (Nat.eqb_spec b (next s)) as [->|]; auto. }
    rewrite malloc_eq in HS. destruct (ok (clock (grow (grow s)))); [discriminate|].
    cbn [free live bump grow next] in HS. rewrite upd_same in HS. cbn [live] in HS. rewrite upd_other, upd_other, upd_same in HS by lia. injection HS as <-. cbn [live]. unfold upd.
    destruct (Nat.eqb_spec b (next s)) as [->|]; auto. destruct (Nat.eqb_spec b (S (next s))) as [->|]; auto.
  - unfold omTensorCreateEmpty in HS. destruct ty; cbn [negb] in HS; [|injection HS as <-; reflexivity].
    rewrite malloc_eq in HS. destruct (ok (clock s)); [|cbn [free] in HS; injection HS as <-; reflexivity].
    unfold omTensorCreate in HS. rewrite malloc_eq in HS. destruct (ok (clock (grow s))).
    2:{ cbn [free live bump grow] in HS. rewrite upd_same in HS. injection HS as <-. cbn [live]. unfold upd. destruct (Nat.eqb_spec b (next s)) as [->|]; auto. }
    rewrite malloc_eq in HS. destruct (ok (clock (grow (grow s)))).
    2:{ cbn [free live bump grow next] in HS. rewrite upd_same in HS. cbn [live] in HS. rewrite upd_other, upd_other, upd_same in HS by lia. injection HS as <-. cbn [live]. unfold upd.
        destruct (Nat.eqb_spec b (next s)) as [->|]; auto. destruct (Nat.eqb_spec b (S (next s))) as [->|]; auto. }
    rewrite malloc_eq in HS. destruct (ok (clock (grow (grow (grow s))))); [discriminate|].
    cbn [free live bump grow next] in HS. rewrite upd_same in HS. cbn [live] in HS. rewrite upd_other, upd_other, upd_same in HS by lia. cbn [live] in HS.
    rewrite upd_other, upd_other, upd_other, upd_other, upd_same in HS by lia. injection HS as <-. cbn [live]. unfold upd.
    destruct (Nat.eqb_spec b (next s)) as [->|]; auto. destruct (Nat.eqb_spec b (S (next s))) as [->|]; auto. destruct (Nat.eqb_spec b (S (S (next s)))) as [->|]; auto.
  - unfold omTensorListCreate in HS. rewrite malloc_eq in HS. destruct (ok (clock s)); [|injection HS as <-; reflexivity]. destruct ts; [discriminate|].
    rewrite malloc_eq in HS. destruct (ok (clock (grow s))); [discriminate|]. cbn [free live bump grow] in HS. rewrite upd_same in HS. injection HS as <-. cbn [live]. unfold upd.
    destruct (Nat.eqb_spec b (next s)) as [->|]; auto.
Qed.

(** When memory does not run out, every creation succeeds. *)
Theorem C35_creation_succeeds : forall s c, (match c with Create _ _ | CreateEmpty true | ListCreate _ => True | _ => False end) ->
  exists s' t, step (fun _ => true) c s = Some (s', Some t).
Proof.
  intros s c HC. destruct c as [|?|d o|[|]|? ? ?|? ?|?|[|p ts]|?|?|? ?]; try tauto; cbn; eauto.
Qed.

(** What [allowed] excludes is really excluded: *)
(** giving one buffer to two tensors frees it twice, *)
Theorem C35_shared_owner_refuted : ~ (forall cs, Forall (fun c => match c with SetDataPtr _ _ _ | SetOwning _ _ | UserFree _ => False | _ => True end) cs ->
  runCalls (fun _ => true) cs init <> None).
Proof.
  intros H. apply (H [UserAlloc; Create (Some 0) true; Create (Some 0) true; Destroy (Some 1); Destroy (Some 4)]).
  - repeat constructor.
  - reflexivity.
Qed.
(** replacing the buffer a tensor owns by the same buffer leaves it owning freed memory, *)
Theorem C35_replace_by_itself_refuted :
  runCalls (fun _ => true) [CreateEmpty true; SetDataPtr (Some 1) true (Some 0)] init <> None /\
  runCalls (fun _ => true) [CreateEmpty true; SetDataPtr (Some 1) true (Some 0); Destroy (Some 1)] init = None.
Proof. split; [vm_compute; discriminate|vm_compute; reflexivity]. Qed.
(** and destroying a list that holds a tensor twice destroys that tensor twice, while
    dropping only the list is safe. *)
Theorem C35_duplicate_in_list_refuted :
  runCalls (fun _ => true) [CreateEmpty true; ListCreate [Some 1; Some 1]; ListDestroy (Some 4)] init = None /\
  runCalls (fun _ => true) [CreateEmpty true; ListCreate [Some 1; Some 1]; ListDestroyShallow (Some 4); Destroy (Some 1)] init <> None.
Proof. split; [vm_compute; reflexivity|vm_compute; discriminate]. Qed.

(** A concrete history: two tensors, one of them owning a buffer of the client, in a list
    that is then destroyed; nothing is left. *)
Definition st (c : call) (s : state) : state := match step (fun _ => true) c s with Some (s', _) => s' | None => s end.
Example C35_history_example : exists s w, history (fun _ => true) s w /\ live s 0 = true /\ owner w 0 = Some (Some 1) /\ listOf w 8 = Some [Some 1; None; Some 5] /\ tensorBuf w 5 = Some (Some 4).
Proof.
  set (s1 := st UserAlloc init). set (s2 := st (Create (Some 0) true) s1). set (s3 := st (CreateEmpty true) s2). set (s4 := st (ListCreate [Some 1; None; Some 5]) s3).
  pose (w1 := {| owner := upd (owner nothing) 0 (Some None); tensorBuf := tensorBuf nothing; listOf := listOf nothing |}).
  pose (w2 := {| owner := give 1 true (Some 0) (owner w1); tensorBuf := upd (tensorBuf w1) 1 (Some (Some 0)); listOf := listOf w1 |}).
  pose (w3 := {| owner := upd (owner w2) 4 (Some (Some 5)); tensorBuf := upd (tensorBuf w2) 5 (Some (Some 4)); listOf := listOf w2 |}).
  pose (w4 := {| owner := owner w3; tensorBuf := tensorBuf w3; listOf := upd (listOf w3) 8 (Some [Some 1; None; Some 5]) |}).
  assert (J1 : history (fun _ => true) s1 w1).
  { apply (H_step _ init nothing UserAlloc s1 (Some 0) w1 (H_init _)); [exact Logic.I|vm_compute; reflexivity|]. apply E_alloc. repeat split. }
  assert (J2 : history (fun _ => true) s2 w2).
  { apply (H_step _ s1 w1 (Create (Some 0) true) s2 (Some 1) w2 J1); [intros _ b Hb; injection Hb as <-; reflexivity|vm_compute; reflexivity|]. change (omTensorGetDataPtr (Some 1) s2) with (Some 0). apply E_create. repeat split. }
  assert (J3 : history (fun _ => true) s3 w3).
  { apply (H_step _ s2 w2 (CreateEmpty true) s3 (Some 5) w3 J2); [exact Logic.I|vm_compute; reflexivity|]. change (omTensorGetDataPtr (Some 5) s3) with (Some 4). apply E_empty; [repeat split|repeat split|discriminate]. }
  exists s4, w4. split; [|repeat split].
  apply (H_step _ s3 w3 (ListCreate [Some 1; None; Some 5]) s4 (Some 8) w4 J3); [exact Logic.I|vm_compute; reflexivity|]. apply E_list. repeat split.
Qed.
Example C35_run_example :
  match runCalls (fun k => negb (k =? 6)) [UserAlloc; Create (Some 0) true; CreateEmpty true; ListCreate [Some 1]; ListDestroy (Some 6)] init with
  | Some s => map (live s) (seq 0 20) = repeat false 20 /\ next s = 8
  | None => False
  end.
Proof. vm_compute. split; reflexivity. Qed.

Print Assumptions C35_allowed_calls_are_safe.
Print Assumptions C35_live_memory_is_accounted_for.
Print Assumptions C35_failed_creation_leaves_nothing.
