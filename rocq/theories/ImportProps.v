(** C36 (symbol table), C48 (import), C49 (order of nodes), C50 (versions). *)
From Coq Require Import String List Bool Arith Lia ZArith Permutation.
From Verif Require Import Util NodeOrderModel NodeOrderSpec NodeOrderProofs ImportModel ImportSpec ImportProofs ImportOrder.
Import ListNotations.
Open Scope string_scope.
Open Scope nat_scope.
Open Scope list_scope.

(** ** C36: the symbol table. *)
Section Table.
Context {T : Type}.
Definition apply (t : table T) (e : event T) : option (table T) :=
  match e with Push id => Some (pushScope t id) | Add n v => addMapping t n v | Pop id => popScope t id end.
Fixpoint run (t : table T) (h : list (event T)) : option (table T) := match h with [] => Some t | e :: r => t' <- apply t e ;; run t' r end.
Definition asTable (s : list (string * list (string * T))) : table T := rev (map (fun p => {| sId := fst p; sMap := snd p |}) s).
Lemma run_app h1 : forall t h2, run t (h1 ++ h2) = obind (run t h1) (fun t => run t h2).
Proof. induction h1 as [|e h1 IH]; intros t h2; cbn; auto. destruct (apply t e); cbn; auto. Qed.
Lemma scopes_snoc (h : list (event T)) e : scopes (h ++ [e]) = step (scopes h) e.
Proof. unfold scopes. now rewrite fold_left_app. Qed.
Lemma scopeGet_lookup id m n : scopeGet (T := T) {| sId := id; sMap := m |} n = lookup m n.
Proof. unfold scopeGet. cbn. induction m as [|[k v] m IH]; cbn; auto. destruct (String.eqb k n); cbn; auto. Qed.
Lemma contains_lookup id m n : scopeContains (T := T) {| sId := id; sMap := m |} n = match lookup m n with Some _ => true | None => false end.
Proof. unfold scopeContains. cbn. induction m as [|[k v] m IH]; cbn; auto. destruct (String.eqb k n); cbn; auto. Qed.
Lemma apply_ok s e : apply (asTable s) e = match e, s with
  | Push _, _ => Some (asTable (step s e))
  | Add n _, (_, m) :: _ => if lookup m n then None else Some (asTable (step s e))
  | Pop id, (id', _) :: _ => if String.eqb id' id then Some (asTable (step s e)) else None
  | _, [] => None end.
Proof.
  destruct e as [id|n v|id]; cbn [apply step]; [reflexivity| |]; destruct s as [|[id' m] s]; cbn [asTable map rev app]; auto; unfold asTable; cbn [map rev fst snd].
  - rewrite addMapping_app, contains_lookup. cbn [sId sMap]. now destruct (lookup m n).
  - rewrite popScope_app. reflexivity.
Qed.
Lemma legal_snoc h e : legal (T := T) (h ++ [e]) <-> legal h /\ match e, scopes h with Push _, _ => True | Add n _, (_, m) :: _ => lookup m n = None | Pop id, (id', _) :: _ => id = id' | _, [] => False end.
Proof.
  split.
  - intros H. split; [|apply (H h e [] eq_refl)]. intros h1 e' h2 ->. apply (H h1 e' (h2 ++ [e])). now rewrite <- app_assoc.
  - intros [H1 H2] h1 e' h2 E. destruct h2 as [|y h2] using rev_ind; [apply app_inj_tail in E as [<- <-]; auto|]. rewrite app_comm_cons, app_assoc in E. apply app_inj_tail in E as [E _]. apply (H1 h1 e' h2 E).
Qed.
Lemma run_iff h : (legal h -> run [] h = Some (asTable (scopes h))) /\ (run [] h <> None -> legal h).
Proof.
  induction h as [|e h [IH1 IH2]] using rev_ind; [split; [reflexivity|]; intros _ h1 e h2 E; now destruct h1|]. rewrite legal_snoc, scopes_snoc, run_app. split.
  - intros [H1 H2]. rewrite (IH1 H1). cbn [obind run]. rewrite apply_ok. destruct e as [id|n v|id]; cbn [obind]; auto; destruct (scopes h) as [|[id' m] s]; try tauto.
    + rewrite H2. reflexivity.
    + subst. rewrite String.eqb_refl. reflexivity.
  - intros H. assert (R : run [] h <> None) by (destruct (run [] h); cbn in H; congruence). specialize (IH2 R). split; [auto|]. rewrite (IH1 IH2) in H. cbn [obind run] in H. rewrite apply_ok in H.
    destruct e as [id|n v|id]; auto; destruct (scopes h) as [|[id' m] s]; cbn in H; try congruence.
    + destruct (lookup m n); cbn in H; congruence.
    + destruct (String.eqb_spec id' id); cbn in H; congruence.
Qed.
Lemma getBy_firstOf s n : getByOnnxName (asTable s) n = firstOf (rev (map (fun s => lookup (snd s) n) s)).
Proof.
  assert (G : forall l m : list (option T), firstOf (l ++ m) = match firstOf l with Some v => Some v | None => firstOf m end) by (intros l m; induction l as [|[v|] l IH]; cbn; auto).
  unfold asTable. induction s as [|[id m] s IH]; cbn [map rev]; auto. rewrite getBy_app, G, IH. cbn [fst snd firstOf]. rewrite scopeGet_lookup. now destruct (firstOf _), (lookup m n).
Qed.

(** The operations the table accepts, and what a lookup then finds: the outermost binding. *)
Theorem C36_symbol_table (h : list (event T)) :
  (run [] h <> None <-> legal h) /\
  forall t, run [] h = Some t -> forall n, getByOnnxName t n = outermost h n /\ containsKey t n = (if outermost h n then true else false).
Proof.
  destruct (run_iff h) as [H1 H2]. split; [split; [auto|]; intros H; rewrite H1 by auto; discriminate|]. intros t E n. rewrite H1 in E by (apply H2; congruence). injection E as <-. split; [apply getBy_firstOf|].
  unfold outermost. rewrite <- getBy_firstOf. unfold containsKey, asTable. set (l := rev _). clearbody l. induction l as [|sc l IH]; cbn; auto. rewrite IH. destruct sc as [id m]. rewrite contains_lookup, scopeGet_lookup. now destruct (lookup m n).
Qed.
Lemma tl_shadow (s : list (string * list (string * T))) : (forall n, (length (filter (fun p => if lookup (T := T) (snd p) n then true else false) s) <= 1)%nat) -> forall n,
  firstOf (map (fun s => lookup (snd s) n) s) = firstOf (rev (map (fun s => lookup (snd s) n) s)).
Proof.
  intros H n. specialize (H n). assert (G : forall l m : list (option T), firstOf (l ++ m) = match firstOf l with Some v => Some v | None => firstOf m end) by (intros l m; induction l as [|[v|] l IH]; cbn; auto).
  induction s as [|[id m] s IH]; cbn [map rev]; auto. rewrite G. cbn [filter snd firstOf] in *. destruct (lookup m n) eqn:E.
  - cbn in H. assert (Z : firstOf (rev (map (fun s => lookup (snd s) n) s)) = None); [|now rewrite Z]. assert (F : filter (fun p => if lookup (snd p) n then true else false) s = []) by (destruct (filter _ s); [auto|cbn in H; lia]).
    clear - F G. induction s as [|[id m] s IH]; cbn in *; auto. rewrite G. destruct (lookup m n) eqn:E; [discriminate|]. now rewrite IH by auto.
  - rewrite IH by auto. now destruct (firstOf (rev _)).
Qed.
(** Without shadowing, that is lexical scoping: the innermost binding. *)
Theorem C36_lexical_scoping (h : list (event T)) t : run [] h = Some t -> no_shadowing h -> forall n, getByOnnxName t n = innermost h n.
Proof.
  intros E HS n. destruct (run_iff h) as [H1 H2]. assert (HL : legal h) by (apply H2; congruence). rewrite (H1 HL) in E. injection E as <-. rewrite getBy_firstOf. unfold innermost. symmetry. apply tl_shadow.
  clear H1 H2 n. induction h as [|e h IH] using rev_ind; [cbn; lia|]. intros n. apply legal_snoc in HL as [HL HE]. assert (HS' : no_shadowing h) by (intros h1 k v h2 ->; apply (HS h1 k v (h2 ++ [e])); now rewrite <- app_assoc).
  specialize (IH HS' HL). rewrite scopes_snoc. destruct e as [id|k v|id]; cbn [step].
  - cbn. apply IH.
  - pose proof (HS h k v [] eq_refl) as HI. unfold innermost in HI. destruct (scopes h) as [|[id m] s]; [tauto|]. specialize (IH n). cbn [filter snd lookup] in *. destruct (String.eqb_spec k n) as [->|Q]; [|destruct (lookup m n); exact IH].
    cbn [map firstOf snd] in HI. rewrite HE in HI. assert (F : filter (fun p => if lookup (T := T) (snd p) n then true else false) s = []).
    { clear - HI. induction s as [|[id m] s IH]; cbn in *; auto. destruct (lookup m n); [discriminate|auto]. }
    rewrite F. cbn. lia.
  - specialize (IH n). destruct (scopes h) as [|[id' m] s]; [tauto|]. cbn [tl filter snd] in *. destruct (lookup m n); cbn in IH; lia.
Qed.
(** Closing a scope restores the table. *)
Theorem C36_pop_restores (h1 h2 : list (event T)) id id' t t' : run [] h1 = Some t -> run [] (h1 ++ Push id :: h2 ++ [Pop id']) = Some t' ->
  (forall a b, h2 = a ++ b -> (length (scopes h1) < length (scopes (h1 ++ Push id :: a)))%nat) -> length (scopes (h1 ++ Push id :: h2)) = S (length (scopes h1)) -> t' = t /\ id' = id.
Proof.
  intros E1 E2 HB HD. destruct (run_iff h1) as [A1 A2]. destruct (run_iff (h1 ++ Push id :: h2 ++ [Pop id'])) as [B1 B2]. rewrite A1 in E1 by (apply A2; congruence). assert (LG : legal (h1 ++ Push id :: h2 ++ [Pop id'])) by (apply B2; congruence). rewrite (B1 LG) in E2. injection E1 as <-. injection E2 as <-.
  assert (G : forall a b, h2 = a ++ b -> exists s m, scopes (h1 ++ Push id :: a) = s ++ (id, m) :: scopes h1).
  { induction a as [|e a IH] using rev_ind; intros b E.
    - exists [], []. rewrite scopes_snoc. reflexivity.
    - rewrite <- app_assoc in E. destruct (IH _ E) as (s & m & ES). replace (h1 ++ Push id :: a ++ [e]) with ((h1 ++ Push id :: a) ++ [e]) by now rewrite <- app_assoc. pose proof (HB (a ++ [e]) b ltac:(rewrite <- app_assoc; auto)) as HL.
      replace (h1 ++ Push id :: a ++ [e]) with ((h1 ++ Push id :: a) ++ [e]) in HL by now rewrite <- app_assoc. rewrite scopes_snoc, ES in *. destruct e as [k|k v|k]; cbn [step] in *.
      + exists ((k, []) :: s), m. reflexivity.
      + destruct s as [|[x y] s]; cbn; [exists [], ((k, v) :: m); reflexivity|exists ((x, (k, v) :: y) :: s), m; reflexivity].
      + destruct s as [|x s]; cbn [app tl] in *; [cbn in HL; lia|exists s, m; reflexivity]. }
  destruct (G h2 [] (eq_sym (app_nil_r _))) as (s & m & ES). rewrite ES, app_length in HD. cbn in HD. destruct s; [|cbn in HD; lia]. cbn [app] in ES.
  replace (h1 ++ Push id :: h2 ++ [Pop id']) with ((h1 ++ Push id :: h2) ++ [Pop id']) in * by now rewrite <- app_assoc.
  rewrite scopes_snoc, ES. cbn [step tl]. split; [auto|].
  apply legal_snoc in LG as [_ LG]. now rewrite ES in LG.
Qed.
End Table.

Example C36_case : let h := [Push "main"; Add "x" 1; Push "then"; Add "y" 2; Pop "then"; Add "z" 3] in
  (exists t, run [] h = Some t /\ getByOnnxName t "x" = Some 1 /\ getByOnnxName t "y" = None /\ getByOnnxName t "z" = Some 3) /\ legal h /\ no_shadowing h.
Proof.
  split; [eexists; vm_compute; auto|]. split.
  - apply run_iff. vm_compute. discriminate.
  - intros h1 n v h2 E. repeat (destruct h1 as [|? h1]; cbn in E; [try discriminate; injection E; intros; subst; vm_compute; reflexivity|injection E as <- E]). now destruct h1.
Qed.
(** A name of an inner scope that hides an outer one is not found. *)
Theorem C36_shadowing_refuted : exists (h : list (event nat)) t, run [] h = Some t /\ legal h /\ innermost h "x" = Some 2 /\ getByOnnxName t "x" = Some 1.
Proof.
  exists [Push "main"; Add "x" 1; Push "then"; Add "x" 2]. eexists. split; [vm_compute; reflexivity|]. split; [apply run_iff; vm_compute; discriminate|]. vm_compute. auto.
Qed.

(** ** C48: import keeps the meaning of the graph. *)
Theorem C48_import {O D} (sem : O -> list (@value D) -> list (list (@value D) -> option (list (@value D))) -> option (list (@value D))) nIn nOut (g : graph O D) :
  respectful sem -> trailing_optional sem nIn -> scopedGraph [] g ->
  exists r, importMain nIn nOut g = Some r /\ forall vals, behaviour sem r vals = meaning sem g vals.
Proof.
  intros HR HT HS. destruct (import_ok sem nIn nOut HR HT) as [_ HG]. destruct (HG g [] {| tab := []; next := 0 |}) as (r & st' & E & _ & _ & HB); [intros n; cbn; split; [intros []|congruence]|auto|].
  exists r. unfold importMain. rewrite E. split; [reflexivity|]. intros vals. apply HB. intros n. reflexivity.
Qed.

(** A concrete operator set over Z: 0 subtracts; 1 adds its optional second input, 10 when
    left out; 2 runs its first subgraph when its input is not 0 and the second otherwise. *)
Fixpoint dropNone (l : list (@value Z)) : list (@value Z) := match l with None :: r => dropNone r | _ => l end.
Definition stripNone (l : list (@value Z)) : list (@value Z) := rev (dropNone (rev l)).
Definition sem0 (o : nat) (vs : list (@value Z)) (fs : list (list (@value Z) -> option (list (@value Z)))) : option (list (@value Z)) :=
  match o, stripNone vs, fs with
  | 0, [Some a; Some b], _ => Some [Some (a - b)%Z; Some (a * b)%Z]
  | 1, [Some a], _ => Some [Some (a + 10)%Z]
  | 1, [Some a; Some b], _ => Some [Some (a + b)%Z]
  | 2, [Some c], [f; g] => if (c =? 0)%Z then g [] else f []
  | _, _, _ => None
  end.
Definition nIn0 (o : nat) : option nat := Some (match o with 2 => 1 | _ => 2 end).
Definition nOut0 (o : nat) : option nat := Some (match o with 0 => 2 | _ => 1 end).
Lemma sem0_respectful : respectful sem0.
Proof.
  intros o vs fs gs H. unfold sem0. destruct o as [|[|[|o]]]; auto. destruct (stripNone vs) as [|[c|] [|]]; auto. inversion H as [|f g fs' gs' H1 H2]; subst; auto. inversion H2 as [|f' g' fs'' gs'' H3 H4]; subst; auto. inversion H4; subst; auto. destruct (c =? 0)%Z; auto.
Qed.
Lemma sem0_trailing : trailing_optional sem0 nIn0.
Proof. intros o vs fs _. unfold sem0, stripNone. now rewrite rev_app_distr. Qed.
(** An initializer, a subgraph capturing values and using an omitted input, and a call. *)
Definition graph0 : graph nat Z := Graph "g" [("w", 5%Z)] ["x"; "w"]
  [NOp 0 ["x"; "w"] ["d"; ""] [];
   NCall "f" ["d"; ""] ["e"] ["a"; "b"; "c"] ["r"] [NOp 1 ["a"; "b"] ["r"] []];
   NOp 2 ["d"] ["y"] [Graph "t" [] [] [NOp 1 ["e"] ["u"] []] ["u"]; Graph "e" [("k", 1%Z)] [] [NOp 0 ["e"; "k"] ["v"; "unused"] []] ["v"]]] ["y"; "e"].
Example C48_case : respectful sem0 /\ trailing_optional sem0 nIn0 /\ scopedGraph [] graph0 /\
  meaning sem0 graph0 [Some 5%Z] = Some [Some 9%Z; Some 10%Z] /\ meaning sem0 graph0 [Some 7%Z] = Some [Some 22%Z; Some 12%Z] /\
  exists r, importMain nIn0 nOut0 graph0 = Some r /\ behaviour sem0 r [Some 7%Z] = Some [Some 22%Z; Some 12%Z].
Proof.
  split; [apply sem0_respectful|]. split; [apply sem0_trailing|].
  assert (A : scopedGraph [] graph0).
  { cbn. unfold usable, new. cbn. repeat match goal with |- _ /\ _ => split | |- Forall _ _ => constructor | |- NoDup _ => constructor | |- True => exact I end; cbn; try (intros ? [<-|[]]; cbn; intuition discriminate); try (intros n0 Hn; intuition (subst; discriminate)); intuition (try discriminate; auto). }
  split; [exact A|]. split; [reflexivity|]. split; [reflexivity|]. destruct (C48_import sem0 nIn0 nOut0 graph0 sem0_respectful sem0_trailing A) as (r & E & H). exists r. split; [auto|]. rewrite H. reflexivity.
Qed.
(** A name defined nowhere is dropped, and the next input takes its place. *)
Theorem C48_undefined_input_refuted : exists (g : graph nat Z) r, importMain nIn0 nOut0 g = Some r /\ meaning sem0 g [Some 1%Z] = None /\ behaviour sem0 r [Some 1%Z] = Some [Some 11%Z].
Proof. exists (Graph "g" [] ["x"] [NOp 1 ["nowhere"; "x"] ["y"] []] ["y"]). eexists. split; [vm_compute; reflexivity|]. vm_compute. auto. Qed.
(** A subgraph that reuses a name gets the outer value. *)
Theorem C48_shadowing_refuted : exists (g : graph nat Z) r, importMain nIn0 nOut0 g = Some r /\ meaning sem0 g [Some 1%Z] = Some [Some 110%Z] /\ behaviour sem0 r [Some 1%Z] = Some [Some 11%Z].
Proof.
  exists (Graph "g" [] ["x"] [NOp 2 ["x"] ["y"] [Graph "t" [("x", 100%Z)] [] [NOp 1 ["x"] ["u"] []] ["u"]; Graph "e" [] [] [] []]] ["y"]). eexists. split; [vm_compute; reflexivity|]. vm_compute. auto.
Qed.
(** A call that leaves out a trailing output, or two outputs, is not imported. *)
Theorem C48_call_outputs_refuted : exists (g h : graph nat Z), importMain nIn0 nOut0 g = None /\ meaning sem0 g [Some 3%Z] = Some [Some 0%Z] /\ importMain nIn0 nOut0 h = None /\ meaning sem0 h [Some 3%Z] = Some [Some 13%Z].
Proof.
  exists (Graph "g" [] ["x"] [NCall "f" ["x"; "x"] ["y"] ["a"; "b"] ["p"; "q"] [NOp 0 ["a"; "b"] ["p"; "q"] []]] ["y"]).
  exists (Graph "g" [] ["x"] [NCall "f" ["x"; "x"] [""; ""; "y"] ["a"; "b"] ["p"; "q"; "r"] [NOp 0 ["a"; "b"] ["p"; "q"] []; NOp 1 ["a"] ["r"] []]] ["y"]). vm_compute. auto.
Qed.
(** Dropout's inputs: the values given, in place, and the defaults after them. *)
Theorem C48_dropout known ins : (1 <= length ins <= 3)%nat -> Forall (fun n => n <> "" /\ known n = true) ins ->
  dropoutOperands known ins = map FromName ins ++ (if (length ins <? 2)%nat then [DefaultRatio] else []) ++ (if (length ins <? 3)%nat then [DefaultTraining] else []).
Proof.
  intros HL HF. unfold dropoutOperands. assert (E1 : filter known ins = ins) by (clear HL; induction HF as [|n l [_ H] HF IH]; cbn; [auto|]; now rewrite H, IH).
  assert (E2 : filter (fun n => String.eqb n "" || known n) ins = ins) by (clear HL E1; induction HF as [|n l [_ H] HF IH]; cbn; [auto|]; now rewrite H, orb_true_r, IH).
  rewrite E1, E2. destruct (Nat.eqb_spec (length ins) 3) as [E|E].
  - rewrite E. cbn [Nat.ltb Nat.leb app]. rewrite app_nil_r. clear - HF. induction HF as [|n l [H _] HF IH]; cbn; [auto|]. destruct (String.eqb_spec n ""); [tauto|]. now rewrite IH.
  - destruct ins as [|a [|b [|c l]]]; cbn in *; try lia; reflexivity.
Qed.
Example C48_dropout_case : dropoutOperands (fun n => negb (String.eqb n "")) ["x"] = [FromName "x"; DefaultRatio; DefaultTraining] /\ dropoutOperands (fun n => negb (String.eqb n "")) ["x"; ""; "t"] = [FromName "x"; NoValue; FromName "t"].
Proof. split; reflexivity. Qed.
(** With an empty ratio, the training flag is in its place; a Slice with empty axes crashes. *)
Theorem C48_empty_optional_refuted : dropoutOperands (fun n => negb (String.eqb n "")) ["x"; ""] = [FromName "x"; DefaultTraining; NoValue] /\
  sliceOperands (fun n => negb (String.eqb n "")) ["x"; "starts"; "ends"; ""; "steps"] = None.
Proof. split; reflexivity. Qed.

(** ** C49: the order of the nodes. *)
Section Order.
Context {N : Type} (ins outs : N -> list string).
Theorem C49_check inits inputs nodes : isTopologicallySorted ins outs (inits ++ inputs) nodes = true <-> in_order ins outs (inits ++ inputs) nodes.
Proof. apply isTop_ok. Qed.
(** The result is an ordering of the same nodes, in order, and the smallest such one. *)
Theorem C49_sort inits inputs nodes l : sortGraph ins outs inits inputs nodes = Sorted l ->
  Permutation l nodes /\ in_order ins outs (inits ++ inputs ++ [""]) l /\
  exists p, Permutation p (seq 0 (length nodes)) /\ arranged nodes p l /\
    (single_producer outs (inits ++ inputs ++ [""]) nodes -> forall q k, Permutation q (seq 0 (length nodes)) -> arranged nodes q k -> in_order ins outs (inits ++ inputs ++ [""]) k -> lex_le p q).
Proof.
  intros E. pose proof (sortGraph_ok ins outs inits inputs nodes) as H. rewrite E in H. destruct H as (p & H1 & H2 & H3 & H4). split; [eapply arranged_perm; eauto|]. split; [auto|]. exists p. auto.
Qed.
(** It fails exactly when no ordering is in order. *)
Theorem C49_not_sortable inits inputs nodes : single_producer outs (inits ++ inputs ++ [""]) nodes ->
  (sortGraph ins outs inits inputs nodes = NotSortable <-> forall l, Permutation l nodes -> ~ in_order ins outs (inits ++ inputs ++ [""]) l) /\ sortGraph ins outs inits inputs nodes <> Stuck.
Proof.
  intros HS. pose proof (sortGraph_ok ins outs inits inputs nodes) as H. destruct (sortGraph ins outs inits inputs nodes) as [l| |] eqn:E; [|split; [|discriminate]; split; [intros _; auto|auto]|destruct H].
  split; [|discriminate]. split; [discriminate|]. intros HN. exfalso. destruct (C49_sort inits inputs nodes l E) as (H1 & H2 & _). eapply HN; eauto.
Qed.
(** Nodes in order stay where they are. *)
Theorem C49_keeps_order inits inputs nodes : single_producer outs (inits ++ inputs ++ [""]) nodes -> in_order ins outs (inits ++ inputs ++ [""]) nodes -> sortGraph ins outs inits inputs nodes = Sorted nodes.
Proof.
  intros HS HO. destruct (C49_not_sortable inits inputs nodes HS) as [H1 H2]. destruct (sortGraph ins outs inits inputs nodes) as [l| |] eqn:E; [|exfalso; eapply (proj1 H1); eauto|congruence].
  f_equal. destruct (C49_sort inits inputs nodes l E) as (_ & _ & p & P1 & P2 & P3). specialize (P3 HS _ _ (Permutation_refl _) (arranged_seq nodes) HO). apply (lex_antisym_seq 0 _ p P3) in P1. subst p. eapply arranged_fun; [exact P2|apply arranged_seq].
Qed.
End Order.
Lemma single_of_nodup {N} (outs : N -> list string) known l : NoDup (flat_map outs l) -> single_producer outs known l.
Proof.
  intros H before m middle n after x -> H1 H2. exfalso. rewrite flat_map_app in H. apply NoDup_app_inv in H as (_ & H & _). cbn in H. apply NoDup_app_inv in H as (_ & _ & H). apply (H x H1). rewrite flat_map_app. apply in_app_iff. right. cbn. apply in_app_iff. auto.
Qed.
Definition pairNodes : list (list string * list string) := [(["b"; ""], ["c"]); (["x"], ["a"]); (["a"; "x"], ["b"])].
Example C49_case : sortGraph fst snd [] ["x"] pairNodes = Sorted [(["x"], ["a"]); (["a"; "x"], ["b"]); (["b"; ""], ["c"])] /\ single_producer (@snd (list string) (list string)) ([] ++ ["x"] ++ [""]) pairNodes /\
  sortGraph fst snd [] ["x"] [(["b"], ["a"]); (["a"], ["b"])] = NotSortable.
Proof.
  split; [reflexivity|]. split; [|reflexivity]. apply single_of_nodup. cbn. repeat constructor; cbn; intuition discriminate.
Qed.

(** Import of a model whose nodes, without subgraphs and calls, come in any order: if some
    order is legal, the model is imported, and computes what any legal order means. *)
Theorem C49_sort_then_import {O D} (sem : O -> list (@value D) -> list (list (@value D) -> option (list (@value D))) -> option (list (@value D))) nIn nOut id inits inputs (nodes k : list (node O D)) outputs :
  respectful sem -> trailing_optional sem nIn -> Forall flat nodes -> Permutation k nodes -> scopedGraph [] (Graph id inits inputs k outputs) ->
  exists r, importModel nIn nOut true (Graph id inits inputs nodes outputs) = Imported r /\ forall vals, behaviour sem r vals = meaning sem (Graph id inits inputs k outputs) vals.
Proof.
  intros HR HT HF HP HS. set (free := uninitialized inits inputs). set (K := map fst inits ++ inputs ++ [""]).
  change (new [] (map fst inits ++ free) /\ scopedNodes (fun vis => Forall (fun n => In n vis) outputs) (map fst inits ++ free) k) in HS. destruct HS as [HN HB].
  (* the scoping of k *)
  assert (FR : forall x, In x inputs -> In x (map fst inits ++ free)).
  { intros x Hx. rewrite in_app_iff. unfold free, uninitialized. rewrite filter_In. destruct (existsb (fun e => String.eqb (fst e) x) inits) eqn:E; [|right; auto]. left. apply existsb_exists in E as (e & E1 & E2). apply String.eqb_eq in E2. subst. now apply in_map. }
  assert (FR2 : forall x, In x (map fst inits ++ free) -> In x K).
  { intros x Hx. unfold K. rewrite !in_app_iff. apply in_app_iff in Hx as [Hx|Hx]; [auto|]. apply filter_In in Hx. tauto. }
  assert (SC : forall (l : list (node O D)) vis (P : list string -> Prop), Forall flat l -> scopedNodes P vis l -> NoDup (outNames l) /\ (forall x, In x (outNames l) -> ~ In x vis) /\ in_order nodeIns nodeOuts ("" :: vis) l /\ P (vis ++ outNames l)).
  { clear. induction l as [|n l IH]; intros vis P HF H; cbn [scopedNodes outNames flat_map] in *.
    - split; [constructor|]. split; [intros x []|]. split; [intros a m b E; now destruct a|now rewrite app_nil_r].
    - destruct H as [H1 H2]. inversion HF as [|? ? F1 F2]; subst. assert (EQ : outsOf n = nodeOuts n) by now destruct n. rewrite EQ in H2. destruct (IH _ _ F2 H2) as (A & B & C & P'). destruct n as [o i os [|]|]; cbn [flat] in F1; try tauto.
      change (Forall (usable vis) i /\ new vis (named os) /\ True) in H1. destruct H1 as (U & [N1 N2] & _). cbn [nodeOuts] in *. split; [|split; [|split]].
      + clear - A B N1. assert (DJ : forall x, In x (named os) -> ~ In x (outNames l)) by (intros x Hx Hl; apply (B x Hl), in_app_iff; auto). clear B. induction (named os) as [|y t IH]; cbn; [auto|]. inversion N1; subst. constructor; [rewrite in_app_iff; intros [|Q]; [tauto|eapply DJ; cbn; eauto]|]. apply IH; auto. intros x Hx. apply DJ. cbn; auto.
      + intros x Hx Hv. apply in_app_iff in Hx as [Hx|Hx]; [apply (N2 x Hx); auto|apply (B x Hx), in_app_iff; auto].
      + intros before m after E x Hx. destruct before as [|y before]; cbn in E; injection E as <- ->.
        * left. rewrite Forall_forall in U. destruct (U x Hx) as [->|]; cbn; auto.
        * destruct (C before m after eq_refl x Hx) as [[<-|H]|(m' & M1 & M2)]; [left; cbn; auto| |right; exists m'; cbn; auto]. apply in_app_iff in H as [H|H]; [left; cbn; auto|]. right. eexists. split; [cbn; left; reflexivity|]. now apply named_in in H.
      + rewrite app_assoc. exact P'. }
  assert (FK : Forall flat k) by (eapply Permutation_Forall; [symmetry; exact HP|auto]).
  destruct (SC k _ _ FK HB) as (ND & DJ & IO & PO).
  assert (IOK : in_order nodeIns nodeOuts K k).
  { intros a m b E x Hx. destruct (IO a m b E x Hx) as [[<-|H]|H]; [left; unfold K; rewrite !in_app_iff; cbn; auto|left; auto|auto]. }
  assert (ON : forall l : list (node O D), Permutation l k -> Permutation (outNames l) (outNames k)) by (intros l Hl; unfold outNames; now apply Permutation_flat_map).
  assert (KV : forall x, In x K -> x = "" \/ In x (map fst inits ++ free)).
  { intros x Hx. unfold K in Hx. rewrite !in_app_iff in Hx. destruct Hx as [H|[H|[<-|[]]]]; [right; apply in_app_iff; auto|right; auto|auto]. }
  assert (SP : forall l, Permutation l k -> single_producer nodeOuts K l).
  { intros l Hl before m middle n after x E H1 H2. destruct (string_dec x "") as [->|Q]; [unfold K; rewrite !in_app_iff; cbn; auto|]. exfalso.
    assert (NL : NoDup (outNames l)) by (eapply Permutation_NoDup; [symmetry; apply ON; auto|auto]). subst l. unfold outNames in NL. rewrite flat_map_app in NL. apply NoDup_app_inv in NL as (_ & NL & _). cbn [flat_map] in NL. apply NoDup_app_inv in NL as (_ & _ & NL). apply (NL x); [now apply named_in|]. rewrite flat_map_app. apply in_app_iff. right. cbn. apply in_app_iff. left. now apply named_in. }
  (* every order in order is imported, and means the same *)
  assert (MAIN : forall l, Permutation l k -> in_order nodeIns nodeOuts K l -> exists r, importMain nIn nOut (Graph id inits inputs l outputs) = Some r /\ forall vals, behaviour sem r vals = meaning sem (Graph id inits inputs k outputs) vals).
  { intros l Hl HO. assert (FL : Forall flat l) by (eapply Permutation_Forall; [symmetry; exact Hl|auto]). assert (NL : NoDup (outNames l)) by (eapply Permutation_NoDup; [symmetry; apply ON; auto|auto]).
    assert (DL : forall x, In x (outNames l) -> ~ In x (map fst inits ++ free)) by (intros x Hx; apply DJ; eapply Permutation_in; [apply ON; exact Hl|auto]).
    assert (SG : scopedGraph [] (Graph id inits inputs l outputs)).
    { change (new [] (map fst inits ++ free) /\ scopedNodes (fun vis => Forall (fun n => In n vis) outputs) (map fst inits ++ free) l). split; [auto|]. eapply in_order_scoped with (K := K); eauto.
      eapply Forall_impl; [|exact PO]. intros x Hx. cbn in Hx |- *. rewrite in_app_iff in *. destruct Hx as [Hx|Hx]; [auto|right]. eapply Permutation_in; [symmetry; apply ON; exact Hl|auto]. }
    destruct (C48_import sem nIn nOut _ HR HT SG) as (r & E & H). exists r. split; [auto|]. intros vals. rewrite H.
    change (meaning sem (Graph id inits inputs l outputs) vals) with (if (length vals =? length free)%nat then e' <- evalNodes sem l (setAll (setAll (fun _ => None) (map fst inits) (map (fun i => Some (snd i)) inits)) free vals) ;; allSome e' outputs else None).
    change (meaning sem (Graph id inits inputs k outputs) vals) with (if (length vals =? length free)%nat then e' <- evalNodes sem k (setAll (setAll (fun _ => None) (map fst inits) (map (fun i => Some (snd i)) inits)) free vals) ;; allSome e' outputs else None).
    destruct (length vals =? length free)%nat; [|auto].
    assert (DK : forall x, In x (outNames l) -> ~ In x K). { intros x Hx HK. destruct (KV x HK) as [->|HK']; [apply in_flat_map in Hx as (m & _ & Hx); apply named_in in Hx; tauto|]. apply (DL x); auto. }
    pose proof (order_irrelevant sem k K l (setAll (setAll (fun _ => None) (map fst inits) (map (fun i => Some (snd i)) inits)) free vals) Hl FK NL DK HO IOK) as OS.
    destruct (evalNodes sem l _) as [E1|], (evalNodes sem k _) as [E2|]; cbn in OS |- *; try tauto. apply allSome_ext. intros x _. apply OS. }
  unfold importModel. cbn [andb]. destruct (isTopologicallySorted nodeIns nodeOuts (map fst inits ++ inputs) nodes) eqn:IT; cbn [negb].
  - apply isTop_ok in IT. destruct (MAIN nodes) as (r & E & H); [now symmetry| |rewrite E; eauto]. intros a m b E x Hx. destruct (IT a m b E x Hx) as [Q|Q]; [left; unfold K; rewrite !in_app_iff in *; tauto|auto].
  - destruct (C49_not_sortable nodeIns nodeOuts (map fst inits) inputs nodes (SP nodes (Permutation_sym HP))) as [NS NST]. destruct (sortGraph nodeIns nodeOuts (map fst inits) inputs nodes) as [l| |] eqn:E; [|exfalso; eapply (proj1 NS eq_refl k); eauto|congruence].
    destruct (C49_sort _ _ _ _ _ _ E) as (P1 & P2 & _). destruct (MAIN l) as (r & E' & H); [rewrite P1; now symmetry|exact P2|rewrite E'; eauto].
Qed.
Definition unsorted0 : list (node nat Z) := [NOp 1 ["b"; ""] ["c"] []; NOp 1 ["x"] ["a"] []; NOp 0 ["a"; "x"] ["b"; ""] []].
Definition sorted0 : list (node nat Z) := [NOp 1 ["x"] ["a"] []; NOp 0 ["a"; "x"] ["b"; ""] []; NOp 1 ["b"; ""] ["c"] []].
Example C49_import_case : Forall flat unsorted0 /\ Permutation sorted0 unsorted0 /\ scopedGraph [] (Graph "g" [] ["x"] sorted0 ["c"; "a"]) /\
  meaning sem0 (Graph "g" [] ["x"] sorted0 ["c"; "a"]) [Some 4%Z] = Some [Some 20%Z; Some 14%Z].
Proof.
  split; [repeat constructor|]. split; [unfold sorted0, unsorted0; apply perm_trans with [NOp 1 ["x"] ["a"] []; NOp 1 ["b"; ""] ["c"] []; NOp 0 ["a"; "x"] ["b"; ""] []]; [apply perm_skip, perm_swap|apply perm_swap]|]. split; [|reflexivity].
  cbn. unfold usable, new. cbn. repeat match goal with |- _ /\ _ => split | |- Forall _ _ => constructor | |- NoDup _ => constructor | |- True => exact I end; cbn; try (intros ? [<-|[]]; cbn; intuition discriminate); intuition (try discriminate; auto).
Qed.
(** What a subgraph uses is not seen: the sort succeeds with an order in which it comes
    before its definition, although another order is legal. *)
Theorem C49_captured_refuted : exists (nodes good : list (node nat Z)), Permutation good nodes /\ scopedGraph [] (Graph "g" [] ["x"] good ["y"]) /\
  importModel nIn0 nOut0 true (Graph "g" [] ["x"] good ["y"]) <> Crashed /\ (exists l, sortGraph nodeIns nodeOuts [] ["x"] nodes = Sorted l) /\
  exists r, importModel nIn0 nOut0 true (Graph "g" [] ["x"] nodes ["y"]) = Imported r /\ meaning sem0 (Graph "g" [] ["x"] good ["y"]) [Some 1%Z] = Some [Some (-11)%Z] /\ behaviour sem0 r [Some 1%Z] = None.
Proof.
  set (i := NOp 2 ["x"] ["y"] [Graph "t" [] [] [NOp 0 ["x"; "c"] ["u"; ""] []] ["u"]; Graph "e" [] [] [] []] : node nat Z).
  set (d' := NOp 1 ["x"; ""] ["z"] [] : node nat Z).
  exists [NOp 1 ["z"; "x"] ["c"] []; i; d'], [d'; NOp 1 ["z"; "x"] ["c"] []; i]. split; [apply perm_trans with [NOp 1 ["z"; "x"] ["c"] []; d'; i]; [apply perm_swap|apply perm_skip, perm_swap]|]. split.
  { subst i d'. cbn. unfold usable, new. cbn. repeat match goal with |- _ /\ _ => split | |- Forall _ _ => constructor | |- NoDup _ => constructor | |- True => exact I end; cbn; try (intros ? [<-|[]]; cbn; intuition discriminate); intuition (try discriminate; auto). }
  split; [vm_compute; discriminate|]. split; [eexists; vm_compute; reflexivity|]. eexists. split; [vm_compute; reflexivity|]. vm_compute. auto.
Qed.
(** A model whose nodes have no order is reported as imported, without a module. *)
Theorem C49_unsortable_reported_refuted : exists g : graph nat Z, importModel nIn0 nOut0 true g = Rejected /\ importArray nIn0 nOut0 true g = Some (0, None).
Proof. exists (Graph "g" [] ["x"] [NOp 1 ["b"] ["a"] []; NOp 1 ["a"] ["b"] []] ["a"]). vm_compute. auto. Qed.
(** The check calls a legal order with an omitted input unsorted; sorting then keeps it. *)
Theorem C49_check_empty_refuted : exists nodes : list (node nat Z), in_order nodeIns nodeOuts (["x"] ++ [""]) nodes /\ isTopologicallySorted nodeIns nodeOuts (map fst (@nil (string * Z)) ++ ["x"]) nodes = false.
Proof.
  exists [NOp 1 ["x"; ""] ["y"] []]. split; [|reflexivity]. apply isTop_ok. reflexivity.
Qed.

(** ** C50: the version of an operator. *)
(** [newest]: of the versions of the operator, that of the model's opset: the newest not
    newer, or the oldest. *)
Definition version_of (opsets : list nat) (current v : nat) : Prop :=
  In v opsets /\ (v <= current /\ (forall w, In w opsets -> w <= current -> w <= v) \/ (forall w, In w opsets -> current < w /\ v <= w)).
Definition decreasing (l : list nat) : Prop := forall a x b y c, l = a ++ x :: b ++ y :: c -> y < x.
Lemma decreasing_cons x l : decreasing (x :: l) <-> (forall y, In y l -> y < x) /\ decreasing l.
Proof.
  split.
  - intros H. split; [intros y Hy; apply in_split in Hy as (b & c & ->); apply (H [] x b y c eq_refl)|]. intros a z b y c ->. apply (H (x :: a) z b y c eq_refl).
  - intros [H1 H2] a z b y c E. destruct a as [|w a]; cbn in E; injection E as <- E; [apply H1; rewrite E; apply in_app_iff; cbn; auto|]. apply (H2 a z b y c E).
Qed.
Lemma newestValid_ok opsets current : opsets <> [] -> decreasing opsets -> version_of opsets current (newestValid opsets current).
Proof.
  intros HE HD. unfold newestValid, version_of. destruct (find (fun v => v <=? current) opsets) as [v|] eqn:F.
  - apply find_some in F as F'. destruct F' as [F1 F2]. apply Nat.leb_le in F2. split; [auto|]. left. split; [auto|]. clear HE F1 F2. induction opsets as [|x l IH]; intros w Hw HC; [destruct Hw|]. apply decreasing_cons in HD as [D1 D2]. cbn in F. destruct (Nat.leb_spec x current).
    + injection F as <-. destruct Hw as [<-|Hw]; [auto|]. specialize (D1 w Hw). lia.
    + destruct Hw as [<-|Hw]; [lia|auto].
  - assert (A : forall w, In w opsets -> current < w) by (intros w Hw; pose proof (find_none _ _ F w Hw) as Q; cbn in Q; apply Nat.leb_gt in Q; auto). assert (L : In (last opsets 0) opsets) by (destruct (exists_last HE) as (l & x & ->); rewrite last_last; apply in_app_iff; cbn; auto).
    split; [exact L|]. right. intros w Hw. split; [auto|]. clear F A L. destruct (exists_last HE) as (l & x & ->). rewrite last_last. apply in_app_iff in Hw as [Hw|[<-|[]]]; [|lia]. apply in_split in Hw as (a & b & ->). specialize (HD a w b x []). rewrite <- app_assoc in HD. specialize (HD eq_refl). lia.
Qed.
(** The version imported: the oldest supported one that is not older than the model's
    ([None]: the newest supported, also when all are older). *)
Theorem C50_version supported opsets current : supported <> [] -> opsets <> [] -> decreasing supported -> decreasing opsets ->
  exists v, version_of opsets current v /\
    match importVersion supported opsets current with
    | Some s => In s supported /\ v <= s /\ (forall w, In w supported -> v <= w -> s <= w) /\ s <> hd 0 supported
    | None => forall w, In w supported -> v <= w -> w = hd 0 supported
    end.
Proof.
  intros HS HO DS DO. exists (newestValid opsets current). split; [now apply newestValid_ok|]. set (v := newestValid opsets current). unfold importVersion. fold v. destruct supported as [|front r]; [tauto|]. cbn [hd]. clear HS HO DO.
  apply decreasing_cons in DS as [D1 D2]. destruct (Nat.leb_spec front v) as [H|H].
  - intros w [<-|Hw] Hv; [auto|]. specialize (D1 w Hw). lia.
  - destruct (find _ (rev (front :: r))) as [s|] eqn:F.
    + apply find_some in F as F'. destruct F' as [F1 F2]. apply in_rev in F1. rewrite andb_true_iff, negb_true_iff in F2. destruct F2 as [F2 F3]. apply Nat.leb_le in F2. apply Nat.eqb_neq in F3. split; [auto|]. split; [auto|]. split; [|auto].
      assert (D : decreasing (front :: r)) by (apply decreasing_cons; auto). intros w Hw HV. destruct (Nat.eq_dec w front) as [->|Q]; [destruct F1 as [<-|F1]; [auto|specialize (D1 s F1); lia]|].
      clear - F D Hw HV Q. set (l := front :: r) in *. clearbody l. induction l as [|x l IH]; [destruct Hw|]. cbn [rev] in F. apply decreasing_cons in D as [E1 E2].
      assert (FA : forall (f : nat -> bool) a b, find f (a ++ b) = match find f a with Some k => Some k | None => find f b end) by (clear; intros f a b; induction a as [|z a IH]; cbn; auto; destruct (f z); auto).
      rewrite FA in F. destruct (find _ (rev l)) as [s'|] eqn:F'.
      * injection F as ->. destruct Hw as [<-|Hw]; [|auto]. apply find_some in F' as [F1 _]. apply in_rev in F1. specialize (E1 s F1). lia.
      * destruct Hw as [<-|Hw].
        -- cbn in F. destruct (Nat.leb_spec v x); [|lia]. destruct (Nat.eqb_spec x front); [tauto|]. cbn in F. injection F as <-. lia.
        -- pose proof (find_none _ _ F' w ltac:(now apply -> in_rev)) as N. cbn in N. destruct (Nat.leb_spec v w); [|lia]. destruct (Nat.eqb_spec w front); [tauto|discriminate].
    + intros w Hw HV. pose proof (find_none _ _ F w ltac:(now apply -> in_rev)) as N. cbn in N. destruct (Nat.leb_spec v w); [|lia]. destruct (Nat.eqb_spec w front); [auto|discriminate].
Qed.
(** In particular a supported version is imported as itself. *)
Corollary C50_exact supported opsets current v : decreasing supported -> decreasing opsets -> In v supported -> version_of opsets current v ->
  importVersion supported opsets current = if Nat.eqb v (hd 0 supported) then None else Some v.
Proof.
  intros DS DO HV HVO. assert (HS : supported <> []) by (intros ->; destruct HV). assert (HO : opsets <> []) by (intros ->; destruct HVO as [[] _]).
  destruct (C50_version supported opsets current HS HO DS DO) as (v' & HV' & H).
  assert (v' = v) as ->. { destruct HV' as [A1 [[A2 A3]|A2]], HVO as [B1 [[B2 B3]|B2]]; try (specialize (A2 _ B1); lia); try (specialize (B2 _ A1); lia); [apply Nat.le_antisymm; auto|apply Nat.le_antisymm; [apply (A2 v B1)|apply (B2 v' A1)]]. }
  destruct (importVersion supported opsets current) as [s|].
  - destruct H as (H1 & H2 & H3 & H4). assert (s = v) as -> by (apply Nat.le_antisymm; auto). destruct (Nat.eqb_spec v (hd 0 supported)); [tauto|auto].
  - rewrite (H v HV) by auto. now rewrite Nat.eqb_refl.
Qed.
Example C50_case : decreasing [10; 7] /\ decreasing [10; 9; 7] /\ map (importVersion [10; 7] [10; 9; 7]) [7; 8; 9; 10; 22] = [Some 7; Some 7; None; None; None] /\ version_of [10; 9; 7] 8 7.
Proof.
  split; [|split; [|split; [reflexivity|]]]; try (repeat (rewrite decreasing_cons; split; [intros y Hy; cbn in Hy; lia|]); intros a x b y c E; now destruct a).
  unfold version_of. split; [cbn; auto|]. left. split; [lia|]. intros w Hw. cbn in Hw. lia.
Qed.

Print Assumptions C36_symbol_table.
Print Assumptions C36_lexical_scoping.
Print Assumptions C36_pop_restores.
Print Assumptions C48_import.
Print Assumptions C48_dropout.
Print Assumptions C49_sort.
Print Assumptions C49_not_sortable.
Print Assumptions C49_keeps_order.
Print Assumptions C49_sort_then_import.
Print Assumptions C50_version.
Print Assumptions C50_exact.
