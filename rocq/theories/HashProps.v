(** C21, C22 (perfect hash) and C41 (CategoryMapper). *)
From Coq Require Import List ZArith Lia Bool Arith Permutation Sorted.
From Verif Require Import Util UniqueProofs HashModel HashSpec HashProofs.
Import ListNotations.
Open Scope Z_scope.

(** *** Compile-time and run-time hashes agree *)
Lemma cstr_id s : c_string s -> cstr s = s.
Proof.
  intros H. induction s as [|c s IH]; auto. cbn [cstr]. pose proof (H c (or_introl eq_refl)). destruct (Z.eqb_spec c 0); [lia|].
  f_equal. apply IH. intros d Hd. apply H. now right.
Qed.
Lemma ascii_cstring s : ascii s -> c_string s.
Proof. intros H c Hc. specialize (H c Hc). lia. Qed.
Lemma fold_sgn s1 s2 s : ascii s -> forall h, fold_left (hstep s1) s h = fold_left (hstep s2) s h.
Proof.
  induction s as [|c s IH]; intros H h; cbn [fold_left]; auto. rewrite IH by (intros d Hd; apply H; now right). f_equal.
  unfold hstep, charZ. pose proof (H c (or_introl eq_refl)). destruct (Z.leb_spec 128 c); [lia|]. now rewrite !andb_false_r.
Qed.
Definition compatible (sC sR : bool) (s : bytes) : Prop := (c_string s /\ sC = sR) \/ ascii s.
Lemma hash_agree sC sR h s : compatible sC sR s -> hash_string sR h s = hash sC h s.
Proof.
  intros [[H ->]|H]; unfold hash_string, hash.
  - now rewrite cstr_id.
  - rewrite cstr_id by (now apply ascii_cstring). now apply fold_sgn.
Qed.

Lemma digits_ascii f : forall v, 0 <= v -> ascii (digits f v).
Proof.
  induction f as [|f IH]; intros v Hv c Hc; cbn [digits] in Hc; [destruct Hc|]. destruct (Z.ltb_spec v 10).
  - destruct Hc as [<-|[]]. lia.
  - apply in_app_or in Hc as [Hc|[<-|[]]].
    + apply (IH (v / 10)); auto. apply Z.div_pos; lia.
    + pose proof (Z.mod_pos_bound v 10 ltac:(lia)). lia.
Qed.
Lemma to_string_ascii v : ascii (to_string v).
Proof.
  unfold to_string. destruct (Z.ltb_spec v 0); [|apply digits_ascii; lia].
  intros c [<-|Hc]; [lia|]. eapply digits_ascii; [|exact Hc]. lia.
Qed.
Lemma digits_length f : forall k v, 0 <= v < 10 ^ Z.of_nat (S k) -> (length (digits f v) <= S k)%nat.
Proof.
  induction f as [|f IH]; intros k v Hv; cbn [digits]; [cbn; lia|]. destruct (Z.ltb_spec v 10); [cbn; lia|].
  destruct k as [|k]. { cbn in Hv. lia. }
  rewrite app_length. cbn [length]. assert (length (digits f (v / 10)) <= S k)%nat; [|lia]. apply IH.
  split; [apply Z.div_pos; lia|]. apply Z.div_lt_upper_bound; [lia|]. rewrite <- Z.pow_succ_r by lia. 
  replace (Z.succ (Z.of_nat (S k))) with (Z.of_nat (S (S k))) by lia. lia.
Qed.
Lemma to_string_length v : - 10 ^ 18 < v < 2 ^ 63 -> (length (to_string v) <= 19)%nat.
Proof.
  intros H. unfold to_string. destruct (Z.ltb_spec v 0).
  - cbn [length]. assert (length (digits 20 (- v)) <= 18)%nat; [|lia]. apply digits_length.
    change (10 ^ Z.of_nat 18) with (10 ^ 18). lia.
  - apply digits_length. change (10 ^ Z.of_nat 19) with (10 * 10 ^ 18). lia.
Qed.
Lemma hash_i64_agree h v : - 10 ^ 18 < v < 2 ^ 63 -> hash_int64 h v = hash_i64 h v.
Proof.
  intros H. unfold hash_int64, hash_i64. rewrite firstn_all2 by (apply to_string_length; auto).
  apply hash_agree. right. apply to_string_ascii.
Qed.

(** *** Generic lookup *)
Lemma lookup_ok {K} (hC hR : Z -> K -> Z) dict G V k v : table K hC dict G V -> dictionary dict -> In (k, v) dict ->
  (forall h, hR h k = hC h k) -> find_index hR k G V (Z.of_nat (length dict)) = Some v.
Proof.
  intros (_ & _ & _ & _ & T) (NE & ND & VR) Hk HH. unfold find_index. assert (0 < length dict)%nat by (destruct dict; [congruence|cbn; lia]).
  destruct (Z.ltb_spec 0 (Z.of_nat (length dict))); [|lia]. destruct (T k v Hk) as (d & E1 & E2).
  rewrite HH. unfold addr in E1. rewrite E1. cbn [obind]. rewrite HH. unfold slotOf in E2.
  replace (if d <? 0 then zget V (- d - 1) else zget V (hC d k mod Z.of_nat (length dict))) with (Some v) by (destruct (d <? 0); auto).
  cbn [obind]. pose proof (VR k v Hk). destruct (Z.leb_spec 0 v), (Z.ltb_spec v (Z.of_nat (length dict))); try lia. reflexivity.
Qed.
Lemma lookup_any {K} (hC hR : Z -> K -> Z) dict G V k : table K hC dict G V -> dictionary dict ->
  exists i, find_index hR k G V (Z.of_nat (length dict)) = Some i /\ 0 <= i < Z.of_nat (length dict).
Proof.
  intros (LG & LV & T1 & T2 & _) (NE & ND & VR). unfold find_index. assert (0 < length dict)%nat by (destruct dict; [congruence|cbn; lia]).
  destruct (Z.ltb_spec 0 (Z.of_nat (length dict))); [|lia].
  pose proof (Z.mod_pos_bound (hR 0 k) (Z.of_nat (length dict)) ltac:(lia)) as R.
  destruct (zget_some G (hR 0 k mod Z.of_nat (length dict))) as [d Ed]; [lia|]. rewrite Ed. cbn [obind].
  assert (exists s, 0 <= s < Z.of_nat (length dict) /\ (if d <? 0 then zget V (- d - 1) else zget V (hR d k mod Z.of_nat (length dict))) = zget V s) as (s & Rs & ->).
  { destruct (Z.ltb_spec d 0).
    - exists (- d - 1). split; auto. destruct (T2 _ _ Ed); lia.
    - exists (hR d k mod Z.of_nat (length dict)). split; auto. apply Z.mod_pos_bound. lia. }
  destruct (T1 s Rs) as (k' & v & Ev & Hv). rewrite Ev. cbn [obind]. pose proof (VR k' v Hv). exists v. split; auto.
  destruct (Z.leb_spec 0 v), (Z.ltb_spec v (Z.of_nat (length dict))); try lia. reflexivity.
Qed.
Lemma create_table {K} hC keq (dict : list (K * Z)) sortB fuel G V : (forall a b, keq a b = true <-> a = b) -> sorts_by_size sortB -> dictionary dict ->
  createPerfectHash K hC keq sortB fuel dict = Done (G, V) -> table K hC dict G V.
Proof.
  intros KE SO (NE & ND & VR) E. assert (0 < length dict)%nat by (destruct dict; [congruence|cbn; lia]).
  pose proof (create_ok K hC keq KE dict ND (fun k v H => proj1 (VR k v H)) H sortB SO fuel) as O. rewrite E in O. exact O.
Qed.
Lemma beq_spec a b : beq a b = true <-> a = b.
Proof. unfold beq. destruct (list_eq_dec Z.eq_dec a b); split; auto; discriminate. Qed.

(** ** C21 *)
(** Strings: machine that compiles has char signedness [sC], machine that runs [sR]. *)
Theorem C21_string_lookup : forall sC sR sortB fuel dict G V,
  sorts_by_size sortB -> dictionary dict -> (forall k v, In (k, v) dict -> (c_string k /\ sC = sR) \/ ascii k) ->
  createPerfectHash bytes (hash sC) beq sortB fuel dict = Done (G, V) ->
  forall k v, In (k, v) dict -> find_index_str sR k G V (Z.of_nat (length dict)) = Some v.
Proof.
  intros sC sR sortB fuel dict G V SO D C E k v Hk. apply (lookup_ok (hash sC)); auto.
  - exact (create_table (hash sC) beq dict sortB fuel G V beq_spec SO D E).
  - intros h. apply hash_agree. eapply C; eauto.
Qed.
Theorem C21_int64_lookup : forall sortB fuel dict G V,
  sorts_by_size sortB -> dictionary dict -> (forall k v, In (k, v) dict -> - 10 ^ 18 < k < 2 ^ 63) ->
  createPerfectHash Z hash_i64 Z.eqb sortB fuel dict = Done (G, V) ->
  forall k v, In (k, v) dict -> find_index_i64 k G V (Z.of_nat (length dict)) = Some v.
Proof.
  intros sortB fuel dict G V SO D C E k v Hk. apply (lookup_ok hash_i64); auto.
  - exact (create_table hash_i64 Z.eqb dict sortB fuel G V Z.eqb_eq SO D E).
  - intros h. apply hash_i64_agree. eapply C; eauto.
Qed.
(** Looking up any other string or number is safe: no access out of bounds, no
    failing assertion. *)
Theorem C21_any_string_safe : forall sC sR sortB fuel dict G V x, sorts_by_size sortB -> dictionary dict ->
  createPerfectHash bytes (hash sC) beq sortB fuel dict = Done (G, V) ->
  exists i, find_index_str sR x G V (Z.of_nat (length dict)) = Some i /\ 0 <= i < Z.of_nat (length dict).
Proof. intros sC sR sortB fuel dict G V x SO D E. apply (lookup_any (hash sC)); auto. exact (create_table (hash sC) beq dict sortB fuel G V beq_spec SO D E). Qed.
Theorem C21_any_int64_safe : forall sortB fuel dict G V x, sorts_by_size sortB -> dictionary dict ->
  createPerfectHash Z hash_i64 Z.eqb sortB fuel dict = Done (G, V) ->
  exists i, find_index_i64 x G V (Z.of_nat (length dict)) = Some i /\ 0 <= i < Z.of_nat (length dict).
Proof. intros sortB fuel dict G V x SO D E. apply (lookup_any hash_i64); auto. exact (create_table hash_i64 Z.eqb dict sortB fuel G V Z.eqb_eq SO D E). Qed.
(** The construction never reads or writes out of bounds, and never lacks a free slot. *)
Theorem C21_construction_never_faults : forall {K} hC keq (dict : list (K * Z)) sortB fuel,
  (forall a b, keq a b = true <-> a = b) -> sorts_by_size sortB -> dictionary dict ->
  createPerfectHash K hC keq sortB fuel dict <> Fault.
Proof.
  intros K hC keq dict sortB fuel KE SO (NE & ND & VR) E. assert (0 < length dict)%nat by (destruct dict; [congruence|cbn; lia]).
  pose proof (create_ok K hC keq KE dict ND (fun k v H => proj1 (VR k v H)) H sortB SO fuel) as O. rewrite E in O. exact O.
Qed.

(** A sort that qualifies (insertion sort). *)
Fixpoint ins {K} (b : list K) (l : list (list K)) : list (list K) :=
  match l with [] => [b] | c :: r => if (length c <=? length b)%nat then b :: l else c :: ins b r end.
Definition isort {K} (l : list (list K)) : list (list K) := fold_right ins [] l.
Lemma ins_perm {K} (b : list K) l : Permutation (ins b l) (b :: l).
Proof. induction l as [|c l IH]; cbn [ins]; auto. destruct (length c <=? length b)%nat; auto. rewrite IH. constructor. Qed.
Lemma isort_ok {K} : sorts_by_size (@isort K).
Proof.
  intros bs. induction bs as [|b bs [P S0]]; cbn [isort fold_right]; [split; constructor|]. fold (isort bs). split.
  - rewrite ins_perm. now constructor.
  - clear P. induction S0 as [|c l S1 IH F]; cbn [ins]; [repeat constructor|].
    destruct (Nat.leb_spec (length c) (length b)).
    + constructor; [constructor; auto|]. constructor; auto. rewrite Forall_forall in *. intros x Hx. specialize (F x Hx). cbn in F. lia.
    + constructor; auto. rewrite Forall_forall in *. intros x Hx. eapply Permutation_in in Hx; [|apply ins_perm]. destruct Hx as [<-|Hx]; auto. lia.
Qed.
(** Non-vacuity: "cat", "dog", "bird", "fish"; 10, 21, 32, -5. *)
Definition demo_dict : list (bytes * Z) := [([99;97;116], 0); ([100;111;103], 1); ([98;105;114;100], 2); ([102;105;115;104], 3)].
Example C21_ex_dict : dictionary demo_dict /\ forall k v, In (k, v) demo_dict -> ascii k.
Proof.
  split; [split; [discriminate|split]|].
  - cbn. repeat constructor; cbn; intuition discriminate.
  - intros k v H. cbn in H. cbn. repeat (destruct H as [H|H]; [injection H as <- <-; lia|]). contradiction.
  - intros k v H. cbn in H. repeat (destruct H as [H|H]; [injection H as <- <-; intros c Hc; cbn in Hc; intuition lia|]). contradiction.
Qed.
Example C21_ex_done : exists G V, createPerfectHash bytes (hash true) beq isort 100 demo_dict = Done (G, V).
Proof. eexists _, _. vm_compute. reflexivity. Qed.
Example C21_ex_int : exists G V, createPerfectHash Z hash_i64 Z.eqb isort 1000 [(10, 0); (21, 1); (32, 2); (-5, 3); (100, 4)] = Done (G, V).
Proof. eexists _, _. vm_compute. reflexivity. Qed.

(** A table compiled where char is signed, used where it is unsigned: the key 0x80
    is looked up as the entry of 0x81. *)
Theorem C21_char_signedness_refuted : exists dict G V k v,
  dictionary dict /\ (forall k v, In (k, v) dict -> c_string k) /\
  createPerfectHash bytes (hash true) beq isort 100 dict = Done (G, V) /\ In (k, v) dict /\
  find_index_str false k G V (Z.of_nat (length dict)) <> Some v.
Proof.
  exists [([128], 0); ([129], 1); ([97], 2)]. eexists _, _. exists [128], 0.
  split; [split; [discriminate|split]|split; [|split; [vm_compute; reflexivity|split; [now left|vm_compute; discriminate]]]].
  - cbn. repeat constructor; cbn; intuition discriminate.
  - intros k v H. cbn in H. cbn. repeat (destruct H as [H|H]; [injection H as <- <-; lia|]). contradiction.
  - intros k v H. cbn in H. repeat (destruct H as [H|H]; [injection H as <- <-; intros c Hc; cbn in Hc; intuition lia|]). contradiction.
Qed.
(** A 20-character key is truncated to 19 at run time: -1000000000000000003 gets the
    value of 7. *)
Theorem C21_long_int64_refuted : exists dict G V k v,
  dictionary dict /\ (forall k v, In (k, v) dict -> - 2 ^ 63 <= k < 2 ^ 63) /\
  createPerfectHash Z hash_i64 Z.eqb isort 1000 dict = Done (G, V) /\ In (k, v) dict /\
  find_index_i64 k G V (Z.of_nat (length dict)) <> Some v.
Proof.
  exists [(-1000000000000000003, 0); (1, 1); (7, 2)]. eexists _, _. exists (-1000000000000000003), 0.
  split; [split; [discriminate|split]|split; [|split; [vm_compute; reflexivity|split; [now left|vm_compute; discriminate]]]].
  - cbn. repeat constructor; cbn; intuition discriminate.
  - intros k v H. cbn in H. cbn. repeat (destruct H as [H|H]; [injection H as <- <-; lia|]). contradiction.
  - intros k v H. cbn in H. cbn. repeat (destruct H as [H|H]; [injection H as <- <-; lia|]). contradiction.
Qed.

(** ** C22 *)
(** Two keys that collide under every hash value: construction never succeeds. *)
Lemma search_stuck {K} hsh (a b : K) size : (forall h, hsh h a mod size = hsh h b mod size) -> forall fuel V hval item slots r,
  (item = 0%nat /\ slots = []) \/ (item = 1%nat /\ slots = [hsh hval a mod size]) ->
  search K hsh fuel size V [a; b] hval item slots <> Done r.
Proof.
  intros H. induction fuel as [|f IH]; intros V hval item slots r I E.
  - destruct I as [[-> ->]|[-> ->]]; cbn in E; discriminate.
  - destruct I as [[-> ->]|[-> ->]]; cbn [search length Nat.ltb Nat.leb nth_error ofo rbind] in E.
    + destruct (zget V (hsh hval a mod size)) as [v|]; cbn [ofo rbind] in E; [|discriminate].
      destruct (negb (v =? -1) || existsb (Z.eqb (hsh hval a mod size)) []).
      * destruct (hval + 1 <? 2 ^ 31); [|discriminate]. eapply IH; [|exact E]. now left.
      * eapply IH; [|exact E]. right. auto.
    + destruct (zget V (hsh hval b mod size)) as [v|]; cbn [ofo rbind] in E; [|discriminate].
      cbn [existsb] in E. rewrite <- H, Z.eqb_refl in E. rewrite orb_true_r in E.
      destruct (hval + 1 <? 2 ^ 31); [|discriminate]. eapply IH; [|exact E]. now left.
Qed.
Lemma stuck {K} hsh keq sortB (a b : K) va vb fuel r : sorts_by_size sortB -> (forall h, hsh h a mod 2 = hsh h b mod 2) ->
  createPerfectHash K hsh keq sortB fuel [(a, va); (b, vb)] <> Done r.
Proof.
  intros SO H E. unfold createPerfectHash in E. cbn [length map fst] in E. change (Z.of_nat 2) with 2 in E.
  assert (exists bs, mkBuckets K hsh 2 [a; b] = Some bs /\ (bs = [[a; b]; []] \/ bs = [[]; [a; b]])) as (bs & Ebs & Hbs).
  { unfold mkBuckets. cbn [foldM repeat Z.to_nat Pos.to_nat Pos.iter_op Nat.add]. change (repeat [] (Z.to_nat 2)) with [@nil K; []].
    pose proof (Z.mod_pos_bound (hsh 0 a) 2 ltac:(lia)) as R. rewrite <- (H 0).
    assert (hsh 0 a mod 2 = 0 \/ hsh 0 a mod 2 = 1) as [-> | ->] by lia; eexists; (split; [cbv; reflexivity|auto]). }
  rewrite Ebs in E. cbn [ofo rbind] in E.
  assert (sortB bs = [[a; b]; []]) as ES.
  { destruct (SO bs) as [P S0]. destruct Hbs as [-> | ->]; apply Permutation_sym, Permutation_length_2_inv in P as [P|P]; rewrite P in *; auto;
      inversion S0 as [|? ? _ F]; inversion F as [|? ? L]; cbn in L; lia. }
  rewrite ES in E. cbn [loop1] in E. 
  destruct (search K hsh fuel 2 (repeat (-1) 2) [a; b] 1 0 []) as [q| | |] eqn:Es; cbn [rbind] in E; try discriminate.
  eapply search_stuck in Es; auto.
Qed.
Lemma hash1_odd s c : 0 <= c < 128 -> Z.odd c = true -> forall h, hash s h [c] mod 2 = 1 - Z.b2z (Z.odd (if w32 h =? 0 then prime else w32 h)).
Proof.
  intros Hc Ho h. unfold hash. cbn [fold_left]. unfold hstep, charZ. destruct (Z.leb_spec 128 c); [lia|]. rewrite andb_false_r.
  rewrite Zmod_odd. set (x := if w32 h =? 0 then prime else w32 h).
  rewrite <- (Z.bit0_odd (Z.lxor _ _)), Z.lxor_spec, !Z.bit0_odd.
  assert (forall z, Z.odd (w32 z) = Z.odd z) as W.
  { intros z. unfold w32. rewrite <- !Z.bit0_odd. apply Z.mod_pow2_bits_low. lia. }
  rewrite !W, Ho, Z.odd_mul. change (Z.odd prime) with true. destruct (Z.odd x); reflexivity.
Qed.
(** The categories "a" and "c": the compiler finds no table, however long it runs. *)
Theorem C22_construction_refuted : exists dict : list (bytes * Z), dictionary dict /\ (forall k v, In (k, v) dict -> ascii k) /\
  forall sC sortB, sorts_by_size sortB -> forall fuel r, createPerfectHash bytes (hash sC) beq sortB fuel dict <> Done r.
Proof.
  exists [([97], 0); ([99], 1)]. split; [split; [discriminate|split]|split].
  - cbn. repeat constructor; cbn; intuition discriminate.
  - intros k v H. cbn in H. cbn. repeat (destruct H as [H|H]; [injection H as <- <-; lia|]). contradiction.
  - intros k v H. cbn in H. repeat (destruct H as [H|H]; [injection H as <- <-; intros c Hc; cbn in Hc; intuition lia|]). contradiction.
  - intros sC sortB SO fuel r. apply stuck; auto. intros h. rewrite !hash1_odd; auto; lia.
Qed.
(** The categories 1 and 3, likewise. *)
Theorem C22_construction_int64_refuted : exists dict : list (Z * Z), dictionary dict /\
  forall sortB, sorts_by_size sortB -> forall fuel r, createPerfectHash Z hash_i64 Z.eqb sortB fuel dict <> Done r.
Proof.
  exists [(1, 0); (3, 1)]. split; [split; [discriminate|split]|].
  - cbn. repeat constructor; cbn; intuition discriminate.
  - intros k v H. cbn in H. cbn. repeat (destruct H as [H|H]; [injection H as <- <-; lia|]). contradiction.
  - intros sortB SO fuel r. apply stuck; auto. intros h. unfold hash_i64. change (to_string 1) with [49]. change (to_string 3) with [51].
    rewrite !hash1_odd; auto; lia.
Qed.

(** What does hold: the search for one bucket stops as soon as a hash value works. *)
Theorem C22_search_terminates : forall {K} hsh (V : list Z) (bucket : list K) h, bucket <> [] -> V <> [] ->
  1 <= h < 2 ^ 31 ->
  let slot k := hsh h k mod Z.of_nat (length V) in
  NoDup (map slot bucket) -> (forall k, In k bucket -> zget V (slot k) = Some (-1)) ->
  forall fuel, (Z.to_nat h * S (length bucket) <= fuel)%nat ->
  exists h' slots, search K hsh fuel (Z.of_nat (length V)) V bucket 1 0 [] = Done (h', slots) /\ 1 <= h' <= h.
Proof.
  intros K hsh V bucket h NB NV Rh slot ND FR fuel Hf.
  assert (G : forall fuel hval item slots, 1 <= hval <= h -> (item <= length bucket)%nat ->
    slots = map (fun k => hsh hval k mod Z.of_nat (length V)) (firstn item bucket) ->
    (Z.to_nat (h - hval) * S (length bucket) + (length bucket - item) <= fuel)%nat ->
    exists h' sl, search K hsh fuel (Z.of_nat (length V)) V bucket hval item slots = Done (h', sl) /\ 1 <= h' <= h).
  2: { apply G; auto; try lia. assert (Z.to_nat h = S (Z.to_nat (h - 1))) by lia. nia. }
  clear fuel Hf. assert (0 < length V)%nat as LV by (destruct V; [congruence|cbn; lia]).
  induction fuel as [|f IH]; intros hval item slots Rv Hi Es Hf.
  - cbn [search]. destruct (Nat.ltb_spec item (length bucket)); [lia|]. eexists _, _. split; [reflexivity|lia].
  - cbn [search]. destruct (Nat.ltb_spec item (length bucket)) as [Hlt|]; [|eexists _, _; split; [reflexivity|lia]].
    destruct (nth_error bucket item) as [k|] eqn:Ek; [|apply nth_error_None in Ek; lia]. cbn [ofo rbind].
    destruct (zget_some V (hsh hval k mod Z.of_nat (length V))) as [v Ev]. { apply Z.mod_pos_bound. lia. }
    rewrite Ev. cbn [ofo rbind].
    destruct (negb (v =? -1) || existsb (Z.eqb (hsh hval k mod Z.of_nat (length V))) slots) eqn:Ec.
    + assert (hval <> h) as Hne.
      { intros ->. apply orb_prop in Ec as [Ec|Ec].
        - pose proof (FR k (nth_error_In _ _ Ek)) as FRk. unfold slot in FRk. rewrite FRk in Ev. injection Ev as <-. cbn in Ec. discriminate.
        - apply existsb_exists in Ec as (s & Hs & E). apply Z.eqb_eq in E. subst s slots.
          assert (bucket = firstn item bucket ++ k :: skipn (S item) bucket) as EB.
          { rewrite <- (firstn_skipn item bucket) at 1. f_equal. clear -Ek. revert item Ek. induction bucket as [|x l IH]; intros [|i] E; cbn in *; try discriminate; auto. now injection E as ->. }
          rewrite EB, map_app in ND. cbn [map] in ND. apply NoDup_remove_2 in ND. apply ND, in_or_app. left. exact Hs. }
      destruct (Z.ltb_spec (hval + 1) (2 ^ 31)); [|lia]. apply IH; auto; try lia.
      assert (Z.to_nat (h - hval) = S (Z.to_nat (h - (hval + 1)))) by lia. nia.
    + apply IH; auto; try lia. rewrite (firstn_snoc _ _ _ Ek), map_app, Es. reflexivity.
Qed.
(** ... and a dictionary whose keys do not collide under the first hash needs no search. *)
Lemma loop2_done {K} hsh keq size (dict : list (K * Z)) bs : forall free G V, 
  match loop2 K hsh keq size dict bs free G V with Done _ | Fault => True | _ => False end.
Proof.
  induction bs as [|[|b0 br] rest IH]; intros free G V; cbn [loop2]; auto.
  destruct free as [|s free]; auto. destruct (zset G _ _); cbn [ofo rbind]; auto. unfold at_. destruct (find _ dict); cbn [rbind]; auto.
  destruct (zset V _ _); cbn [ofo rbind]; auto. apply IH.
Qed.
Theorem C22_distinct_first_hashes : forall {K} hsh keq sortB (dict : list (K * Z)), (forall a b, keq a b = true <-> a = b) ->
  sorts_by_size sortB -> dictionary dict -> NoDup (map (fun k => hsh 0 k mod Z.of_nat (length dict)) (map fst dict)) ->
  forall fuel, exists G V, createPerfectHash K hsh keq sortB fuel dict = Done (G, V).
Proof.
  intros K hsh keq sortB dict KE SO D ND fuel. pose proof (C21_construction_never_faults hsh keq dict sortB fuel KE SO D) as NF.
  destruct D as (NE & NDK & VR). assert (0 < length dict)%nat as Hn by (destruct dict; [congruence|cbn; lia]).
  unfold createPerfectHash in *. destruct dict as [|p dict]; [congruence|]. set (dd := p :: dict) in *.
  fold (keys K dd) in *. rewrite mkBuckets_eq in * by auto. cbn [ofo rbind] in *.
  set (bs := map (bucketOf K hsh dd (keys K dd)) (zrange (Z.of_nat (length dd)))) in *.
  assert (forall b, In b (sortB bs) -> (length b <= 1)%nat) as SH.
  { intros b Hb. destruct (SO bs) as [P _]. eapply Permutation_in in Hb; [|exact P]. unfold bs in Hb. apply in_map_iff in Hb as (i & <- & _).
    unfold bucketOf, addr. clear -ND. induction (keys K dd) as [|k l IH]; cbn [filter length]; [lia|].
    cbn [map] in ND. apply NoDup_cons_iff in ND as [Hx Hy]. specialize (IH Hy). destruct (Z.eqb_spec (hsh 0 k mod Z.of_nat (length dd)) i) as [E|]; auto.
    assert (filter (fun k0 => hsh 0 k0 mod Z.of_nat (length dd) =? i) l = []) as ->; [|cbn; lia].
    destruct (filter _ l) as [|z w] eqn:Ef; auto. exfalso. apply Hx. assert (In z (z :: w)) as Hz by now left. rewrite <- Ef in Hz.
    apply filter_In in Hz as [Hz Ez]. apply Z.eqb_eq in Ez. rewrite E, <- Ez. now apply (in_map (fun k0 => hsh 0 k0 mod Z.of_nat (length dd))). }
  assert (loop1 K hsh keq fuel (Z.of_nat (length dd)) dd (sortB bs) (repeat 0 (length dd)) (repeat (-1) (length dd)) = Done (sortB bs, repeat 0 (length dd), repeat (-1) (length dd))) as E1.
  { destruct (sortB bs) as [|b r]; auto. specialize (SH b (or_introl eq_refl)). destruct b as [|x [|y b]]; auto. cbn in SH. lia. }
  rewrite E1 in *. cbn [rbind] in *.
  match goal with |- context [loop2 ?a ?b ?c ?d ?e ?f ?g ?h ?i] => pose proof (loop2_done b c d e f g h i) as LD; destruct (loop2 a b c d e f g h i) as [[G' V']| | |] end;
    try contradiction; eauto.
Qed.
Example C22_ex : NoDup (map (fun k => hash true 0 k mod 2) [[97]; [98]]).
Proof. vm_compute. repeat constructor; cbn; intuition discriminate. Qed.

(** ** C41: CategoryMapper *)
Lemma indexed_fst {K} (cats : list K) : forall i, map fst (indexed i cats) = cats.
Proof. induction cats as [|c r IH]; intros i; cbn; f_equal; auto. Qed.
Lemma indexed_In {K} (cats : list K) : forall i k v, In (k, v) (indexed i cats) <-> i <= v /\ nth_error cats (Z.to_nat (v - i)) = Some k.
Proof.
  induction cats as [|c r IH]; intros i k v; cbn [indexed].
  - split; [intros []|]. intros [_ H]. destruct (Z.to_nat (v - i)); discriminate.
  - cbn [In]. rewrite IH. split.
    + intros [E|[Hv E]].
      * injection E as -> ->. split; [lia|]. replace (Z.to_nat (v - v)) with 0%nat by lia. reflexivity.
      * split; [lia|]. replace (Z.to_nat (v - i)) with (S (Z.to_nat (v - (i + 1)))) by lia. exact E.
    + intros [Hv E]. destruct (Z.eq_dec v i) as [->|Hne].
      * left. replace (Z.to_nat (i - i)) with 0%nat in E by lia. cbn in E. now injection E as ->.
      * right. split; [lia|]. replace (Z.to_nat (v - i)) with (S (Z.to_nat (v - (i + 1)))) in E by lia. exact E.
Qed.
Lemma indexed_length {K} (cats : list K) : forall i, length (indexed i cats) = length cats.
Proof. induction cats as [|c r IH]; intros i; cbn; f_equal; auto. Qed.
Lemma mapDict_nodup {K} keq (cats : list K) : (forall a b, keq a b = true <-> a = b) -> NoDup cats -> mapDict keq cats = indexed 0 cats.
Proof.
  intros KE ND. unfold mapDict. rewrite <- (indexed_fst cats 0) in ND. revert ND. generalize (indexed 0 cats). intros l.
  assert (G : forall l d, NoDup (map fst (d ++ l)) -> fold_left (fun d p => filter (fun q : K * Z => negb (keq (fst q) (fst p))) d ++ [p]) l d = d ++ l).
  2: { intros ND. apply (G l []). exact ND. }
  clear l. induction l as [|p l IH]; intros d ND; cbn [fold_left]; [now rewrite app_nil_r|].
  assert (filter (fun q : K * Z => negb (keq (fst q) (fst p))) d = d) as E.
  { rewrite map_app in ND. cbn [map] in ND. apply NoDup_remove_2 in ND. clear IH. induction d as [|q d IHd]; auto. cbn [filter].
    destruct (keq (fst q) (fst p)) eqn:Ek; cbn [negb].
    - exfalso. apply KE in Ek. apply ND. rewrite <- Ek. now left.
    - f_equal. apply IHd. intros H. apply ND. now right. }
  rewrite E, IH; rewrite <- app_assoc; auto.
Qed.
Lemma indexed_dictionary {K} (cats : list K) : cats <> [] -> NoDup cats -> dictionary (indexed 0 cats).
Proof.
  intros NE ND. split; [destruct cats; cbn; congruence|split; [now rewrite indexed_fst|]].
  intros k v H. apply indexed_In in H as [H0 H]. rewrite indexed_length. assert (Z.to_nat (v - 0) < length cats)%nat by (apply nth_error_Some; congruence). lia.
Qed.
Lemma zget_nth {A} (l : list A) i : 0 <= i -> zget l i = nth_error l (Z.to_nat i).
Proof. intros H. unfold zget. destruct (Z.ltb_spec i 0); auto. lia. Qed.
Lemma strncmp0_prefix c : forall x, strncmp0 x c (length c) = true <-> prefix c x.
Proof.
  induction c as [|y c IH]; intros x; cbn [length strncmp0].
  - split; [intros _; now exists x|destruct x; reflexivity].
  - destruct x as [|z x].
    + split; [discriminate|]. intros [r E]. discriminate.
    + cbn [strncmp0]. rewrite andb_true_iff, IH, Z.eqb_eq. split.
      * intros [-> [r ->]]. now exists r.
      * intros [r E]. injection E as -> ->. split; auto. now exists r.
Qed.

(** Integer categories: exact, for every int64 input. *)
Theorem C41_int64_categories : forall {B} sortB fuel cats (outs : list B) dflt G V,
  sorts_by_size sortB -> cats <> [] -> NoDup cats -> length outs = length cats -> (forall c, In c cats -> - 10 ^ 18 < c < 2 ^ 63) ->
  createPerfectHash Z hash_i64 Z.eqb sortB fuel (mapDict Z.eqb cats) = Done (G, V) ->
  forall x, exists y, mapInt cats outs dflt G V x = Some y /\ maps_to cats outs dflt x y.
Proof.
  intros B sortB fuel cats outs dflt G V SO NE ND LO RC E x. rewrite mapDict_nodup in E; auto using Z.eqb_eq.
  pose proof (indexed_dictionary cats NE ND) as D.
  pose proof (create_table hash_i64 Z.eqb _ sortB fuel G V Z.eqb_eq SO D E) as T. pose proof (proj1 T) as LG. rewrite indexed_length in LG.
  unfold mapInt. replace (Z.of_nat (length G)) with (Z.of_nat (length (indexed 0 cats))) by (rewrite indexed_length; lia).
  destruct (in_dec Z.eq_dec x cats) as [Hx|Hx].
  - apply In_nth_error in Hx as [i Hi]. assert (In (x, Z.of_nat i) (indexed 0 cats)) as HI.
    { apply indexed_In. split; [lia|]. now replace (Z.to_nat (Z.of_nat i - 0)) with i by lia. }
    rewrite (C21_int64_lookup sortB fuel _ G V SO D) with (v := Z.of_nat i); auto.
    2: { intros k v H. apply indexed_In in H as [_ H]. apply nth_error_In in H. auto. }
    cbn [obind]. rewrite !zget_nth, !Nat2Z.id by lia. rewrite Hi. cbn [obind]. rewrite Z.eqb_refl.
    destruct (nth_error outs i) as [y|] eqn:Ey.
    + exists y. split; auto. left. exists i. auto.
    + apply nth_error_None in Ey. assert (i < length cats)%nat by (apply nth_error_Some; congruence). lia.
  - destruct (C21_any_int64_safe sortB fuel _ G V x SO D E) as (i & Ei & Ri). rewrite Ei. cbn [obind].
    rewrite indexed_length in Ri. destruct (zget_some cats i) as [c Ec]; [lia|]. rewrite Ec. cbn [obind].
    destruct (Z.eqb_spec x c) as [->|]. { exfalso. apply Hx. now apply zget_inI in Ec. }
    exists dflt. split; auto. right. auto.
Qed.
(** String categories: exact when no category is a proper prefix of the input. *)
Theorem C41_string_categories : forall {B} sC sR sortB fuel cats (outs : list B) dflt G V,
  sorts_by_size sortB -> cats <> [] -> NoDup cats -> length outs = length cats ->
  (forall c, In c cats -> (c_string c /\ sC = sR) \/ ascii c) ->
  createPerfectHash bytes (hash sC) beq sortB fuel (mapDict beq cats) = Done (G, V) ->
  forall x, (forall c, In c cats -> prefix c x -> c = x) ->
  exists y, mapStr sR cats outs dflt G V x = Some y /\ maps_to cats outs dflt x y.
Proof.
  intros B sC sR sortB fuel cats outs dflt G V SO NE ND LO RC E x PF. rewrite mapDict_nodup in E; auto using beq_spec.
  pose proof (indexed_dictionary cats NE ND) as D.
  pose proof (create_table (hash sC) beq _ sortB fuel G V beq_spec SO D E) as T. pose proof (proj1 T) as LG. rewrite indexed_length in LG.
  unfold mapStr. replace (Z.of_nat (length G)) with (Z.of_nat (length (indexed 0 cats))) by (rewrite indexed_length; lia).
  destruct (in_dec (list_eq_dec Z.eq_dec) x cats) as [Hx|Hx].
  - apply In_nth_error in Hx as [i Hi]. assert (In (x, Z.of_nat i) (indexed 0 cats)) as HI.
    { apply indexed_In. split; [lia|]. now replace (Z.to_nat (Z.of_nat i - 0)) with i by lia. }
    rewrite (C21_string_lookup sC sR sortB fuel _ G V SO D) with (v := Z.of_nat i); auto.
    2: { intros k v H. apply indexed_In in H as [_ H]. apply nth_error_In in H. auto. }
    cbn [obind]. rewrite !zget_nth, !Nat2Z.id by lia. unfold bytes in *. rewrite Hi. cbn [obind].
    rewrite (proj2 (strncmp0_prefix x x)) by (exists []; now rewrite app_nil_r).
    destruct (nth_error outs i) as [y|] eqn:Ey.
    + exists y. split; auto. left. exists i. auto.
    + apply nth_error_None in Ey. assert (i < length cats)%nat by (apply nth_error_Some; congruence). lia.
  - destruct (C21_any_string_safe sC sR sortB fuel _ G V x SO D E) as (i & Ei & Ri). rewrite Ei. cbn [obind].
    rewrite indexed_length in Ri. destruct (zget_some cats i) as [c Ec]; [lia|]. rewrite Ec. cbn [obind].
    apply zget_inI in Ec. destruct (strncmp0 x c (length c)) eqn:Es.
    { exfalso. apply strncmp0_prefix in Es. apply PF in Es; auto. subst c. auto. }
    exists dflt. split; auto. right. auto.
Qed.
(** Otherwise "ab" is taken for the category "a". *)
Theorem C41_prefix_refuted : exists cats (outs : list Z) dflt G V x,
  NoDup cats /\ (forall c, In c cats -> ascii c) /\ ascii x /\ length outs = length cats /\
  createPerfectHash bytes (hash true) beq isort 100 (mapDict beq cats) = Done (G, V) /\
  exists y, mapStr true cats outs dflt G V x = Some y /\ ~ maps_to cats outs dflt x y.
Proof.
  exists [[97]], [7], (-1), [-1], [0], [97; 98].
  split; [|split; [|split; [|split; [reflexivity|split; [vm_compute; reflexivity|]]]]].
  - repeat constructor; cbn; intuition.
  - intros c [<-|[]] d [<-|[]]. lia.
  - intros d H; cbn in H; intuition lia.
  - exists 7. split; [vm_compute; reflexivity|]. intros [(i & H & _)|[_ H]]; [|discriminate].
    destruct i as [|[|i]]; discriminate.
Qed.
(** A repeated category makes looking it up fail an assertion. *)
Theorem C41_duplicate_refuted : exists cats (outs : list Z) dflt G V x,
  (forall c, In c cats -> ascii c) /\ In x cats /\ length outs = length cats /\
  createPerfectHash bytes (hash true) beq isort 100 (mapDict beq cats) = Done (G, V) /\
  mapStr true cats outs dflt G V x = None.
Proof.
  exists [[97]; [97]], [7; 8], (-1), [-1], [1], [97].
  split; [|split; [now left|split; [reflexivity|split; vm_compute; reflexivity]]].
  intros c [<-|[<-|[]]] d [<-|[]]; lia.
Qed.
Example C41_ex :
  match createPerfectHash bytes (hash true) beq isort 100 (mapDict beq (map fst demo_dict)) with
  | Done (G, V) => mapStr true (map fst demo_dict) [10; 20; 30; 40] 0 G V [100;111;103] = Some 20 /\
                   mapStr true (map fst demo_dict) [10; 20; 30; 40] 0 G V [99;111;119] = Some 0
  | _ => False
  end.
Proof. vm_compute. auto. Qed.

Print Assumptions C21_string_lookup.
Print Assumptions C21_int64_lookup.
Print Assumptions C21_any_string_safe.
Print Assumptions C21_any_int64_safe.
Print Assumptions C21_construction_never_faults.
Print Assumptions C21_char_signedness_refuted.
Print Assumptions C21_long_int64_refuted.
Print Assumptions C22_construction_refuted.
Print Assumptions C22_construction_int64_refuted.
Print Assumptions C22_search_terminates.
Print Assumptions C22_distinct_first_hashes.
Print Assumptions C41_int64_categories.
Print Assumptions C41_string_categories.
Print Assumptions C41_prefix_refuted.
Print Assumptions C41_duplicate_refuted.
