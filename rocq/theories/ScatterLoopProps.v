(** Theorems C56: the loops emitted for ScatterElements and ScatterND. *)
From Coq Require Import List ZArith Lia Bool Arith.
From Verif Require Import Util TensorSpec TensorLemmas ShapeOpsCopies LoopModel LoopProofs GatherLoopSpec GatherLoopModel GatherLoopProofs GatherLoopProps ScatterLoopSpec ScatterLoopModel ScatterLoopProofs.
Import ListNotations.
Open Scope Z_scope.

(** ScatterElements without reduction: update [u] is written to the position [u] with
    indices[u] (negative counted from the end) at the axis, everything else is copied. *)
Theorem C56_scatter_elements {T} consts axis (data : mem T) (ind : mem Z) (updates : mem T) dv iv uv a :
  let d := nth a (mShape data) 0 in
  names_axis (length (mShape data)) a axis ->
  mShape ind = mShape updates -> okshape (mShape updates) ->
  length (mShape updates) = length (mShape data) -> (forall r, r <> a -> nth r (mShape updates) 0 <= nth r (mShape data) 0) ->
  (forall i, valid (mShape data) i -> mAt data i = Some (dv i)) -> (forall j, valid (mShape ind) j -> mAt ind j = Some (iv j)) ->
  (forall j, valid (mShape updates) j -> mAt updates j = Some (uv j)) ->
  constants_true consts iv (mShape ind) -> (forall j, valid (mShape ind) j -> legal d (iv j)) ->
  exists out, scatterElementsLoop RNone consts axis data ind updates = Some out /\ mShape out = mShape data /\
    scattered (mShape data) dv (mShape updates) uv (fun u => upd a (wrap d (iv u)) u) (mAt out).
Proof. intros d HA HS Ok L F HD HI HU HC HL. apply scatterElements_ok; auto; [split; auto|now apply knows_of]. Qed.

(** ScatterND without reduction, when the tuples in the index tensor have as many values
    as it has dimensions before the last, and none is negative: update [jj, kk] is written
    to the position given by the tuple at [jj], then [kk]; everything else is copied. *)
Theorem C56_scatter_nd {T} (data : mem T) (ind : mem Z) (updates : mem T) dv iv uv sJ sX sK :
  let k := Z.of_nat (length sX) in
  mShape data = sX ++ sK -> mShape ind = sJ ++ [k] -> mShape updates = sJ ++ sK ->
  (1 <= length (mShape data))%nat -> okshape (mShape updates) ->
  (forall i, valid (mShape data) i -> mAt data i = Some (dv i)) -> (forall j, valid (mShape ind) j -> mAt ind j = Some (iv j)) ->
  (forall j, valid (mShape updates) j -> mAt updates j = Some (uv j)) ->
  (forall jj x, valid sJ jj -> 0 <= x < k -> 0 <= iv (jj ++ [x]) < nth (Z.to_nat x) sX 0) ->
  length sJ = length sX ->
  exists out, scatterNDLoop RNone data ind updates = Some out /\ mShape out = mShape data /\
    scattered (mShape data) dv (mShape updates) uv
      (fun u => map (fun x => iv (firstn (length sJ) u ++ [x])) (zrange k) ++ skipn (length sJ) u) (mAt out).
Proof.
  intros k HS HI HP HN Ok HD HV HU HL HQ. apply (scatterND_ok data ind updates dv uv iv sJ sX sK); auto.
  - rewrite HS, app_length in HN. exact HN.
  - intros jj V. unfold nd_tuple. fold k. apply valid_nth_iff.
    + rewrite map_length, zrange_length. unfold k. lia.
    + intros r Hr. rewrite nth_indep with (d' := iv (jj ++ [0])) by (rewrite map_length, zrange_length; unfold k; lia).
      rewrite (map_nth (fun x => iv (jj ++ [x]))). assert (E : nth r (zrange k) 0 = Z.of_nat r).
      { unfold zrange. apply nth_error_nth. rewrite zseq_nth by (unfold k; lia). f_equal. }
      rewrite E. specialize (HL jj (Z.of_nat r) V ltac:(unfold k; lia)). rewrite Nat2Z.id in HL. exact HL.
Qed.

(** The number of index values per tuple is taken from the rank of the index tensor, not
    from its last dimension: with one pair of coordinates [0, 1] the element [0, 0] is
    overwritten and [0, 1] is left. *)
Theorem C56_scatter_nd_tuple_size_refuted : exists (data ind updates : mem Z) out,
  mShape data = [2; 2] /\ mShape ind = [1; 2] /\ mShape updates = [1] /\
  mAt ind [0; 0] = Some 0 /\ mAt ind [0; 1] = Some 1 /\
  scatterNDLoop RNone data ind updates = Some out /\
  mAt out [0; 1] = mAt data [0; 1] /\ mAt out [0; 0] = mAt updates [0] /\ mAt data [0; 1] <> mAt updates [0] /\ mAt data [0; 0] <> mAt updates [0].
Proof.
  exists (Mem [2; 2] (fun _ => Some 5)), (Mem [1; 2] (fun i => Some (nth 1 i 0))), (Mem [1] (fun _ => Some 9)). eexists.
  split; [reflexivity|]. split; [reflexivity|]. split; [reflexivity|]. split; [reflexivity|]. split; [reflexivity|]. split; [reflexivity|].
  split; [reflexivity|]. split; [reflexivity|]. split; discriminate.
Qed.
(** A negative index value is not corrected: the code writes outside the data. *)
Theorem C56_scatter_nd_negative_refuted : exists (data ind updates : mem Z),
  mShape data = [3] /\ mShape ind = [1; 1] /\ mShape updates = [1] /\ mAt ind [0; 0] = Some (-1) /\ legal 3 (-1) /\
  (forall i, mAt data i <> None) /\ (forall i, mAt updates i <> None) /\ scatterNDLoop RNone data ind updates = None.
Proof.
  exists (Mem [3] (fun _ => Some 5)), (Mem [1; 1] (fun _ => Some (-1))), (Mem [1] (fun _ => Some 9)).
  split; [reflexivity|]. split; [reflexivity|]. split; [reflexivity|]. split; [reflexivity|]. split; [unfold legal; lia|]. split; [discriminate|]. split; [discriminate|]. reflexivity.
Qed.
(** A single update given as a scalar (index tensor of rank 1) asks for a loop index that
    does not exist. *)
Theorem C56_scatter_nd_scalar_update_refuted : exists (data ind updates : mem Z),
  mShape data = [3] /\ mShape ind = [1] /\ mShape updates = [] /\ mAt ind [0] = Some 1 /\
  (forall i, mAt data i <> None) /\ (forall i, mAt updates i <> None) /\ scatterNDLoop RNone data ind updates = None.
Proof.
  exists (Mem [3] (fun _ => Some 5)), (Mem [1] (fun _ => Some 1)), (Mem [] (fun _ => Some 9)).
  split; [reflexivity|]. split; [reflexivity|]. split; [reflexivity|]. split; [reflexivity|]. split; [discriminate|]. split; [discriminate|]. reflexivity.
Qed.
(** The reduction attribute is ignored: with reduction = "add" the element is replaced. *)
Theorem C56_reduction_refuted : forall r, r <> RNone -> exists old new,
  updated r old new <> new /\
  (exists out, scatterElementsLoop r None 0 (Mem [1] (fun _ => Some old)) (Mem [1] (fun _ => Some 0)) (Mem [1] (fun _ => Some new)) = Some out /\ mAt out [0] = Some new) /\
  (exists out, scatterNDLoop r (Mem [1] (fun _ => Some old)) (Mem [1; 1] (fun _ => Some 0)) (Mem [1] (fun _ => Some new)) = Some out /\ mAt out [0] = Some new).
Proof.
  intros r N. exists (match r with RMin => 1 | _ => 3 end), 2. split; [destruct r; try discriminate; contradiction|].
  split; eexists; (split; [reflexivity|reflexivity]).
Qed.

(** A concrete run: two updates, the second overwriting the first, one at the end. *)
Example C56_run : let data := Mem [3] (fun i => Some (10 * nth 0 i 0)) in
  let ind := Mem [3] (fun i => Some (nth (Z.to_nat (nth 0 i 0)) [1; -1; 1] 0)) in
  let updates := Mem [3] (fun i => Some (5 + nth 0 i 0)) in
  option_map (fun m => map (mAt m) (indices [3])) (scatterElementsLoop RNone None 0 data ind updates) = Some (map Some [0; 7; 6]).
Proof. vm_compute. reflexivity. Qed.
Example C56_run_nd : let data := Mem [3; 2] (fun i => Some (10 * nth 0 i 0 + nth 1 i 0)) in
  let ind := Mem [2; 1] (fun i => Some (2 * nth 0 i 0)) in
  let updates := Mem [2; 2] (fun i => Some (100 + 10 * nth 0 i 0 + nth 1 i 0)) in
  option_map (fun m => map (mAt m) (indices [3; 2])) (scatterNDLoop RNone data ind updates) = Some (map Some [100; 101; 10; 11; 110; 111]).
Proof. vm_compute. reflexivity. Qed.
Print Assumptions C56_scatter_elements.
Print Assumptions C56_scatter_nd.
