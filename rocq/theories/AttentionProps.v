(** C91: scaling by a constant moves into the constants of an attention layer. *)
From Coq Require Import ZArith Ring_theory Field_theory ZArithRing QArith Qcanon Bool Lia List.
From Verif Require Import AttentionSpec AttentionModel AttentionProofs.
Import ListNotations.
Open Scope Z_scope.

Lemma ring_scaling F zero one (add mul sub : F -> F -> F) opp (R : ring_theory zero one add mul sub opp eq) k :
  mul zero k = zero /\ (forall x y, mul (add x y) k = add (mul x k) (mul y k)) /\ (forall x y, mul (mul x y) k = mul (mul x k) y) /\ (forall x y, mul (mul x y) k = mul x (mul y k)).
Proof.
  destruct R as [R0 Rc Ra R1 Mc Ma D _ O]. split; [|split; [|split]].
  - assert (Q : mul zero k = add (mul zero k) (mul zero k)) by (rewrite <- D, R0; reflexivity).
    assert (E : zero = add (mul zero k) (add (mul zero k) (opp (mul zero k)))) by (rewrite Ra, <- Q, O; reflexivity). rewrite O, Rc, R0 in E. auto.
  - intros x y. apply D.
  - intros x y. rewrite <- Ma, (Mc y k), Ma. reflexivity.
  - intros x y. rewrite <- Ma. reflexivity.
Qed.
(** Mul by k, over any commutative ring: when the product has no other use, the result is the scaled product
    and nothing else changes. *)
Theorem C91_mul F zero one (add mul sub : F -> F -> F) opp (R : ring_theory zero one add mul sub opp eq) k lhs rhs e :
  propagate (fun x => mul x k) (MatMul false lhs rhs) = Some e ->
  Forall2 teq (eval F zero add mul e :: seen F zero add mul e) (scaledResult F zero add mul (fun x => mul x k) (MatMul false lhs rhs)).
Proof.
  intros H. destruct (ring_scaling F zero one add mul sub opp R k) as (H1 & H2 & H3 & H4).
  destruct (propagate_spec F zero add mul (fun x => mul x k) H1 H2 H3 H4 false lhs rhs e H) as [T S]. unfold scaledResult. constructor; [exact T|]. rewrite S. apply teqs_refl.
Qed.
(** Div by k, over any field. *)
Theorem C91_div F zero one (add mul sub : F -> F -> F) opp (div : F -> F -> F) inv (R : field_theory zero one add mul sub opp div inv eq) k lhs rhs e :
  propagate (fun x => div x k) (MatMul false lhs rhs) = Some e ->
  Forall2 teq (eval F zero add mul e :: seen F zero add mul e) (scaledResult F zero add mul (fun x => div x k) (MatMul false lhs rhs)).
Proof.
  intros H. destruct (ring_scaling F zero one add mul sub opp (F_R R) (inv k)) as (H1 & H2 & H3 & H4). pose proof (Fdiv_def R) as D.
  destruct (propagate_spec F zero add mul (fun x => div x k)) with (used := false) (l := lhs) (r := rhs) (e := e) as [T S]; auto; try (intros; rewrite !D; auto).
  unfold scaledResult. constructor; [exact T|]. rewrite S. apply teqs_refl.
Qed.
(** When the product has other uses, they too see the scaled product. *)
Theorem C91_other_uses F zero one (add mul sub : F -> F -> F) opp (R : ring_theory zero one add mul sub opp eq) k lhs rhs e :
  propagate (fun x => mul x k) (MatMul true lhs rhs) = Some e ->
  exists other rest, seen F zero add mul e = other :: rest /\ teq other (mapT (fun x => mul x k) (eval F zero add mul (MatMul true lhs rhs))) /\
    seen F zero add mul (MatMul true lhs rhs) = eval F zero add mul (MatMul true lhs rhs) :: rest.
Proof.
  intros H. destruct (ring_scaling F zero one add mul sub opp R k) as (H1 & H2 & H3 & H4).
  destruct (propagate_spec F zero add mul (fun x => mul x k) H1 H2 H3 H4 true lhs rhs e H) as [T S]. rewrite S. cbn [app]. eexists. eexists. split; [reflexivity|]. split; [exact T | reflexivity].
Qed.
(** The constant keeps its place among the operations when nothing before the inner product uses it. *)
Theorem C91_order params b pre m am post k : ordered params b -> NoDup (map fst b) -> b = pre ++ (m, am) :: post -> In (k, []) b -> k <> m ->
  (forall n args, In (n, args) pre -> ~ In k args) -> ordered params (moveBefore k m b).
Proof. apply move_order. Qed.

Lemma Forall2_cons_iff {A B} (R : A -> B -> Prop) x y l l' : Forall2 R (x :: l) (y :: l') <-> R x y /\ Forall2 R l l'.
Proof. split; [inversion 1; auto | intros []; constructor; auto]. Qed.
(** A layer over the rationals: reshaped X1*A1 + B1 times X2, divided by 8; X1 is used elsewhere. *)
Definition vals {F} (z : F) (s : list Z) (f : Z -> Z -> F) : tensor F := {| shape := s; at_ := fun i => match i with [a; b] => f a b | [b] => f 0 b | _ => z end |}.
Definition layer {F} (inj : Z -> F) (used : bool) : graph F :=
  MatMul used (Shape false [2; 2] (fun i => rev i) (Add false (MatMul false (Value true (vals (inj 0) [2; 2] (fun a b => inj (a + b)))) (Const (vals (inj 0) [2; 2] (fun a b => inj (a * 2 + b)))) ) (Const (vals (inj 0) [2] (fun a b => inj (b + 1))))))
    (Value false (vals (inj 0) [2; 2] (fun a b => inj (3 * a - b + 1)))).
Definition qc (z : Z) : Qc := Q2Qc (inject_Z z).
Example C91_case : exists e, propagate (fun x => Qcdiv x (qc 8)) (layer qc false) = Some e /\ seen Qc (qc 0) Qcplus Qcmult e <> [] /\
  at_ (eval Qc (qc 0) Qcplus Qcmult e) [1; 0] = Qcdiv (at_ (eval Qc (qc 0) Qcplus Qcmult (layer qc false)) [1; 0]) (qc 8) /\ at_ (eval Qc (qc 0) Qcplus Qcmult e) [1; 0] <> qc 0.
Proof.
  eexists. split; [reflexivity|]. split; [discriminate|]. split; [apply Qc_is_canon; vm_compute; reflexivity|]. intros H. apply (f_equal this) in H. vm_compute in H. discriminate.
Qed.
Example C91_order_case : ordered [0%nat] [(1%nat, []); (2%nat, [0%nat; 1%nat]); (3%nat, []); (4%nat, [2%nat; 3%nat])] /\
  moveBefore 3 2 [(1%nat, []); (2%nat, [0%nat; 1%nat]); (3%nat, []); (4%nat, [2%nat; 3%nat])] = [(1%nat, []); (3%nat, []); (2%nat, [0%nat; 1%nat]); (4%nat, [2%nat; 3%nat])].
Proof. split; [|reflexivity]. apply ordered_R. cbn. repeat split; intros a H; decompose [or] H; subst; try contradiction; auto. Qed.

(** Refuted when the product has another use. *)
Theorem C91_used_refuted : exists e, propagate (fun x => x * 8) (layer (fun z => z) true) = Some e /\
  ~ Forall2 teq (eval Z 0 Z.add Z.mul e :: seen Z 0 Z.add Z.mul e) (scaledResult Z 0 Z.add Z.mul (fun x => x * 8) (layer (fun z => z) true)).
Proof.
  eexists. split; [reflexivity|]. intros H. apply Forall2_cons_iff in H as [_ H]. cbn [seen layer app] in H. apply Forall2_cons_iff in H as [[_ H] _]. specialize (H [0; 0]). vm_compute in H. discriminate.
Qed.
(** Refuted for the division of integers. *)
Theorem C91_integer_refuted : exists e, propagate (fun x => Z.quot x 8) (layer (fun z => z) false) = Some e /\
  ~ Forall2 teq (eval Z 0 Z.add Z.mul e :: seen Z 0 Z.add Z.mul e) (scaledResult Z 0 Z.add Z.mul (fun x => Z.quot x 8) (layer (fun z => z) false)).
Proof.
  eexists. split; [reflexivity|]. intros H. apply Forall2_cons_iff in H as [[_ H] _]. specialize (H [1; 0]). vm_compute in H. discriminate.
Qed.
(** Refuted: the order stays right. The constant 1 divides in 2, before the inner product 3, and in 5: it is
    moved after its use in 2. *)
Theorem C91_order_refuted : ordered [0%nat] [(1%nat, []); (2%nat, [0%nat; 1%nat]); (3%nat, [2%nat]); (4%nat, [3%nat]); (5%nat, [4%nat; 1%nat])] /\
  ~ ordered [0%nat] (moveBefore 1 3 [(1%nat, []); (2%nat, [0%nat; 1%nat]); (3%nat, [2%nat]); (4%nat, [3%nat]); (5%nat, [4%nat; 1%nat])]).
Proof.
  split; [apply ordered_R; cbn; repeat split; intros a H; decompose [or] H; subst; try contradiction; auto 12|].
  intros O. destruct (O [] 2%nat [0%nat; 1%nat] _ eq_refl 1%nat) as [[H | []] | []]; [right; left; auto | discriminate].
Qed.
Print Assumptions C91_mul.
Print Assumptions C91_div.
Print Assumptions C91_other_uses.
Print Assumptions C91_order.
