(** Concrete cases for the theorems of Properties38.v. *)
From Coq Require Import String List Arith Lia ZArith Bool Ring Permutation.
From Verif Require Import Prelude Alg Arith Arith_Proofs Builder PolyInst Properties38.
Import ListNotations.
Local Open Scope rs_scope.

Section Ex.
Context {R : Type} {RO : RingOps R} {LR : RingLaws R}.
Add Ring Rring110 : (@rlaws_th R _ _).
Definition five : R := 1 + 1 + 1 + 1 + 1.
(** The system of [test_r1cs_example_from_constraint_system], r1cs.rs 684-724: x^3 + x + 5 = y. *)
Definition cubic : list (call R) :=
  let v c i := LAdd LNew c i in
  [ SetInputs 1; SetAuxs 5;
    AddConstraint (v 1 0%nat) (v 1 0%nat) (v 1 3%nat);
    AddConstraint (v 1 3%nat) (v 1 0%nat) (v 1 4%nat);
    AddConstraint (LAdd (v 1 0%nat) 1 4%nat) (v 1 1%nat) (v 1 5%nat);
    AddConstraint (LAdds LNew [(five, 1%nat); (1, 5%nat)]) (LSingle 1 1%nat) (v 1 2%nat) ].
Definition aux (x y : R) : list R := [1; y; x * x; x * x * x; x * x * x + x].
Lemma cubic_within (x y : R) : Forall (within (length [x] + length (aux x y))) (constraints cubic).
Proof.
  unfold cubic. cbv zeta. cbn [constraints]. repeat (apply Forall_cons); try apply Forall_nil; intros i H; cbn in *;
  repeat (match goal with H : _ \/ _ |- _ => destruct H | H : exists _, _ |- _ => destruct H | H : _ /\ _ |- _ => destruct H | H : False |- _ => destruct H end; subst; cbn; try lia).
Qed.
Example ex_C122 (x : R) : csys_satisfied (run cubic) [x] (aux x (x * x * x + x + five)) = Ok tt.
Proof.
  destruct (C122_satisfied cubic [x] (aux x (x * x * x + x + five)) eq_refl eq_refl (cubic_within _ _)) as [[[H _]|(j & _ & Hj & Hb & _)] _]; [exact H|].
  exfalso. apply Hb. cbn in Hj. do 4 (destruct j as [|j]; [unfold holds, five; cbn; unfold five; ring|]). lia.
Qed.
(** A wrong y is reported at the last constraint. *)
Example ex_C122_bad (x e : R) : e <> 0 -> csys_satisfied (run cubic) [x] (aux x (x * x * x + x + five + e)) = Err (NotSatisfied 3).
Proof.
  intros He. destruct (C122_satisfied cubic [x] (aux x (x * x * x + x + five + e)) eq_refl eq_refl (cubic_within _ _)) as [[[_ H]|(j & H & Hj & Hb & _)] _].
  - exfalso. apply (H 3%nat); [cbn; lia|]. unfold holds. cbn. unfold five. intros E. apply He.
    assert (e = (0 + 1 * (x * x * x + x + (1 + 1 + 1 + 1 + 1) + e)) - (x * x * x + x + (1 + 1 + 1 + 1 + 1))) as -> by ring. rewrite <- E. ring.
  - rewrite H. do 3 (destruct j as [|j]; [exfalso; apply Hb; unfold holds; cbn; ring|]). cbn in Hj. do 2 f_equal. lia.
Qed.
(** A variable that is not assigned makes evaluation panic; terms in the same variable add up. *)
Example ex_C122_panic (x : R) : lc_evaluate (run_l (LAdd (LSingle 1 0%nat) 1 7%nat)) [x] = Panic.
Proof. apply (proj2 (C122_evaluate _ [x])). exists 7%nat. cbn. split; [auto|lia]. Qed.
Example ex_C122_twice (x : R) : lc_evaluate (run_l (LAdd (LSingle 1 0%nat) 1 0%nat)) [x] = Ok (x + x).
Proof. rewrite (proj1 (C122_evaluate _ [x])); [f_equal; cbn; ring|]. cbn. intros i [->| ->]; lia. Qed.
Example ex_C122_rows : r1cs_constraint (csys_to_r1cs (run cubic)) 3 = Ok ([(five, 1%nat); (1, 5%nat)], [(1, 1%nat)], [(1, 2%nat)]).
Proof. reflexivity. Qed.
End Ex.
