(** Concrete cases for the theorems of Properties41.v, over the ring of Inst5.v and the Goldilocks ring. *)
From Coq Require Import String List Arith Lia ZArith Bool.
From Verif Require Import Prelude Alg Transcript Arith Arith_Proofs Balanced Rings Rings_Proofs Inst5 Toy Dummy Properties41
  Challenge Primes FieldExt PolyInst CycInst RealRings Sampling Shipped.
Import ListNotations.
Local Open Scope rs_scope.

(** Two inputs, three witness entries, four rows. *)
Example ex_C124_ones : r1cs_check (dummy_r1cs 2 3 4 : r1cs r2) (joined (dummy_z_split 2 3)) = Ok tt.
Proof. apply (C124_dummy_satisfied 2 3 4 4 1); lia. Qed.
(** An idempotent that is neither 0 nor 1 (one slot 1, the other 0) also passes; xi does not. *)
Example ex_C124_idempotent : r1cs_check (dummy_r1cs 2 3 4) [R2 (K2 a1 a0) (K2 a0 a0); i1; i1; 0; xi; xi] = Ok tt.
Proof. vm_compute. reflexivity. Qed.
Example ex_C124_other : r1cs_check (dummy_r1cs 2 3 4) [i1; xi; i1; 0; i1; i1] = Err (NotSatisfied 1).
Proof. vm_compute. reflexivity. Qed.
Example ex_C124_rows : r1cs_check (dummy_r1cs 0 1 3) [i1; i1] = Panic.
Proof. apply (C124_dummy 0 1 3 [i1; i1] eq_refl). lia. Qed.
(** The system made for a vector, the vector, and a different one. *)
Example ex_C124_square : exists r, dummy_r1cs_non_scalar 1 2 3 [xi; i1; rz 3] = Ok r /\
  r1cs_check r [xi; i1; rz 3; xi] = Ok tt /\ r1cs_check r [xi; i1; rz 2; xi] = Err (NotSatisfied 2).
Proof.
  destruct (proj2 (C124_non_scalar 1 2 3 [xi; i1; rz 3] [xi; i1; rz 3; xi] ltac:(lia) eq_refl) eq_refl) as (r & E & _ & H).
  exists r. split; [exact E|]. split; [exact (H eq_refl)|]. injection E as <-. vm_compute. reflexivity.
Qed.
Example ex_C124_cube : exists cs, dummy_degree_three [xi; i1; rz 3] 1 4 2 2 3 = Ok cs /\
  ccs_check cs [xi; i1; rz 3; xi] = Ok tt /\ ccs_check cs [xi; i1; rz 1; xi] = Err (NotSatisfied 2).
Proof.
  destruct (proj2 (C124_degree_three 1 4 2 2 3 [xi; i1; rz 3] [xi; i1; rz 3; xi] ltac:(lia) eq_refl ltac:(lia)) eq_refl) as (cs & E & _ & _ & _ & H).
  exists cs. split; [exact E|]. split; [exact (H eq_refl)|]. vm_compute in E. injection E as <-. vm_compute. reflexivity.
Qed.
(** Sizes: three witness entries of two digits each need eight rows. *)
Example ex_C124_sizes : exists cs, dummy_degree_three [xi; i1; rz 3] 1 4 3 2 3 = Ok cs /\ c_m cs = 8%nat /\ c_s cs = 3%nat /\ c_d cs = 3%nat.
Proof. eexists. split; [vm_compute; reflexivity|]. repeat split; reflexivity. Qed.
Example ex_C124_sizes_least cs : dummy_degree_three [xi; i1; rz 3] 1 4 3 2 3 = Ok cs -> (c_m cs <= 2 ^ 3)%nat.
Proof. intros E. apply (C124_sizes 1 4 3 2 3 _ cs ltac:(lia) E); cbn; lia. Qed.
(** The largest input that does not overflow, and the next one. *)
Example ex_C124_largest : exists z : list r2, cubic_z 2642245 = Ok z /\ r1cs_check cubic_r1cs z = Ok tt.
Proof. destruct (proj1 (C124_vitalik (R := r2) 2642245 ltac:(lia)) ltac:(reflexivity)) as (z & s & E & H & _). exists z. auto. Qed.
Example ex_C124_overflow : (cubic_z 2642246 : result (list r2)) = Panic /\ (degree_three_z 2642246 : result (list r2)) = Panic.
Proof. split; [apply C124_vitalik|apply C124_cubic]; try lia; discriminate. Qed.
Example ex_C124_three : exists z : list r2, degree_three_z 3 = Ok z /\ ccs_check degree_three_ccs z = Ok tt.
Proof. destruct (proj1 (C124_cubic (R := r2) 3 ltac:(lia)) ltac:(reflexivity)) as (z & E & _ & H). exists z. auto. Qed.
(** A wrong result is refused. *)
Example ex_C124_wrong : r1cs_check cubic_r1cs [rz 2; rz 1; rz 1; rz 4; rz 8; rz 10] = Err (NotSatisfied 3).
Proof. vm_compute. reflexivity. Qed.

(** The vectors with one number per slot, over the Goldilocks ring (eight slots). *)
Section Gold.
Local Instance SO37 : SOps _ _ _ _ := cyc_ops gold_cyc.
Local Instance SL37 : SLaws _ _ _ _ gold_p := real_laws gold_cyc gold_challenge 18 ring_gold.
Example ex_C124_gold : exists cs, dummy_degree_three (joined (dummy_z_split_ntt (SO := SO37) 1 4)) 1 4 4 5 6 = Ok cs /\
  ccs_check cs (joined (dummy_z_split_ntt (SO := SO37) 1 4)) = Ok tt.
Proof. destruct (C124_slots (SL := SL37) 1 4 4 5 ltac:(lia)) as (_ & _ & _ & cs & E & _ & H). exists cs. auto. Qed.
Example ex_C124_gold_cubic : r1cs_check cubic_r1cs (cubic_z_ntt (SO := SO37)) = Ok tt.
Proof. apply (C124_cubic_slots (SL := SL37)). Qed.
End Gold.
