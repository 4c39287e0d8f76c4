(** Concrete cases for the theorems of Properties18.v. *)
From Coq Require Import String List Arith Lia ZArith Bool Ring.
From Verif Require Import Prelude Alg Poly MLE MLE_Proofs Transcript Interp Sumcheck Sumcheck_Proofs CombDeg Arith Balanced Rings Rings_Proofs
  Linearization Challenge RandPoly RandPoly_Proofs Inst5 Toy Properties1 Examples1 FieldExt PolyInst CycInst RealRings Sampling Properties12 Properties18.
Import ListNotations.
Local Open Scope rs_scope.

#[local] Instance SOgold : SOps (fp gold_p) cub (pol (fp gold_p) (cy_d gold_cyc)) (pol cub (cy_k gold_cyc)) := cyc_ops gold_cyc.
(** C95 in the Goldilocks ring, and the value of a tag. *)
Example ex_C95 {T} {TO : TransOps T (pol cub (cy_k gold_cyc)) cub} :
  (forall ts : T, absorb_tag ts "beta_s" = absorb ts (emb (rofZ (big_endian (bytes_of "beta_s")) : cub))) /\
  big_endian (bytes_of "mu_s") = (109 * 256 ^ 3 + 117 * 256 ^ 2 + 95 * 256 + 115)%Z.
Proof.
  split; [|reflexivity].
  apply (C95_tags (SL := real_laws gold_cyc gold_challenge 18 ring_gold) "beta_s" "rho_s"); [left; reflexivity|cbn; tauto|cbn; tauto|discriminate].
Qed.

(** C96: 2 x1 x2 + 3 x1 on two variables; indices out of range. *)
Definition exM (a b c d : Z) : mle r2 := Mle 2 [rz a; rz b; rz c; rz d].
Definition exDraws : list (r2 * list (mle r2)) := [(rz 2, [exM 1 2 3 4; exM 0 1 1 2]); (xi, [exM 1 1 0 2])].
Example ex_C96 : let '(mles, degree, products, sum) := rand_poly 2 exDraws in
  degree = 2%nat /\ products = [(rz 2, [0; 1]%nat); (xi, [2]%nat)] /\ sum = rz 2 * rz 13 + xi * rz 4 /\ char_gt f25 degree.
Proof. cbv zeta. vm_compute rand_poly. split; [reflexivity|]. split; [reflexivity|]. split; [vm_compute; reflexivity|]. apply char5_le. lia. Qed.
Example ex_C96_range : rand_poly_comb_fn [(rz 1, [2]%nat)] [rz 1; rz 1] = Panic.
Proof. reflexivity. Qed.

(** C97: the coefficients 1 and -1 with the bound 2. *)
Example ex_C97 : within_bound 5 (wit_from_f_coeff exP [C4 a1 a0 a1 a0] : witness c4 r2) 2 = true /\
  within_bound 5 (wit_from_f_coeff exP [C4 a1 a0 a4 a0] : witness c4 r2) 2 = false /\ Z.odd 5 = true /\ (a4 : f5) = rofZ (-1).
Proof. split; [vm_compute; reflexivity|]. split; [vm_compute; reflexivity|]. split; reflexivity. Qed.

(** C98 *)
Example ex_C98 : covers (p := 5) exP /\ exists cm, decompose_and_commit_ntt exA exP (exW xi) = Ok cm /\ cm <> [].
Proof. split; [exact ex_covers|]. eexists. split; [vm_compute; reflexivity|]. discriminate. Qed.
