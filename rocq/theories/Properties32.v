(** C116: soundness error of the commitment transformation of LatticeFold+. *)
From Coq Require Import String List Arith Lia ZArith Bool Ring.
From Verif Require Import Prelude Alg Poly MLE MLE_Proofs Zippel Counting Transcript Interp Interp_Proofs Sumcheck Sumcheck_Proofs CombDeg Arith Arith_Proofs
  Balanced Linearization_Proofs Folding_Sound Rings Rings_Proofs PlusRing PlusUtils_Proofs SetCheck SetCheck_Proofs SetCheck_Sound
  RangeCheck RangeCheck_Proofs RangeCheck_Sound Cm Cm_Proofs Plus Plus_Sound Decomposition_Proofs SoundErr PlusErr CmErr.
Import ListNotations.
Local Open Scope rs_scope.

Section P.
Context {K R : Type} {PO : POps K R} {p : Z} {PL : PLaws K R p}.
(** * C116
    Whatever the bytes of the short challenges and whatever the prover does, of the [|S|^N] vectors of field challenges at most
    [((L (4 + 4 |M|) + 1 + 2 nv)^2 + (log kappa)^2) |S|^(N-2)] make the verifier of cm.rs accept a false claim: the two halves square the error. *)
Theorem C116_cm_error n nv kap m w by_ (M : list (smat R)) insts (hs : list K -> list (list R)) (st : cm_strategy) (S : list K) :
  let L := length insts in let lk := ark_log2 kap in let a := (n_batch m nv w + nv)%nat in let N := (a + 2 * lk + (1 + nv) + (1 + nv))%nat in
  char_gt K 2 -> (128 / pdim < 64)%nat -> (n <= 2 ^ nv)%nat -> (1 <= L)%nat -> Forall (m_ok n nv) M ->
  few (fun x => In x (tuples N S) /\ cm_fooled n nv kap m w by_ M insts (hs (firstn a x)) (cm_play a lk nv st x) x)
    (((L * (4 + 4 * length M) + 1 + 2 * nv) ^ 2 + lk ^ 2) * length S ^ (N - 2)).
Proof. exact (cm_error (p := p) n nv kap m w by_ M insts hs st S). Qed.

(** As a probability: with [2^s] challenges and [B^2 + (log kappa)^2 <= 2^e] at most one vector in [2^(2s-e)]. *)
Theorem C116_bits n nv kap m w by_ (M : list (smat R)) insts (hs : list K -> list (list R)) (st : cm_strategy) (S : list K) e s xs :
  let L := length insts in let lk := ark_log2 kap in let a := (n_batch m nv w + nv)%nat in let N := (a + 2 * lk + (1 + nv) + (1 + nv))%nat in
  char_gt K 2 -> (128 / pdim < 64)%nat -> (n <= 2 ^ nv)%nat -> (1 <= L)%nat -> Forall (m_ok n nv) M ->
  (Z.of_nat ((L * (4 + 4 * length M) + 1 + 2 * nv) ^ 2 + lk ^ 2) <= 2 ^ e)%Z -> (2 ^ s <= Z.of_nat (length S))%Z -> (0 <= e)%Z -> (e <= 2 * s)%Z ->
  NoDup xs -> (forall x, In x xs -> In x (tuples N S) /\ cm_fooled n nv kap m w by_ M insts (hs (firstn a x)) (cm_play a lk nv st x) x) ->
  (2 ^ (2 * s - e) * Z.of_nat (length xs) <= Z.of_nat (length S) ^ Z.of_nat N)%Z.
Proof.
  intros L lk a N Hc Hl Hn HL HM He Hs H0 Hes Hxs Hx.
  pose proof (C116_cm_error n nv kap m w by_ M insts hs st S Hc Hl Hn HL HM) as F. cbv zeta in F. fold L lk a N in F.
  specialize (F xs Hxs (proj2 (Forall_forall _ _) Hx)). apply Nat2Z.inj_le in F. rewrite Nat2Z.inj_mul, Nat2Z.inj_pow in F.
  set (E := Z.of_nat ((L * (4 + 4 * length M) + 1 + 2 * nv) ^ 2 + lk ^ 2)) in *. set (q := Z.of_nat (length S)) in *.
  assert (0 <= q ^ Z.of_nat (N - 2))%Z as HQ by (apply Z.pow_nonneg; unfold q; lia).
  assert (2 ^ (2 * s) <= q ^ 2)%Z as H2.
  { rewrite (Z.mul_comm 2 s), Z.pow_mul_r by lia. apply Z.pow_le_mono_l. split; [apply Z.pow_nonneg; lia|auto]. }
  assert (2 ^ (2 * s) = 2 ^ (2 * s - e) * 2 ^ e)%Z as E2 by (rewrite <- Z.pow_add_r by lia; f_equal; lia).
  replace (Z.of_nat N) with (2 + Z.of_nat (N - 2))%Z by (unfold N; lia). rewrite Z.pow_add_r by lia.
  assert (0 <= 2 ^ (2 * s - e))%Z as H3 by (apply Z.pow_nonneg; lia).
  transitivity (2 ^ (2 * s - e) * (E * q ^ Z.of_nat (N - 2)))%Z; [apply Z.mul_le_mono_nonneg_l; auto|].
  transitivity (2 ^ (2 * s - e) * (2 ^ e * q ^ Z.of_nat (N - 2)))%Z.
  - apply Z.mul_le_mono_nonneg_l; auto. apply Z.mul_le_mono_nonneg_r; auto.
  - rewrite Z.mul_assoc, <- E2. apply Z.mul_le_mono_nonneg_r; auto.
Qed.
End P.
