(** Concrete cases for the theorems of Properties39.v. *)
From Coq Require Import String List Arith Lia ZArith Bool Ring.
From Verif Require Import Prelude Alg Poly MLE MLE_Proofs Transcript Interp Sumcheck Sumcheck_Proofs
  Arith Arith_Proofs Balanced Rings Rings_Proofs Linearization Linearization_Proofs Relations LinRel
  Decomposition Decomposition_Proofs Folding Folding_Comb Folding_Proofs Folding_Complete Folding_Sound NIFS NIFS_Proofs
  Challenge Challenge_Proofs PolyInst Primes FieldExt CycInst RealRings Sampling Shipped
  Inst5 Toy Properties1 Examples1 Properties2 Examples2 Properties39.
Import ListNotations.
Local Open Scope rs_scope.

(** The Goldilocks ring: two witnesses of one element with coefficients at most 1, folded with a challenge with coefficients at most 32 and with 1. *)
Section Gold.
Notation Cg := (pol (fp gold_p) (cy_d gold_cyc)).
Local Instance SO35 : SOps _ _ _ _ := cyc_ops gold_cyc.
Local Instance SL35 : SLaws _ _ _ _ gold_p := real_laws gold_cyc gold_challenge 18 ring_gold.
Example ex_C32_gold P (c a b : Cg) : cnorm_le 32 c -> cnorm_le 1 (1 : Cg) -> cnorm_le 1 a -> cnorm_le 1 b ->
  exists f0, compute_f_0 (map crt [c; 1]) [wit_from_f_coeff P [a]; wit_from_f_coeff P [b]] = Ok f0 /\ wit_norm (24 * 2 * 33) (wit_from_f P f0).
Proof.
  intros Hc H1 Ha Hb. eexists. split; [reflexivity|].
  refine (C32_compute_f_0 (SL := SL35) P 2 1 [c; 1] [wit_from_f_coeff P [a]; wit_from_f_coeff P [b]] _ (fun i => match i with O => 32 | _ => 1 end)%Z (fun _ => 1%Z) _ eq_refl _ _ eq_refl).
  - apply (trin_expansion gold_cyc gold_prime eq_refl gold_xl gold_check 12 gold_trin).
  - repeat constructor; unfold wit_from_f_coeff; cbn [w_f w_fc map]; rewrite icrt_crt; reflexivity.
  - intros i Hi. destruct i as [|[|i]]; [| |cbn [length] in Hi; lia]; (split; [assumption|]); constructor; auto; constructor.
Qed.
End Gold.

(** A run of the folding prover over the small ring meets the hypotheses of [C32_fold_prove]. *)
Example ex_C32_fold (ts : Z) : exists cms ws mzs lc w pf ts',
  fold_prove exP cms ws ts exCs mzs = Ok (lc, w, pf, ts') /\ wit_norm (2 * Z.of_nat (dp_K exP) * (Z.of_nat dimC * 1 * 2 * 1)) w.
Proof.
  pose (r1 := [xi; rz 3]). pose (q2 := [rz 2; xi + 1]).
  set (cms := [mk_lc exCs exA smallWit r1 [xi] 1; mk_lc exCs exA smallWit r1 [rz 2] 0; mk_lc exCs exA smallWit q2 [xi] 1; mk_lc exCs exA smallWit q2 [rz 3] xi]).
  set (ws := [smallWit; smallWit; smallWit; smallWit]).
  assert (wit_norm 1 smallWit) as Hs. { unfold wit_norm, smallWit, wit_from_f_coeff. cbn [w_fc]. repeat constructor; rewrite c4_coeffs; vm_compute; intuition discriminate. }
  assert (Forall (wit_norm (Z.of_nat (dp_b exP) - 1)) ws) as HN by (unfold ws; do 4 (apply Forall_cons; [exact Hs|]); apply Forall_nil).
  destruct (C30_folding_complete (SL := slaws5) exP exA exCs cms ws ts r1 q2) as (lc & w & pf & ts' & rs & rho & E & _).
  - apply ex_sizes.
  - apply char5_le. cbn. lia.
  - cbn. lia.
  - reflexivity.
  - unfold cms, ws. assert (forall r x h, length r = 2%nat -> length x = 1%nat -> lcccs_rel exP exA exCs (mk_lc exCs exA smallWit r x h) smallWit) as HL.
    { intros r x h Hr Hx. apply mk_lc_rel; auto. apply from_f_coeff_consistent. }
    apply Forall2_cons; [apply HL; reflexivity|]. apply Forall2_cons; [apply HL; reflexivity|]. apply Forall2_cons; [apply HL; reflexivity|]. apply Forall2_cons; [apply HL; reflexivity|apply Forall2_nil].
  - exact HN.
  - exists cms, ws. eexists. exists lc, w, pf, ts'. split; [exact E|].
    refine (C32_fold_prove (SL := slaws5) exP 1 2 1 4 cms ws ts exCs _ lc w pf ts' ex_expansion _ _ _ _ HN E); try (cbn; lia).
    + intros c _. rewrite c4_coeffs. destruct c as [x0 x1 x2 x3]. cbn [c0 c1 c2 c3]. destruct x0, x1, x2, x3; vm_compute; intuition discriminate.
    + repeat constructor; vm_compute; reflexivity.
Qed.
