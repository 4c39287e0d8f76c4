(** Concrete cases for the theorems of Properties37.v. *)
From Coq Require Import String List Arith Lia ZArith Bool Ring.
From Verif Require Import Prelude Alg Poly MLE MLE_Proofs Transcript Interp Sumcheck Sumcheck_Proofs
  Arith Arith_Proofs Balanced Rings Rings_Proofs Linearization Linearization_Proofs Relations LinRel
  Decomposition Decomposition_Proofs Folding Folding_Comb Folding_Proofs Folding_Complete Folding_Sound NIFS NIFS_Proofs
  PolyInst CycInst RealRings Sampling Shipped Properties12 Properties13 Break Properties14 Examples13 Properties37.
Import ListNotations.
Local Open Scope rs_scope.

(** One public input, the constant and one private variable: z2 z2 = z0. *)
Definition square_sys {R} {RO : RingOps R} : csys R := Csys 1 2 [Constr [(1, 2%nat)] [(1, 2%nat)] [(1, 0%nat)]].
Section Square.
Context {p : Z} {K : Type} (y : cyc p K) (decode : list Z -> result (list Z)) (need : nat) (W G : list dparams) (SH : shipped p K y decode need W G).
Notation C := (pol (fp p) (cy_d y)).
Notation R := (pol K (cy_k y)).
Local Instance SO33 : SOps (fp p) K C R := cyc_ops y.
Local Instance SL33 : SLaws (fp p) K C R p := real_laws y decode need (shipped_real y decode need W G SH).
Add Ring Rring108 : (@rlaws_th R _ (l_R (SLaws := SL33))).
Lemma square_sat (a : R) : csys_satisfied square_sys [a * a] [1; a] = Ok tt.
Proof.
  assert (csys_satisfied square_sys [a * a] [1; a] = if negb ((0 + 1 * a) * (0 + 1 * a) =? (0 + 1 * (a * a))) then Err (NotSatisfied 0) else Ok tt) as -> by reflexivity.
  assert ((0 + 1 * a) * (0 + 1 * a) = 0 + 1 * (a * a)) as -> by ring. rewrite (proj2 (req_true _ _) eq_refl). reflexivity.
Qed.
Example ex_C121 {T} {TO : TransOps T R K} (sq : T -> list Z * T) P (a : R) (ts : T) : In P (W ++ G) ->
  exists cs cm acc lc w' pf ts', ccs_from_r1cs_padded (csys_to_r1cs square_sys) 1 (dp_L P) = Ok cs /\
    lcccs_rel P (ones y P) cs acc (wit_from_w_ccs P [a]) /\
    nifs_prove (HO := short_of y decode sq) P acc (wit_from_w_ccs P [a]) (Cccs cm [a * a]) (wit_from_w_ccs P [a]) ts cs (ones y P) = Ok (lc, w', pf, ts') /\
    nifs_verify (HO := short_of y decode sq) P acc (Cccs cm [a * a]) pf ts cs = Ok (lc, ts').
Proof.
  intros HP. pose proof (ex_L y decode need W G P SH HP) as HL. pose proof (fresh_len (p := p) y P a) as Hf.
  assert (commit (ones y P) (w_f (wit_from_w_ccs P [a] : witness C R)) = Ok (match commit (ones y P) (w_f (wit_from_w_ccs P [a])) with Ok c => c | _ => [] end)) as Hcm
    by (rewrite commit_ok by exact Hf; reflexivity).
  set (cm := match commit (ones y P) (w_f (wit_from_w_ccs P [a])) with Ok c => c | _ => [] end) in *.
  destruct (C121_folded y decode need W G SH sq P (ones y P) square_sys [a * a] [a] 1 cm HP) as (cs & E & Hok & Hfold); auto; try (cbn [length square_sys s_cons]; lia).
  { cbn [length]. pose proof (next_pow2_ge (1 * dp_L P)). lia. }
  { apply square_sat. }
  set (r := repeat (0 : R) (c_s cs)).
  set (acc := Lcccs r (map (fun j => mle_spec (fun b => hat j (nth b (w_fc (wit_from_w_ccs P [a] : witness C R)) 0)) r) (seq 0 tau)) cm
    (map (fun M => mle_spec (mz M ([a * a] ++ 1 :: w_ccs (wit_from_w_ccs P [a] : witness C R))) r) (c_M cs)) [a * a] 1).
  assert (c_n cs = 3%nat /\ c_l cs = 1%nat) as [En El].
  { unfold ccs_from_r1cs_padded in E. cbn [c_n c_l ccs_from_r1cs csys_to_r1cs square_sys r_A r_l m_ncols s_nvars s_ninputs s_nauxs Nat.add Nat.leb] in E. injection E as <-.
    unfold pad_rows_to. destruct (_ <? _)%nat; split; reflexivity. }
  assert (lcccs_rel P (ones y P) cs acc (wit_from_w_ccs P [a])) as HA.
  { split; [split|..].
    - apply (from_w_ccs_consistent (SL := SL33)). apply (so_cov _ _ _ (po_sizes _ _ Hok)).
    - rewrite En, El. etransitivity; [exact Hf|]. cbn [Nat.sub]. lia.
    - exact Hcm.
    - apply repeat_length.
    - rewrite El. reflexivity.
    - reflexivity.
    - reflexivity. }
  destruct (Hfold acc [a] ts HA) as (lc & w' & pf & ts' & H1 & H2 & _). exists cs, cm, acc, lc, w', pf, ts'. auto.
Qed.
End Square.
