(** Concrete cases for C113 and C114 on the toy ring. *)
From Coq Require Import String List Arith Lia ZArith Bool Ring.
From Verif Require Import Prelude Alg Poly MLE MLE_Proofs Transcript Interp Sumcheck Sumcheck_Proofs
  Arith Arith_Proofs Balanced Rings Rings_Proofs Linearization Linearization_Proofs Relations LinRel
  Decomposition Decomposition_Proofs Folding Folding_Comb Folding_Proofs Folding_Complete Folding_Sound NIFS NIFS_Proofs Extract
  Inst5 Toy Properties1 Examples1 Properties2 Examples2 Overflow Properties29 Properties30.
Import ListNotations.
Local Open Scope rs_scope.

(** C113: three instances instead of four. *)
Example ex_C113 : sanity_check exCs (dp_L exP) = Ok tt /\
  fold_prove (C := c4) exP [exAcc; exAcc; exAcc] [] 3%Z exCs [] = Err IncorrectLength /\
  dec_verify exP exAcc (DecProof [[xi]] [[xi]] [[]] [[xi]]) 3%Z = Err IncorrectLength.
Proof.
  assert (sanity_check exCs (dp_L exP) = Ok tt) as S by (vm_compute; reflexivity). split; [exact S|]. split.
  - apply (C113_fold_prove exP [exAcc; exAcc; exAcc] [] 3%Z exCs [] S). discriminate.
  - apply (C113_empty_x exP exAcc _ 3%Z 0 [] [xi] [xi] [xi]); reflexivity.
Qed.
Example ex_C113_lengths : create_sumcheck_polynomial (C := c4) exP 2 [] [xi; xi; xi; xi] (Mle 2 []) (Mle 2 []) [] [] [] = Err IncorrectLength.
Proof. apply (C113_poly_lengths exP). cbn. intros (_ & H & _). discriminate. Qed.

(** C114: in range. *)
Example ex_C114_fits : b_s_checked exP = Ok [rz 1; rz 2].
Proof. destruct (C114_fits (T := Z) (K := f25) (C := c4) (R := r2) exP) as [-> _]; [cbn; lia|cbn; lia|reflexivity|]. reflexivity. Qed.
(** 129 components in base 2 of the instance with all entries 0: accepted with zero components, hence (in a release build) with any last one. *)
Definition ovP : dparams := DParams 4 1 2 129.
Definition ovAcc : lcccs r2 := Lcccs [] [0] [0; 0] [0; 0; 0] [0] 0.
Definition zs (n k : nat) : list (list r2) := repeat (repeat 0 n) k.
Example ex_C114_release : exists r, dec_verify_release ovP ovAcc (DecProof (zs 3 128 ++ [[xi; 1; xi]]) (zs 1 128 ++ [[xi + 1]]) (zs 2 128 ++ [[rz 2; xi]]) (zs 2 128 ++ [[1; 1]])) 3%Z = Ok r /\
  exists lc, nth_error (fst r) 128 = Some lc /\ lc_cm lc = [1; 1] /\ lc_u lc = [xi; 1; xi] /\ lc_v lc = [xi + 1] /\ lc_x lc ++ [lc_h lc] = [rz 2; xi].
Proof.
  assert (exists r, dec_verify_release ovP ovAcc (DecProof (zs 3 128 ++ [[0; 0; 0]]) (zs 1 128 ++ [[0]]) (zs 2 128 ++ [[0; 0]]) (zs 2 128 ++ [[0; 0]])) 3%Z = Ok r) as (r & E).
  { eexists. vm_compute. reflexivity. }
  refine ((fun Q => match Q with ex_intro _ r' (conj E' (conj _ (conj _ H))) => ex_intro _ r' (conj E' H) end)
    (C114_release_ignores (SL := slaws5) ovP ovAcc (zs 3 128) (zs 1 128) (zs 2 128) (zs 2 128) [0; 0; 0] [0] [0; 0] [0; 0] [xi; 1; xi] [xi + 1] [rz 2; xi] [1; 1] 3%Z r _ _ _ _ _ _ _ _ _ _ _ _ _ _ E));
    try reflexivity; try apply le_n.
  intros z Hz. apply repeat_spec in Hz. subst z. reflexivity.
Qed.
Example ex_C114_panics : forall r, dec_verify_debug ovP ovAcc (DecProof (zs 3 129) (zs 1 129) (zs 2 129) (zs 2 129)) 3%Z <> Ok r.
Proof. apply (C114_panics ovP); cbn [dp_b dp_K ovP]; [lia|lia| |]; vm_compute; discriminate. Qed.
(** Constant tables add up like the others. *)
Example ex_C113_mle_add : mle_add (Mle 0 [xi]) (Mle 0 [rz 3]) = Ok (Mle 0 [xi + rz 3]) /\ mle_add (Mle 0 [xi]) (Mle 1 [rz 3; xi]) = Panic.
Proof. split; vm_compute; reflexivity. Qed.
