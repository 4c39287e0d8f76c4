(** C110 on the toy ring: a chain of three folding steps meets the hypotheses. *)
From Coq Require Import String List Arith Lia ZArith Bool Ring.
From Verif Require Import Prelude Alg Poly MLE MLE_Proofs Transcript Interp Sumcheck Sumcheck_Proofs
  Arith Arith_Proofs Balanced Rings Rings_Proofs Linearization Linearization_Proofs Relations LinRel
  Decomposition Decomposition_Proofs Folding Folding_Comb Folding_Proofs Folding_Complete Folding_Sound NIFS NIFS_Proofs Extract
  RhoErr Inst5 Toy Properties1 Examples1 Properties2 Examples2 Properties26.
Import ListNotations.
Local Open Scope rs_scope.

Definition chain_xs : list f25 := [K2 a0 a0; K2 a1 a0; K2 a2 a0; K2 a0 a1].
Example ex_C110 : exists steps w,
  map (fun s => (st_ts s, st_cm s)) steps = [(3%Z, exI xi); (4%Z, exI (rz 2)); (3%Z, exI (xi + 1))] /\
  chain_ok exP exA exCs exAcc steps w /\
  (chain_true exP exA exCs exAcc steps \/ chain_bad exP exA exCs chain_xs exAcc steps w) /\
  exists accs, fold_chain_v exP exCs exAcc (map (fun s => (st_ts s, st_cm s)) steps) (map st_pf steps) = Ok accs /\ length accs = 3%nat.
Proof.
  destruct (C110_honest_chain (SL := slaws5) exP exA exCs ex_params ex_folds_in_range
    [(3%Z, exI xi, exWit xi); (4%Z, exI (rz 2), exWit (rz 2)); (3%Z, exI (xi + 1), exWit (xi + 1))] exAcc (exWit xi) ex_acc (all_in_range _)) as (steps & w & E & H).
  { repeat (apply Forall_cons; [split; cbn [fst snd]; [apply ex_cccs|apply all_in_range]|]). constructor. }
  exists steps, w. split; [exact E|]. split; [exact H|]. split.
  - pose proof ex_params as PO. 
    apply (C110_chain_sound (SL := slaws5) exP exA exCs chain_xs); try apply PO; auto.
    + unfold chain_xs. repeat (constructor; [cbn; intuition discriminate|]). constructor.
  - destruct (C110_chain_verifies exP exA exCs steps exAcc w H) as (accs & E1 & L & _). exists accs. split; [exact E1|]. rewrite L.
    apply (f_equal (@length _)) in E. rewrite map_length in E. exact E.
Qed.
