(** Concrete cases for C102 to C104. *)
From Coq Require Import String List Arith Lia ZArith Bool Ring Znumtheory.
From Verif Require Import Prelude Alg Poly MLE MLE_Proofs Transcript Interp Sumcheck Sumcheck_Proofs
  Arith Arith_Proofs Balanced Rings Rings_Proofs Linearization Linearization_Proofs Relations LinRel
  Decomposition Decomposition_Proofs Folding Folding_Comb Folding_Proofs Folding_Complete Folding_Sound NIFS NIFS_Proofs Extract
  Challenge Challenge_Proofs PolyInst Primes FieldExt CycInst RealRings ShortDual Sampling Properties9 Properties12 Shipped Zippel Reject Properties13 Break Properties14 Examples13
  Poseidon PoseidonParams Sponge_Proofs PTrans_Proofs SpongeBind PShipped FSLog FSReal ProofSize Inst257 Properties20.
Import ListNotations.
Local Open Scope rs_scope.

(** C102: the sum of a first message; bits of 6; two vectors of which the second is short. *)
Example ex_extract : extract_sum [[zq 3; zq 4; zq 5]; [zq 1]] = Ok (zq 7) /\ extract_sum [[zq 3]] = Panic.
Proof. split; [f_equal|]; vm_compute; reflexivity. Qed.
Example ex_bits : bit_decompose 6 4 = [false; true; true; false].
Proof. reflexivity. Qed.
Example ex_evaluate : evaluate_mles_vecref [[zq 1; zq 2; zq 3; zq 4]; [zq 1; zq 2; zq 3]] [zq 5; zq 7] = Err (MleIncorrectLength 2 3) /\
  evaluate_mles_vecref [[zq 1; zq 2; zq 3; zq 4]] [zq 5; zq 7] = Ok [zq 20].
Proof. split; vm_compute; reflexivity. Qed.
Example ex_one : vm_one (vm_add (vm_set_one vm_new 3) "x" 2 5) = 3%nat.
Proof. reflexivity. Qed.

(** C103, C104: two squares folded from one sponge; both runs are accepted, so statements of different squares leave different sponges or a collision. *)
Section Two.
Context {p : Z} {K : Type} (y : cyc p K) (decode : list Z -> result (list Z)) (need : nat) (c : poseidon_cfg) (RC : real_cfg p K y decode need c)
  (W G : list dparams) (SH : shipped p K y decode need W G).
Notation C := (pol (fp p) (cy_d y)).
Notation R := (pol K (cy_k y)).
Local Instance tr21 : TransOps (wsponge (p := p) c) R K := pw_trans y decode need c RC.
Local Instance sh21 : ShortOps (wsponge (p := p) c) C := short_of y decode (pw_bytes y decode need c RC).
Local Instance so21 : SOps (fp p) K C R := cyc_ops y.
Let RR := shipped_real y decode need W G SH.
Local Instance SL21 : SLaws (fp p) K C R p := real_laws y decode need RR.
Example ex_two P (a b b' x : R) r (ws0 : wsponge (p := p) c) : In P (W ++ G) -> length r = Nat.log2_up (dp_L P) -> b * b <> b' * b' ->
  let acc := sq_lc y P r (wit_from_w_ccs P [a]) x in let cs := sq_cs y P in let cm := sq_cm y P in
  exists pf pf' lc lc' ws1 ws2,
    nifs_verify P acc (cm b) pf ws0 cs = Ok (lc, ws1) /\ nifs_verify P acc (cm b') pf' ws0 cs = Ok (lc', ws2) /\ nifs_same cs acc acc (cm b) (cm b') pf pf' /\
    (proj1_sig ws1 = proj1_sig ws2 -> exists h1 h2, collide c (events y decode need c h1 (proj1_sig ws0)) (events y decode need c h2 (proj1_sig ws0)) (proj1_sig ws0) (proj1_sig ws0)).
Proof.
  intros HP Hr Hb acc cs cm. pose proof (ex_L y decode need W G P SH HP) as HL.
  destruct (ex_step y decode need W G SH (pw_bytes y decode need c RC) P a b x r ws0 HP HL Hr) as (lc & w & pf & ws1 & E1 & E2 & _).
  destruct (ex_step y decode need W G SH (pw_bytes y decode need c RC) P a b' x r ws0 HP HL Hr) as (lc' & w' & pf' & ws2 & E1' & E2' & _).
  exists pf, pf', lc, lc', ws1, ws2. split; [exact E2|]. split; [exact E2'|].
  assert (nifs_same cs acc acc (cm b) (cm b') pf pf') as N.
  { eapply (C104_same_shape (SL := SL21) P (ones y P) cs); [| | | | |exact E1|exact E1'].
    - exact (po_sizes _ _ (shipped_ok y decode need W G SH P _ HP (sq_good y decode need W G SH P HP HL))).
    - apply (sq_lc_ok y); auto; [apply (from_w_ccs_consistent (SL := SL21)), (wit_covers y decode need W G SH P HP)|apply fresh_len].
    - apply (sq_cm_ok y decode need W G SH); auto.
    - apply (sq_lc_ok y); auto; [apply (from_w_ccs_consistent (SL := SL21)), (wit_covers y decode need W G SH P HP)|apply fresh_len].
    - apply (sq_cm_ok y decode need W G SH); auto. }
  split; [exact N|]. intros E. destruct (C103_binds y decode need c RC ws0 ws1 ws2 P cs acc acc (cm b) (cm b') pf pf' lc lc' E2 E2' N) as (h1 & h2 & _ & _ & _ & H4).
  destruct (H4 E) as [(_ & E3 & _)|X]; [|eauto]. exfalso. apply Hb. apply (f_equal i_x) in E3. cbn [cm sq_cm i_x] in E3. exact (f_equal (hd 0) E3).
Qed.
(** The proof of a square: three matrices, one public value, one row of commitment. *)
Example ex_size P (a b x : R) r (ws0 : wsponge (p := p) c) : In P (W ++ G) -> length r = Nat.log2_up (dp_L P) ->
  let acc := sq_lc y P r (wit_from_w_ccs P [a]) x in let cs := sq_cs y P in let cm := sq_cm y P in
  exists lc w pf ws1, nifs_prove P acc (wit_from_w_ccs P [a]) (cm b) (wit_from_w_ccs P [b]) ws0 cs (ones y P) = Ok (lc, w, pf, ws1) /\
    (lf_size pf = Nat.log2_up (dp_L P) * (2 * dp_b P + 5) + 6 * dp_K P + (4 * dp_K P + 1) * (tau + 3))%nat.
Proof.
  intros HP Hr acc cs cm. pose proof (ex_L y decode need W G P SH HP) as HL.
  destruct (ex_step y decode need W G SH (pw_bytes y decode need c RC) P a b x r ws0 HP HL Hr) as (lc & w & pf & ws1 & E1 & _). exists lc, w, pf, ws1. split; [exact E1|].
  rewrite (C104_total (SL := SL21) P (ones y P) cs acc (wit_from_w_ccs P [a]) (cm b) (wit_from_w_ccs P [b]) ws0 lc w pf ws1); auto.
  - cbn [cs sq_cs c_m c_d c_l c_t]. rewrite Nat.log2_pow2 by lia. unfold kappa, ones. cbn [a_rows length]. lia.
  - exact (po_sizes _ _ (shipped_ok y decode need W G SH P _ HP (sq_good y decode need W G SH P HP HL))).
  - apply (sq_lc_ok y); auto; [apply (from_w_ccs_consistent (SL := SL21)), (wit_covers y decode need W G SH P HP)|apply fresh_len].
  - apply (sq_cm_ok y decode need W G SH); auto.
Qed.
End Two.
