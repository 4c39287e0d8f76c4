(** Concrete cases for C115. *)
From Coq Require Import String List Arith Lia ZArith Bool Ring Znumtheory.
From Verif Require Import Prelude Alg Poly MLE MLE_Proofs Transcript Interp Sumcheck Sumcheck_Proofs
  Arith Arith_Proofs Balanced Rings Rings_Proofs Linearization Linearization_Proofs Relations LinRel
  Decomposition Decomposition_Proofs Folding Folding_Comb Folding_Proofs Folding_Complete Folding_Sound NIFS NIFS_Proofs Extract
  Challenge Challenge_Proofs PolyInst Primes FieldExt CycInst RealRings ShortDual Sampling Properties9 Properties12 Shipped Zippel Reject Properties13 Break Properties14 Examples13
  Poseidon PoseidonParams Sponge_Proofs PTrans_Proofs SpongeBind PShipped FSLog FSReal ProofSize Inst257 Properties20 Examples19 Serial Serial_Proofs Properties31.
Import ListNotations.
Local Open Scope rs_scope.

(** A field element and a vector; values from the modulus on, and too few bytes, are refused. *)
Example ex_C115_fp : enc (c_vec (c_fp bb_p)) [zp bb_p 258; zp bb_p (-1)] = [2; 0; 0; 0; 0; 0; 0; 0; 2; 1; 0; 0; 0; 0; 0; 120]%Z /\
  option_map (fun x => (fpz (fst x), snd x)) (dec (c_fp bb_p) [0; 0; 0; 120; 7]%Z) = Some (2013265920, [7])%Z /\
  dec (c_fp bb_p) [1; 0; 0; 120; 7]%Z = None /\ dec (c_fp bb_p) [1; 0; 0]%Z = None.
Proof. repeat split; vm_compute; reflexivity. Qed.

(** The order of the parts: the bytes of a proof that are not 0 (lengths and elements). *)
Definition ser_pf : lf_proof (fp 251) :=
  let e := zp 251 in
  LFProof (LinProof [[e 1; e 2]; [e 3]] [e 4] [e 5])%Z (DecProof [[e 6]] [[e 7]] [[e 8]] [[e 9]])%Z (DecProof [[e 10]] [[e 11]] [[e 12]] [[e 13]])%Z (FoldProof [[e 14]] [[e 15]] [[e 16]])%Z.
Example ex_C115_layout : filter (fun z => negb (z =? 0)%Z) (enc (c_lf (c_fp 251)) ser_pf) =
  [2; 2; 1; 2; 1; 3; 1; 4; 1; 5; 1; 1; 6; 1; 1; 7; 1; 1; 8; 1; 1; 9; 1; 1; 10; 1; 1; 11; 1; 1; 12; 1; 1; 13; 1; 1; 14; 1; 1; 15; 1; 1; 16]%Z.
Proof. vm_compute. reflexivity. Qed.

(** The proof of a folded square, for all shipped parameters. *)
Section One.
Context {p : Z} {K : Type} (y : cyc p K) (decode : list Z -> result (list Z)) (need : nat) (c : poseidon_cfg) (RC : real_cfg p K y decode need c)
  (W G : list dparams) (SH : shipped p K y decode need W G).
Notation C := (pol (fp p) (cy_d y)).
Notation R := (pol K (cy_k y)).
Local Instance tr27 : TransOps (wsponge (p := p) c) R K := pw_trans y decode need c RC.
Local Instance sh27 : ShortOps (wsponge (p := p) c) C := short_of y decode (pw_bytes y decode need c RC).
Local Instance so27 : SOps (fp p) K C R := cyc_ops y.
Let RR := shipped_real y decode need W G SH.
Local Instance SL27 : SLaws (fp p) K C R p := real_laws y decode need RR.
Lemma small_params P : In P (W ++ G) -> (Nat.log2_up (dp_L P) < 5 /\ dp_K P < 200 /\ dp_b P < 400 /\ cy_e y < 10)%nat.
Proof.
  intros HP. assert (forall P, In P (W ++ G) -> ((Nat.log2_up (dp_L P) <? 5)%nat && (dp_K P <? 200)%nat && (dp_b P <? 400)%nat && (cy_e y <? 10)%nat)%bool = true) as H.
  { apply forallb_forall. destruct SH; vm_compute; reflexivity. }
  specialize (H P HP). rewrite !andb_true_iff, !Nat.ltb_lt in H. tauto.
Qed.
Example ex_C115 P (a b x : R) r (ws0 : wsponge (p := p) c) rest : In P (W ++ G) -> length r = Nat.log2_up (dp_L P) ->
  let acc := sq_lc y P r (wit_from_w_ccs P [a]) x in let cs := sq_cs y P in let cm := sq_cm y P in
  exists lc w pf ws1, nifs_prove P acc (wit_from_w_ccs P [a]) (cm b) (wit_from_w_ccs P [b]) ws0 cs (ones y P) = Ok (lc, w, pf, ws1) /\
    dec (c_lf (c_ring y)) (enc (c_lf (c_ring y)) pf ++ rest) = Some (pf, rest) /\
    length (enc (c_lf (c_ring y)) pf) =
    (cy_d y * fp_bytes p * (Nat.log2_up (dp_L P) * (2 * dp_b P + 5) + 6 * dp_K P + (4 * dp_K P + 1) * (cy_e y + 3)) + 8 * (14 + 2 * Nat.log2_up (dp_L P) + 12 * dp_K P))%nat.
Proof.
  intros HP Hr acc cs cm. pose proof (ex_L y decode need W G P SH HP) as HL. destruct (small_params P HP) as (S1 & S2 & S3 & S4).
  destruct (ex_step y decode need W G SH (pw_bytes y decode need c RC) P a b x r ws0 HP HL Hr) as (lc & w & pf & ws1 & E1 & _). exists lc, w, pf, ws1. split; [exact E1|].
  destruct (C115_honest y decode need RR P (ones y P) cs acc (wit_from_w_ccs P [a]) (cm b) (wit_from_w_ccs P [b]) ws0 lc w pf ws1) as [FF LL]; auto.
  - exact (po_sizes _ _ (shipped_ok y decode need W G SH P _ HP (sq_good y decode need W G SH P HP HL))).
  - apply (sq_lc_ok y); auto; [apply (from_w_ccs_consistent (SL := SL27)), (wit_covers y decode need W G SH P HP)|apply fresh_len].
  - apply (sq_cm_ok y decode need W G SH); auto.
  - intros n Hn. change (2 ^ 64)%Z with 18446744073709551616%Z. cbn [cs sq_cs c_s c_d c_t c_l ones kappa a_rows length] in Hn. cbn [In] in Hn.
    repeat (destruct Hn as [<-|Hn]; [lia|]). destruct Hn.
  - split; [apply (C115_roundtrip y decode need RR); exact FF|]. rewrite LL. cbn [cs sq_cs c_s c_d c_t c_l]. unfold kappa, ones. cbn [a_rows length]. lia.
Qed.
End One.
