(** Concrete cases and refutations for Properties6.v, on F257[X]/(X^4+1) with the toy transcript. *)
From Coq Require Import String List Arith Lia ZArith Bool.
From Verif Require Import Prelude Alg MLE MLE_Proofs Transcript Sumcheck Sumcheck_Proofs Arith Arith_Proofs Linearization_Proofs Folding_Sound
  Rings Rings_Proofs PlusRing PlusUtils_Proofs Toy Inst257 SetCheck SetCheck_Proofs SetCheck_Sound RangeCheck RangeCheck_Proofs Cm Cm_Proofs Properties5 Examples5 Properties6.
Import ListNotations.
Local Open Scope rs_scope.

(** Two witnesses of 512 elements, coefficients in [-2, 2], two digits in base 2, one commitment row, one matrix;
    eight digits in base 2 hold every element of F257. *)
Definition cP : rparams := RParams 2 2 8.
Definition cn : nat := 512.
Definition cf (e : nat) : list q4 := map (fun i => Q4 (zz (i + e)) (zz (i * e)) (zz (i + 3)) (zz (2 * i))) (seq 0 cn).
Definition cA : ajtai q4 := Ajtai cn [map (fun i => Q4 (zq (Z.of_nat i * 7 + 2)) (zq (Z.of_nat i * Z.of_nat i)) 1 (zq (Z.of_nat i))) (seq 0 cn)].
Definition cM : smat q4 := SMat cn cn (map (fun i => [(emb (zq 9), Nat.modulo (5 * i + 3) cn)]) (seq 0 cn)).
Lemma cM_ok : wf_mat (2 ^ 9) cM /\ (length (m_coeffs cM) <= 2 ^ 9)%nat /\ base_mat cM.
Proof.
  split; [|split].
  - unfold wf_mat, cM. cbn [m_nrows m_ncols m_coeffs]. change (2 ^ 9)%nat with cn. repeat split; auto.
    apply Forall_map, Forall_forall. intros i _. apply Forall_cons; [|apply Forall_nil]. cbn [snd]. apply Nat.mod_upper_bound. discriminate.
  - unfold cM. cbn [m_coeffs]. rewrite map_length, seq_length. apply Nat.leb_le. reflexivity.
  - apply Forall_map, Forall_forall. intros i _. apply Forall_cons; [|apply Forall_nil]. exists (zq 9). reflexivity.
Qed.
Lemma ex_cm_setting : cm_setting (p := 257) [cf 1; cf 2] cA cP 9 [cM].
Proof.
  constructor.
  - lia.
  - intros i Hi; apply char257; lia.
  - cbn; lia.
  - reflexivity.
  - unfold wf_ajtai, cA. cbn [a_ncols a_rows]. apply Forall_cons; [|apply Forall_nil]. rewrite map_length, seq_length. reflexivity.
  - reflexivity.
  - reflexivity.
  - cbn; lia.
  - cbn; lia.
  - cbn; lia.
  - apply Nat.ltb_lt. vm_compute. reflexivity.
  - apply Nat.leb_le. vm_compute. reflexivity.
  - vm_compute. discriminate.
  - apply Forall_cons; [|apply Forall_cons; [|apply Forall_nil]]; (split; [vm_compute; reflexivity|apply in_rangeb_ok; vm_compute; reflexivity]).
  - apply Forall_cons; [|apply Forall_nil]. apply cM_ok.
Qed.
Example ex_C48_hypotheses : exists insts gs x proof ts', mapM (fun f => from_f f cA cP) [cf 1; cf 2] = Ok insts /\
  cm_prove (Rg 9 insts cP) [cM] 5%Z = Ok (gs, x, proof, ts') /\ cm_verify proof [cM] 5%Z = Ok (x, ts') /\
  Forall2 (fun g c => commit cA g = Ok c) gs (cx_cm x).
Proof.
  destruct (C48_cm_complete (p := 257) _ _ _ _ _ 5%Z ex_cm_setting) as (insts & s & s' & r0 & r1 & gs & x & proof & ts' & C1 & _ & _ & _ & _ & _ & C2 & C3 & _ & C4 & _).
  exists insts, gs, x, proof, ts'. auto.
Qed.

(** * C66: an accepted proof whose reduced instance carries a wrong commitment for the first instance *)
Theorem C66_instance_commitment_refuted : exists (fs : list (list q4)) (A : ajtai q4) P nv (M : list (smat q4)) (ts ts' : Z) insts gs x proof s s' d,
  mapM (fun f => from_f f A P) fs = Ok insts /\ Forall2 (folded (2 ^ nv) s s') insts gs /\
  cm_prove_with (shift d) (Rg nv insts P) M ts = Ok (gs, x, proof, ts') /\ cm_verify proof M ts = Ok (x, ts') /\
  exists g c, nth_error gs 0 = Some g /\ nth_error (cx_cm x) 0 = Some c /\ commit A g <> Ok c.
Proof.
  destruct (C66_commitments_shifted (p := 257) _ _ _ _ _ 5%Z [1] ex_cm_setting) as (insts & s & s' & r0 & r1 & gs & x & proof & ts' & c0 & c1 & rest & C1 & C2 & C3 & C4 & C5 & C6 & C7 & C8).
  { cbn; lia. } { reflexivity. }
  exists [cf 1; cf 2], cA, cP, 9%nat, [cM], 5%Z, ts', insts, gs, x, proof, s, s', [1].
  split; [auto|]. split; [auto|]. split; [auto|]. split; [auto|].
  destruct gs as [|g gs]; [inversion C7|]. inversion C7 as [|g' cc gs' rest' D1 D2 Eg Ec]. subst g' gs' cc rest'. exists g, (vadd c0 [1]). rewrite C8. split; [reflexivity|]. split; [reflexivity|].
  intros E. assert (Ok c0 = Ok (vadd c0 [1])) as E' by (etransitivity; [symmetry; exact D1|exact E]). clear E. rename E' into E. apply ok_inj in E.
  assert (length c0 = 1%nat) as L.
  { revert D1. unfold commit. destruct (negb _); [discriminate|]. unfold checked_mul_vec. destruct (_ =? _)%nat; cbn [of_option]; [|discriminate].
    intros D. apply ok_inj in D. subst c0. reflexivity. }
  destruct c0 as [|a [|? ?]]; try discriminate L. unfold vadd in E. cbn [length seq map nth] in E. injection E as E.
  destruct a as [a0 a1 a2 a3]. revert E.
  assert (forall a : fq, a <> a + 1) as N.
  { intros b Eb. apply (f_equal fz) in Eb. change (fz (b + 1)%rs) with ((fz b + 1) mod 257)%Z in Eb. pose proof (fz_bound b). unfold q in *.
    destruct (Z.eq_dec (fz b) 256) as [E|E]; [rewrite E in Eb; discriminate Eb|]. rewrite Z.mod_small in Eb; lia. }
  intros E. injection E as E0 _. exact (N _ E0).
Qed.
