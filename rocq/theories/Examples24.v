(** C111 on F257[X]/(X^4+1) with the toy transcript: two instances, two commitment rows of which the second is zero. *)
From Coq Require Import String List Arith Lia ZArith Bool.
From Verif Require Import Prelude Alg MLE MLE_Proofs Transcript Sumcheck Sumcheck_Proofs Arith Arith_Proofs Linearization_Proofs Folding_Sound
  Rings Rings_Proofs PlusRing PlusUtils_Proofs Toy Inst257 SetCheck SetCheck_Proofs SetCheck_Sound RangeCheck RangeCheck_Proofs Cm Cm_Proofs Plus Plus_Proofs
  Properties5 Examples5 Properties6 Properties27.
Import ListNotations.
Local Open Scope rs_scope.

Lemma Forall2_len {A B} (P : A -> B -> Prop) a b : Forall2 P a b -> length a = length b.
Proof. intros H. induction H; cbn [length]; congruence. Qed.
Definition hP : rparams := RParams 2 2 8.
Definition hn : nat := 1024.
Definition hf (e : nat) : list q4 := map (fun i => Q4 (zz (i + e)) (zz (i * e)) (zz (i + 3)) (zz (2 * i))) (seq 0 hn).
Definition hA : ajtai q4 := Ajtai hn [map (fun i => Q4 (zq (Z.of_nat i * 7 + 2)) (zq (Z.of_nat i * Z.of_nat i)) 1 (zq (Z.of_nat i))) (seq 0 hn); repeat 0 hn].
Lemma ex_hide_setting : cm_setting (p := 257) [hf 1; hf 2] hA hP 10 [].
Proof.
  constructor.
  - lia.
  - intros i Hi; apply char257; lia.
  - cbn; lia.
  - reflexivity.
  - unfold wf_ajtai, hA. cbn [a_ncols a_rows]. apply Forall_cons; [rewrite map_length, seq_length; reflexivity|]. apply Forall_cons; [|apply Forall_nil]. rewrite repeat_length. reflexivity.
  - reflexivity.
  - reflexivity.
  - cbn; lia.
  - cbn; lia.
  - cbn; lia.
  - apply Nat.ltb_lt. vm_compute. reflexivity.
  - apply Nat.leb_le. vm_compute. reflexivity.
  - vm_compute. discriminate.
  - apply Forall_cons; [|apply Forall_cons; [|apply Forall_nil]]; (split; [vm_compute; reflexivity|apply in_rangeb_ok; vm_compute; reflexivity]).
  - apply Forall_nil.
Qed.
(** The folded instance is true, the first of the two instances folded has no witness. *)
Theorem C111_parts_refuted : exists (A : ajtai q4) (ts ts' : Z) x (proof : cm_proof fq q4) gs, wf_ajtai A /\
  cm_verify proof [] ts = Ok (x, ts') /\ length (cx_cm x) = 2%nat /\ length gs = 2%nat /\
  (exists ro0 ro1, cx_vo x = map (evaluations [] ro0 ro1) gs) /\
  commit A (vsum (2 ^ 10) gs) = Ok (fold_left (fun acc c => zipl radd acc c) (cx_cm x) (repeat 0 (kappa A))) /\
  exists c, nth_error (cx_cm x) 0 = Some c /\ forall g, commit A g <> Ok c.
Proof.
  destruct (C111_sum_hides (p := 257) _ _ _ _ _ 5%Z [0; 1] ex_hide_setting) as (insts & s & s' & r0 & r1 & gs & x & proof & ts' & c0 & c1 & rest & C1 & C2 & C4 & C5 & CS & C6 & C7 & C8).
  { cbn; lia. } { reflexivity. }
  exists hA, 5%Z, ts', x, proof, gs. split; [apply ex_hide_setting|]. split; [exact C4|].
  assert (length gs = 2%nat) as Lg.
  { pose proof (Forall2_len _ _ _ C5) as L. apply (f_equal (@length _)) in C2. rewrite map_length in C2. rewrite <- L, C2. reflexivity. }
  pose proof (Forall2_len _ _ _ C7) as Lc. cbn [length] in Lc.
  split; [rewrite C8; cbn [length]; lia|]. split; [exact Lg|]. split; [exists r0, r1; exact C6|]. split; [exact CS|].
  exists (vadd c0 [0; 1]). rewrite C8. split; [reflexivity|].
  destruct gs as [|g0 gs]; [discriminate Lg|]. inversion C7 as [|? ? ? ? D0 _]; subst.
  intros g E. refine (C111_no_opening (K := fq) (PO := popsq) (p := 257) hA g0 c0 [0; 1] 1 _ _ _ _ _ g E).
  - apply ex_hide_setting.
  - exact D0.
  - cbn. lia.
  - unfold hA. cbn [a_rows nth]. apply Forall_forall. intros a Ha. apply repeat_spec in Ha. exact Ha.
  - cbn [nth]. discriminate.
Qed.
