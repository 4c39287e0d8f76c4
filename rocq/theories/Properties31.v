(** C115: serialisation of proofs. *)
From Coq Require Import String List Arith Lia ZArith Bool Ring Znumtheory.
From Verif Require Import Prelude Alg Poly MLE MLE_Proofs Transcript Interp Sumcheck Sumcheck_Proofs
  Arith Arith_Proofs Balanced Rings Rings_Proofs Linearization Linearization_Proofs Relations LinRel
  Decomposition Decomposition_Proofs Folding Folding_Comb Folding_Proofs Folding_Complete Folding_Sound NIFS NIFS_Proofs Extract
  Challenge Challenge_Proofs PolyInst Primes FieldExt CycInst RealRings ShortDual Sampling PShipped ProofSize Properties12 Properties20 Serial Serial_Proofs.
Import ListNotations.
Local Open Scope rs_scope.

(** All vectors of a proof have lengths that fit 64 bits. *)
Definition lens_fit {A} (l : list A) : Prop := (Z.of_nat (length l) < 2 ^ 64)%Z.
Definition proof_vecs {R} (pf : lf_proof R) : list (list (list R)) :=
  [lp_sc (lf_lin pf); dp_us (lf_dec_l pf); dp_vs (lf_dec_l pf); dp_xs (lf_dec_l pf); dp_ys (lf_dec_l pf);
   dp_us (lf_dec_r pf); dp_vs (lf_dec_r pf); dp_xs (lf_dec_r pf); dp_ys (lf_dec_r pf); fp_sc (lf_fold pf); fp_theta (lf_fold pf); fp_eta (lf_fold pf)].
Definition proof_fits {R} (pf : lf_proof R) : Prop :=
  lens_fit (lp_v (lf_lin pf)) /\ lens_fit (lp_u (lf_lin pf)) /\ forall l, In l (proof_vecs pf) -> lens_fit l /\ forall v, In v l -> lens_fit v.
Lemma proof_fits_lf {R} (pf : lf_proof R) : proof_fits pf <-> lf_fits (fun _ => True) pf.
Proof.
  assert (forall (l : list R), lens_fit l <-> fits (fun _ => True) l) as F1 by (intros l; split; [split; [assumption|apply Forall_triv]|intros [H _]; exact H]).
  assert (forall (l : list (list R)), (lens_fit l /\ forall v, In v l -> lens_fit v) <-> fits (fits (fun _ => True)) l) as F2.
  { intros l. split; intros [H1 H2]; (split; [exact H1|]); [apply Forall_forall; intros v Hv; apply F1; auto|intros v Hv; apply F1; apply (proj1 (Forall_forall _ _) H2); exact Hv]. }
  unfold lf_fits, lin_fits, dec_fits, fold_fits. rewrite <- !F1, <- !F2. unfold proof_fits, proof_vecs. cbn [In]. split.
  - intros (H1 & H2 & H3). repeat match goal with |- _ /\ _ => split end; auto; try (apply H3; tauto).
  - intros H. split; [tauto|]. split; [tauto|]. intros l Hl. repeat (destruct Hl as [<-|Hl]; [tauto|]). destruct Hl.
Qed.

Section P.
Context {p : Z} {K : Type} (y : cyc p K) (decode : list Z -> result (list Z)) (need : nat) (RR : real_ring p K y decode need).
Notation R := (pol K (cy_k y)).
Let Hp : prime p := proj1 (real_facts y decode need RR).
Let XL : ext_laws y := proj1 (proj2 (proj2 (real_facts y decode need RR))).
Lemma ser_laws : lawful (lf_fits (fun _ => True)) (c_lf (c_ring y)).
Proof. apply lf_lawful. apply ring_lawful; [destruct Hp; lia|exact XL|exact (real_of_co y decode need RR)]. Qed.
(** * C115
    A proof is read back from its bytes, whatever follows them; the bytes are bytes. *)
Theorem C115_roundtrip (pf : lf_proof R) rest : proof_fits pf ->
  dec (c_lf (c_ring y)) (enc (c_lf (c_ring y)) pf ++ rest) = Some (pf, rest) /\ forall b, In b (enc (c_lf (c_ring y)) pf) -> (0 <= b < 256)%Z.
Proof.
  intros H. apply proof_fits_lf in H. split; [apply (lw_back _ _ ser_laws); exact H|]. apply Forall_forall. apply (lw_bytes _ _ ser_laws). exact H.
Qed.
(** Only the bytes of a proof are read as this proof: encodings are unique. *)
Theorem C115_canonical (l : list Z) (pf : lf_proof R) rest : (forall b, In b l -> (0 <= b < 256)%Z) ->
  dec (c_lf (c_ring y)) l = Some (pf, rest) -> l = enc (c_lf (c_ring y)) pf ++ rest /\ proof_fits pf.
Proof. intros Hl H. apply (lw_only _ _ ser_laws) in H as [W E]; [|apply Forall_forall; exact Hl]. split; [exact E|apply proof_fits_lf; exact W]. Qed.
(** Different proofs have different bytes, and none are the beginning of another's. *)
Theorem C115_injective (pf pf' : lf_proof R) r r' : proof_fits pf -> proof_fits pf' ->
  enc (c_lf (c_ring y)) pf ++ r = enc (c_lf (c_ring y)) pf' ++ r' -> pf = pf' /\ r = r'.
Proof. intros H H' E. pose proof (proj1 (C115_roundtrip pf r H)) as B. rewrite E, (proj1 (C115_roundtrip pf' r' H')) in B. injection B as <- <-. auto. Qed.
(** The verifier gets what the prover sent. *)
Theorem C115_verify {T} {TO : TransOps T R K} {HO : ShortOps T (pol (fp p) (cy_d y))} P acc cm_i pf (ts : T) cs : proof_fits pf ->
  (match dec (c_lf (c_ring y)) (enc (c_lf (c_ring y)) pf) with Some (q, []) => nifs_verify (SO := cyc_ops y) P acc cm_i q ts cs | _ => Err InvalidParameters end)
  = nifs_verify (SO := cyc_ops y) P acc cm_i pf ts cs.
Proof. intros H. rewrite <- (app_nil_r (enc _ pf)), (proj1 (C115_roundtrip pf [] H)). reflexivity. Qed.
(** Size in bytes: the ring elements, and eight bytes for every vector. *)
Theorem C115_size (pf : lf_proof R) :
  length (enc (c_lf (c_ring y)) pf) = (cy_d y * fp_bytes p * lf_size pf + 8 * (14 + list_sum (map (@length (list R)) (proof_vecs pf))))%nat.
Proof.
  pose proof (ring_bytes y XL) as N. change (cy_k y * cy_e y)%nat with (cy_d y) in N.
  unfold c_lf, c_lin, c_dec, c_fold, c_commitment, c_sumcheck. cbn [enc c_map c_pair fst snd].
  change (le_bytes 8 ?z) with (enc c_u64 z).
  rewrite !app_length, !(vec_size (c_ring y) _ N), !(vecs_size (c_ring y) _ N). unfold lf_size, dec_size, proof_vecs. cbn [map list_sum fold_right]. lia.
Qed.
End P.

Section H.
Context {p : Z} {K : Type} (y : cyc p K) (decode : list Z -> result (list Z)) (need : nat) (RR : real_ring p K y decode need).
Notation R := (pol K (cy_k y)).
Notation C := (pol (fp p) (cy_d y)).
Local Instance so100 : SOps (fp p) K C R := cyc_ops y.
Local Instance SL100 : SLaws (fp p) K C R p := real_laws y decode need RR.
Context {T : Type} {TO : TransOps T R K} {HO : ShortOps T C}.
(** The proof of the honest prover can be written and read if the parameters fit 64 bits; its size in bytes is a function of the parameters and of the
    shape of the CCS. *)
Theorem C115_honest P (A : ajtai R) (cs : ccs R) acc (w_acc : witness C R) cm_i w_i (ts : T) lc w pf ts' :
  sizes_ok p P cs -> lcccs_rel P A cs acc w_acc -> cccs_rel P A cs cm_i w_i ->
  (forall n, In n [c_s cs; c_d cs + 2; cy_e y; c_t cs; 2 * dp_K P; c_l cs + 1; kappa A; 2 * dp_b P + 1]%nat -> (Z.of_nat n < 2 ^ 64)%Z) ->
  nifs_prove P acc w_acc cm_i w_i ts cs A = Ok (lc, w, pf, ts') ->
  proof_fits pf /\
  length (enc (c_lf (c_ring y)) pf) =
    (cy_d y * fp_bytes p * (c_s cs * (c_d cs + 2 * dp_b P + 3) + 2 * dp_K P * (c_l cs + 1 + kappa A) + (4 * dp_K P + 1) * (cy_e y + c_t cs)) +
     8 * (14 + 2 * c_s cs + 12 * dp_K P))%nat.
Proof.
  intros HS Ra Ri HB H. pose proof (nifs_prove_sized P acc w_acc cm_i w_i ts cs A lc w pf ts' HS Ra Ri H) as N.
  assert (length (c_M cs) = c_t cs) as Ht by apply HS. split.
  - destruct N as [[L1 L2 L3] [X1 X2 X3 X4] [Y1 Y2 Y3 Y4] [F1 F2 F3]]. rewrite Ht in *. change tau with (cy_e y) in *.
    assert (forall (l : list (list R)) n m, all_len n m l -> (Z.of_nat n < 2 ^ 64)%Z -> (Z.of_nat m < 2 ^ 64)%Z -> lens_fit l /\ forall v, In v l -> lens_fit v) as AL.
    { intros l n m [E F] Hn Hm. split; [unfold lens_fit; rewrite E; exact Hn|]. intros v Hv. unfold lens_fit. rewrite (proj1 (Forall_forall _ _) F v Hv). exact Hm. }
    assert (Z.of_nat (dp_K P) < 2 ^ 64)%Z as HK by (pose proof (HB (2 * dp_K P)%nat ltac:(cbn [In]; tauto)); lia).
    split; [unfold lens_fit; rewrite L2; apply HB; cbn [In]; tauto|]. split; [unfold lens_fit; rewrite L3; apply HB; cbn [In]; tauto|].
    intros l Hl. unfold proof_vecs in Hl. cbn [In] in Hl. repeat (destruct Hl as [<-|Hl]; [eapply AL; [eassumption|first [exact HK|apply HB; cbn [In]; tauto]..]|]). destruct Hl.
  - rewrite (C115_size y decode need RR). rewrite (sized_size P A cs pf Ht N). change tau with (cy_e y). f_equal. f_equal.
    destruct N as [[[L1 _] L2 L3] [[X1 _] [X2 _] [X3 _] [X4 _]] [[Y1 _] [Y2 _] [Y3 _] [Y4 _]] [[F1 _] [F2 _] [F3 _]]].
    unfold proof_vecs. cbn [map list_sum fold_right]. rewrite L1, X1, X2, X3, X4, Y1, Y2, Y3, Y4, F1, F2, F3. lia.
Qed.
End H.
(** Bytes of a ring element. *)
Theorem C115_element {p K} (y : cyc p K) decode need (x : pol K (cy_k y)) : real_ring p K y decode need ->
  length (enc (c_ring y) x) = (cy_d y * fp_bytes p)%nat /\
  In (p, length (enc (c_ring y) x)) [(gold_p, 192%nat); (bb_p, 288%nat); (frog_p, 128%nat); (stark_p, 512%nat)].
Proof.
  intros RR. pose proof (ring_bytes y (proj1 (proj2 (proj2 (real_facts y decode need RR)))) x) as E. change (cy_k y * cy_e y)%nat with (cy_d y) in E.
  split; [exact E|]. rewrite E. destruct RR; cbn [In].
  - left. reflexivity.
  - right; left. reflexivity.
  - right; right; left. reflexivity.
  - right; right; right; left. reflexivity.
Qed.
