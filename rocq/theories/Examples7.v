(** Concrete cases and refutations for Properties7.v, on F257[X]/(X^4+1) and F_p[X]/(X^16+1) with toy transcripts. *)
From Coq Require Import String List Arith Lia ZArith Bool Znumtheory.
From Verif Require Import Prelude Alg MLE MLE_Proofs Transcript Sumcheck Sumcheck_Proofs Arith Arith_Proofs Linearization_Proofs Folding_Sound
  Rings Rings_Proofs PlusRing PlusUtils_Proofs Toy Inst257 SetCheck SetCheck_Proofs SetCheck_Sound RangeCheck RangeCheck_Proofs Cm Cm_Proofs
  Plus Plus_Proofs Plus_Norm Plus_Forge PolyInst Examples4 Properties5 Examples5 Properties6 Examples6 Properties7.
Import ListNotations.
Local Open Scope rs_scope.

(** Instances for any ring: the system z_i * z_i = z_i with a witness alternating between 1 and 0. *)
Section Bits.
Context {K R : Type} {PO : POps K R} {p : Z} {PL : PLaws K R p}.
Add Ring Rring57 : (@rlaws_th R _ (pl_R (p := p))).
Definition diagM (n : nat) : smat R := SMat n n (map (fun i => [(1, i)]) (seq 0 n)).
Definition bitf (n : nat) : list R := map (fun i => if Nat.even i then 1 else 0) (seq 0 n).
Lemma bitf_length n : length (bitf n) = n.
Proof. unfold bitf. rewrite map_length, seq_length. auto. Qed.
Lemma diag_mz n (z : list R) i : (i < n)%nat -> (n <= length z)%nat -> mz (diagM n) z i = nth i z 0.
Proof.
  intros Hi Hz. unfold mz, mat_entry, diagM. cbn [m_coeffs]. rewrite nth_seq_map by auto. rewrite (sumn_single _ i).
  - cbn [filter snd]. rewrite Nat.eqb_refl. cbn [map lsum fst]. rewrite (lsum_cons (R := R)). cbn [lsum]. change (lsum []) with (0 : R). ring.
  - lia.
  - intros c Hc Hne. cbn [filter snd]. destruct (Nat.eqb_spec i c); [congruence|]. cbn [map]. change (lsum []) with (0 : R). ring.
Qed.
Lemma diag_wf n : wf_mat n (diagM n).
Proof.
  unfold wf_mat, diagM. cbn [m_ncols m_nrows m_coeffs]. rewrite map_length, seq_length. split; [auto|]. split; [auto|].
  apply Forall_map, Forall_forall. intros i Hi. apply in_seq in Hi. apply Forall_cons; [cbn [snd]; lia|apply Forall_nil].
Qed.
Lemma diag_rows n : length (m_coeffs (diagM n)) = n.
Proof. unfold diagM. cbn [m_coeffs]. rewrite map_length, seq_length. auto. Qed.
Lemma diag_base n : base_mat (diagM n).
Proof.
  apply Forall_map, Forall_forall. intros i _. apply Forall_cons; [|apply Forall_nil]. exists 1. cbn [fst]. symmetry. apply (hom_1 _ emb_hom).
Qed.
Lemma bitf_within n c : (2 <= c)%Z -> within c (bitf n).
Proof.
  intros Hc. apply Forall_map, Forall_forall. intros i _. apply Forall_forall. intros a Ha.
  assert (a = 0 \/ a = 1) as E.
  { destruct (Nat.even i).
    - rewrite pcoeffs_one in Ha. unfold unit_vec in Ha. apply in_map_iff in Ha as (j & <- & _). destruct (j =? 0)%nat; auto.
    - apply (In_nth _ _ 0) in Ha as (j & _ & <-). left. apply (nth_pcoeffs_0 (p := p)). }
  destruct E as [-> | ->]; rewrite ?(psigned_zero (p := p)), ?(psigned_one (p := p)); cbn; lia.
Qed.
Definition bit_sys (n : nat) : r1cs R := R1cs 1 (diagM n) (diagM n) (diagM n).
Definition bit_com (n : nat) (cm : list R) : com_r1cs R := ComR1cs (bit_sys n) (bitf n) cm 1 (bitf n).
Lemma bit_holds n : r1cs_holds (bit_sys n) (bitf n).
Proof.
  intros i. unfold bit_sys. cbn [r_A r_B r_C]. destruct (Nat.lt_ge_cases i n) as [H|H].
  - rewrite !diag_mz by (rewrite ?bitf_length; auto). unfold bitf. rewrite nth_seq_map by auto. destruct (Nat.even i); ring.
  - rewrite !mz_out by (rewrite diag_rows; auto). ring.
Qed.
Lemma bit_wf nv : r1cs_wf (2 ^ nv) nv (bit_sys (2 ^ nv)).
Proof.
  assert (wf_mat (2 ^ nv) (diagM (2 ^ nv)) /\ (length (m_coeffs (diagM (2 ^ nv))) <= 2 ^ nv)%nat) as H by (split; [apply diag_wf|rewrite diag_rows; auto]).
  unfold r1cs_wf, r1cs_mats, bit_sys. cbn [r_A r_B r_C]. repeat (apply Forall_cons; [exact H|]). apply Forall_nil.
Qed.
Lemma bit_comp_ok nv cm : comp_ok nv (bit_com (2 ^ nv) cm).
Proof. split; [apply bitf_length|]. split; [apply bit_wf|apply bit_holds]. Qed.
Definition bitA (n : nat) : ajtai R := Ajtai n [map (fun i => rofn (3 * i + 2)) (seq 0 n)].
Lemma bitA_wf n : wf_ajtai (bitA n).
Proof. unfold wf_ajtai, bitA. cbn [a_ncols a_rows]. apply Forall_cons; [|apply Forall_nil]. rewrite map_length, seq_length. auto. Qed.
(** An accumulated instance with that witness and its true commitment and evaluations. *)
Definition bit_lin (nv : nat) (r0 r1 : list K) : linb R :=
  LinB (bitf (2 ^ nv)) (map (fun row => lsum (zipw rmul row (bitf (2 ^ nv)))) (a_rows (bitA (2 ^ nv))))
       (combine (map emb r0) (map emb r1)) (evaluations [diagM (2 ^ nv)] r0 r1 (bitf (2 ^ nv))).
Lemma bit_lin_true nv B r0 r1 : (2 <= B)%Z -> length r0 = nv -> length r1 = nv -> true_linb (bitA (2 ^ nv)) [diagM (2 ^ nv)] nv B (bit_lin nv r0 r1).
Proof.
  intros HB H0 H1. unfold true_linb, bit_lin. cbn [lb_f lb_cm lb_r lb_v]. split; [apply bitf_length|]. split; [apply bitf_within; auto|].
  split; [apply commit_ok; rewrite bitf_length; reflexivity|]. exists r0, r1. auto.
Qed.
Lemma bit_M nv : Forall (fun Mi : smat R => wf_mat (2 ^ nv) Mi /\ (length (m_coeffs Mi) <= 2 ^ nv)%nat /\ base_mat Mi) [diagM (2 ^ nv)].
Proof. apply Forall_cons; [|apply Forall_nil]. split; [apply diag_wf|]. split; [rewrite diag_rows; auto|apply diag_base]. Qed.
End Bits.

(** * F_p[X]/(X^16+1), p = 2013265921, with the base, digits and challenge norm of the code's test [test_prove] except
      that five digits instead of two are used, so that the digits of the range check hold base-B digits. *)
Definition bp : Z := 2013265921.
Lemma bp_prime : prime bp.
Proof. apply (prime_by_trial bp (Z.to_nat 44900)); [reflexivity|rewrite Z2Nat.id by lia; reflexivity|vm_cast_no_check (eq_refl true)]. Qed.
Definition F16 := fp bp.
Definition R16 := pol (fp bp) 16.
Definition P16 : POps F16 R16 := poly_ops bp 16.
#[local] Existing Instance P16.
Lemma L16 : @PLaws F16 R16 P16 bp.
Proof. apply poly_laws; [apply bp_prime|reflexivity|lia|reflexivity]. Qed.
#[local] Existing Instance L16.
#[local] Instance toy16 : TransOps Z R16 F16 :=
  {| absorb := fun s x => tmix s (fold_left (fun a c => (3 * a + fpz c)%Z) (pl_l x) 1%Z);
     get_challenge := fun s => (zp bp (s * s + 7 * s), tmix s 1);
     squeeze_bytes := fun s n => (tbytes s n, tmix s (Z.of_nat n)) |}.
Lemma toy16_bytes : @good_bytes F16 R16 Z toy16.
Proof. exact toy_good_bytes. Qed.
Definition B16 : Z := estimate_bound (16 * 128) 3 16 5.
Definition pp16 : plus_params := PlusParams 1 (RParams 8 5 11) B16.
Example ex_B16 : B16 = 6232%Z.
Proof. vm_compute. reflexivity. Qed.
Lemma ex_setting16 : cm_setting (p := bp) [bitf (2 ^ 14)] (bitA (2 ^ 14) : ajtai R16) (pl_dec pp16) 14 [diagM (2 ^ 14)].
Proof.
  constructor.
  - lia.
  - apply (poly_char bp 16); first [apply bp_prime | lia | reflexivity | (unfold bp; lia)].
  - cbn; lia.
  - reflexivity.
  - apply bitA_wf.
  - reflexivity.
  - reflexivity.
  - cbn; lia.
  - cbn; lia.
  - cbn; lia.
  - change (kappa _) with 1%nat. apply Nat.ltb_lt. vm_compute. reflexivity.
  - change (kappa _) with 1%nat. apply Nat.leb_le. vm_compute. reflexivity.
  - vm_compute. discriminate.
  - apply Forall_cons; [|apply Forall_nil]. split; [apply bitf_length|]. apply (bitf_within (p := bp)). vm_compute. discriminate.
  - apply (bit_M (p := bp)).
Qed.
(** Three steps, each folding two accumulated instances and one R1CS. *)
Example ex_C69_run : exists ps acc' ts',
  let acc := [bit_lin 14 (repeat (zp bp 5) 14) (repeat (zp bp 77) 14); bit_lin 14 (repeat (zp bp 6) 14) (repeat (zp bp 1) 14)] in
  let steps := [[bit_com (2 ^ 14) []]; [bit_com (2 ^ 14) []]; [bit_com (2 ^ 14) []]] in
  plus_chain acc (bitA (2 ^ 14) : ajtai R16) [diagM (2 ^ 14)] pp16 steps 5%Z = Ok (ps, acc', ts') /\
  verify_chain [diagM (2 ^ 14)] pp16 ps 5%Z = Ok (true, ts') /\ length ps = 3%nat.
Proof.
  assert (2 <= B16)%Z as HB by (vm_compute; discriminate).
  destruct (C69_run (p := bp) 3 (bitA (2 ^ 14) : ajtai R16) [diagM (2 ^ 14)] pp16 14 [bitf (2 ^ 14)]
    [[bit_com (2 ^ 14) []]; [bit_com (2 ^ 14) []]; [bit_com (2 ^ 14) []]] 5%Z
    [bit_lin 14 (repeat (zp bp 5) 14) (repeat (zp bp 77) 14); bit_lin 14 (repeat (zp bp 6) 14) (repeat (zp bp 1) 14)]) as (ps & acc' & ts' & H1 & H2 & H3 & _).
  - cbn; lia.
  - vm_compute. discriminate.
  - lia.
  - vm_compute. reflexivity.
  - vm_compute. discriminate.
  - vm_compute. discriminate.
  - apply poly_isometry; first [apply bp_prime | lia | reflexivity | (unfold bp; lia)].
  - apply toy16_bytes.
  - apply ex_setting16.
  - reflexivity.
  - apply Forall_cons; [|apply Forall_cons; [|apply Forall_nil]]; apply (bit_lin_true (p := bp)); auto.
  - repeat (apply Forall_cons; [split; [apply Forall_cons; [split; [apply (bit_comp_ok (p := bp))|apply (bitf_within (p := bp)); auto]|apply Forall_nil]|cbn; lia]|]). apply Forall_nil.
  - cbn; lia.
  - cbn; lia.
  - exists ps, acc', ts'. cbv zeta. auto.
Qed.
(** The parameters of the code's tests: in [test_prove] (two digits in base 8) base-B digits overflow the range check;
    in [test_prove_multi] the base is half of [estimate_bound] and the worst case no longer fits in two digits. *)
Example ex_test_prove : let B := (estimate_bound (16 * 128) 3 16 2 + 1)%Z in B = 6186%Z /\ (8 ^ 2 < B)%Z.
Proof. vm_compute. auto. Qed.
Example ex_test_prove_multi : let B := (estimate_bound (16 * 128) 3 16 4 / 2)%Z in B = 3108%Z /\ (B <= 8 ^ 4)%Z /\
  (B ^ 2 < 2 * @fold_bound F16 R16 P16 (16 * 128) (B / 2) 3 4)%Z.
Proof. vm_compute. split; [reflexivity|]. split; [discriminate|reflexivity]. Qed.

(** * C51: two base-16 digits hold every element of F257. *)
Definition ppq : plus_params := PlusParams 1 (RParams 2 4 8) 16.
Lemma ex_settingq : cm_setting (p := 257) [bitf (2 ^ 10)] (bitA (2 ^ 10) : ajtai q4) (pl_dec ppq) 10 [diagM (2 ^ 10)].
Proof.
  constructor.
  - lia.
  - intros i Hi; apply char257; lia.
  - cbn; lia.
  - reflexivity.
  - apply bitA_wf.
  - reflexivity.
  - reflexivity.
  - cbn; lia.
  - cbn; lia.
  - cbn; lia.
  - change (kappa _) with 1%nat. apply Nat.ltb_lt. vm_compute. reflexivity.
  - change (kappa _) with 1%nat. apply Nat.leb_le. vm_compute. reflexivity.
  - vm_compute. discriminate.
  - apply Forall_cons; [|apply Forall_nil]. split; [apply bitf_length|]. apply (bitf_within (p := 257)). vm_compute. discriminate.
  - apply (bit_M (p := 257)).
Qed.
Lemma ex_C51_large_base : forall ts : Z, exists ps acc' ts',
  plus_chain [bit_lin 10 (repeat (zq 5) 10) (repeat (zq 7) 10)] (bitA (2 ^ 10) : ajtai q4) [diagM (2 ^ 10)] ppq [[bit_com (2 ^ 10) []]; []; [bit_com (2 ^ 10) []]] ts = Ok (ps, acc', ts') /\
  verify_chain [diagM (2 ^ 10)] ppq ps ts = Ok (true, ts') /\ length ps = 3%nat /\
  Forall (true_linb (bitA (2 ^ 10)) [diagM (2 ^ 10)] 10 16) acc'.
Proof.
  intros ts. apply (C51_run_large_base (p := 257) (bitA (2 ^ 10)) [diagM (2 ^ 10)] ppq 10 [bitf (2 ^ 10)] [[bit_com (2 ^ 10) []]; []; [bit_com (2 ^ 10) []]] ts
    [bit_lin 10 (repeat (zq 5) 10) (repeat (zq 7) 10)]).
  - exact ex_settingq.
  - reflexivity.
  - vm_compute. discriminate.
  - reflexivity.
  - vm_compute. discriminate.
  - vm_compute. discriminate.
  - apply Forall_cons; [|apply Forall_nil]. apply (bit_lin_true (p := 257)); auto. vm_compute. discriminate.
  - assert (small_comp (pl_dec ppq) 10 (bit_com (2 ^ 10) [] : com_r1cs q4)) as H.
    { split; [apply (bit_comp_ok (p := 257))|]. apply (bitf_within (p := 257)). vm_compute. discriminate. }
    apply Forall_cons; [apply Forall_cons; [exact H|apply Forall_nil]|]. apply Forall_cons; [apply Forall_nil|].
    apply Forall_cons; [apply Forall_cons; [exact H|apply Forall_nil]|apply Forall_nil].
  - cbn; lia.
Qed.
(** With too small a base the honest prover's proof for a true accumulated instance is rejected. *)
Definition pp4 : plus_params := PlusParams 1 cP 4.
Definition acc4 : linb q4 := LinB (cf 1) (map (fun row => lsum (zipw rmul row (cf 1))) (a_rows cA))
  (combine (map emb (repeat (zq 5) 9)) (map emb (repeat (zq 7) 9))) (evaluations [cM] (repeat (zq 5) 9) (repeat (zq 7) 9) (cf 1)).
Lemma acc4_true : true_linb cA [cM] 9 4 acc4.
Proof.
  unfold true_linb, acc4. cbn [lb_f lb_cm lb_r lb_v].
  split; [vm_compute; reflexivity|]. split; [apply in_rangeb_ok; vm_compute; reflexivity|]. split; [apply commit_ok; vm_compute; reflexivity|].
  exists (repeat (zq 5) 9), (repeat (zq 7) 9). auto.
Qed.
Theorem C51_small_base_refuted : exists (acc : list (linb q4)) (A : ajtai q4) M pp nv comps (ts ts' : Z) proof acc',
  cm_setting (p := 257) (map lb_f acc ++ map cr_f comps) A (pl_dec pp) nv M /\ pl_kappa pp = kappa A /\ Forall (comp_ok nv) comps /\
  Forall (true_linb A M nv (pl_B pp)) acc /\ (2 <= pl_B pp)%Z /\ (pl_B pp < 257)%Z /\ (pl_B pp <= rp_b (pl_dec pp) ^ Z.of_nat (rp_k (pl_dec pp)))%Z /\
  plus_prove acc A M pp comps ts = Ok (proof, acc', ts') /\ plus_verify M pp proof ts = Panic.
Proof.
  assert (match plus_prove [LinB (cf 1) [] [] []] cA [cM] pp4 [] 5%Z with
          | Ok (pr, _, _) => match plus_verify [cM] pp4 pr 5%Z with Panic => true | _ => false end | _ => false end = true) as H by (vm_cast_no_check (eq_refl true)).
  rewrite (C68_claims_unused [LinB (cf 1) [] [] []] [acc4]) in H by reflexivity.
  destruct (plus_prove [acc4] cA [cM] pp4 [] 5%Z) as [[[pr a'] ts']|e|] eqn:E; try discriminate H.
  destruct (plus_verify [cM] pp4 pr 5%Z) as [?|?|] eqn:E2; try discriminate H.
  exists [acc4], cA, [cM], pp4, 9%nat, [], 5%Z, ts', pr, a'. split.
  - change (map lb_f [acc4] ++ map cr_f []) with [cf 1]. destruct ex_cm_setting as [H1 H2 H3 H4 H5 H6 H7 H8 H9 H10 H11 H12 H13 H14 H15].
    inversion H14 as [|? ? Hf _]. split; auto.
  - split; [reflexivity|]. split; [apply Forall_nil|]. split; [apply Forall_cons; [apply acc4_true|apply Forall_nil]|].
    split; [vm_compute; discriminate|]. split; [reflexivity|]. split; [vm_compute; discriminate|]. auto.
Qed.

(** * C49, C50, C57 *)
Example ex_C49 : exists lb0 lb1 d, decompose (bitf (2 ^ 3) : list q4) (combine (map emb [zq 1; zq 2; zq 3]) (map emb [zq 4; zq 5; zq 6])) [diagM (2 ^ 3)] (bitA (2 ^ 3)) 16 = Ok (lb0, lb1, d) /\
  within 16 (lb_f lb0) /\ within 16 (lb_f lb1).
Proof.
  destruct (C49_decompose (p := 257) (bitf (2 ^ 3)) [zq 1; zq 2; zq 3] [zq 4; zq 5; zq 6] [diagM (2 ^ 3)] (bitA (2 ^ 3)) 16 8 3) as (F0 & F1 & C0 & C1 & d & E & _ & _ & W0 & W1 & _);
    try reflexivity; try lia.
  - apply bitA_wf.
  - apply Forall_cons; [|apply Forall_nil]. split; [apply (diag_wf 8)|]. rewrite diag_rows. auto.
  - apply (bitf_within (p := 257)). lia.
  - eexists. eexists. eexists. split; [exact E|]. auto.
Qed.
Example ex_C50 : forall ts : Z, exists ro prf ts', length ro = 3%nat /\ lin_verify prf ts = Ok (true, ts') /\
  linearize (bit_com (2 ^ 3) [] : com_r1cs q4) ts = Ok (LinB (bitf (2 ^ 3)) [] (combine (map emb ro) (map emb ro)) (evaluations [diagM (2 ^ 3); diagM (2 ^ 3); diagM (2 ^ 3)] ro ro (bitf (2 ^ 3))), prf, ts').
Proof.
  intros ts. destruct (C50_linearize (p := 257) (bit_com (2 ^ 3) [] : com_r1cs q4) ts 8 3) as (ro & prf & ts' & L & E & V); try reflexivity; try lia.
  - intros i Hi; apply char257; lia.
  - apply (bit_wf 3).
  - apply (bit_holds (p := 257)).
  - exists ro, prf, ts'. auto.
Qed.
Example ex_C57 : r1cs_holds (r1cs_decomposed_square (bit_sys 4 : r1cs q4) 16 2 4) (pgadget 2 4 (bitf 4)).
Proof.
  apply (C57_decomposed_square (p := 257)); [lia| |apply (bitf_within (p := 257)); vm_compute; discriminate|apply (bit_holds (p := 257))].
  unfold r1cs_mats, bit_sys. cbn [r_A r_B r_C]. rewrite bitf_length. repeat (apply Forall_cons; [apply diag_wf|]). apply Forall_nil.
Qed.
(** A system that does not hold stays false. *)
Example ex_C57_false : ~ r1cs_holds (r1cs_decomposed_square (bit_sys 4 : r1cs q4) 16 2 4) (pgadget 2 4 [emb (zq 2); 1; 0; 1]).
Proof.
  rewrite (C57_decomposed_square (p := 257)); [|lia| |].
  - intros H. specialize (H 0%nat). unfold bit_sys in H. cbn [r_A r_B r_C] in H. rewrite !(diag_mz (p := 257)) in H by (cbn; lia). cbn [nth] in H.
    apply (f_equal (fun x => fz (q0 x))) in H. vm_compute in H. discriminate.
  - unfold r1cs_mats, bit_sys. cbn [r_A r_B r_C length]. repeat (apply Forall_cons; [apply diag_wf|]). apply Forall_nil.
  - apply in_rangeb_ok. vm_compute. reflexivity.
Qed.

(** * C52, C53, C54, C67, C68 *)
Lemma forge_ok (x : linb2x q4) coms r (ts : Z) : coms <> [] -> length r = 9%nat ->
  exists ts', plus_verify [cM] pp4 (forged_plus [cM] cP 9 1 x coms r []) ts = Ok (true, ts').
Proof.
  intros Hc Hr. apply (forged_plus_accepted (p := 257)); auto; try (cbn; lia).
  intros i Hi; apply char257; lia.
Qed.
Theorem C53_no_witness_refuted : exists (M : list (smat q4)) pp proof, forall ts : Z, exists ts', plus_verify M pp proof ts = Ok (true, ts').
Proof.
  exists [cM], pp4. destruct (C53_forgery (T := Z) (p := 257) [cM] pp4 cP 9 1 (LinB2X [1] [] []) [FComs [1] [] []] (repeat 0 9) []) as (pr & _ & _ & _ & _ & H); auto; try (cbn; lia); try discriminate.
  - intros i Hi; apply char257; lia.
  - exists pr. exact H.
Qed.
Theorem C52_commitments_refuted : exists (M : list (smat q4)) pp proof proof' (ts ts' : Z),
  plus_verify M pp proof ts = Ok (true, ts') /\ plus_verify M pp proof' ts = Ok (true, ts') /\
  pp_x proof = pp_x proof' /\ pp_l proof = pp_l proof' /\ pp_d proof = pp_d proof' /\ dc_coms (cp_dcom (pp_cm proof)) <> dc_coms (cp_dcom (pp_cm proof')).
Proof.
  destruct (forge_ok (LinB2X [1] [] []) [FComs [1] [] []] (repeat 0 9) 5%Z ltac:(discriminate) eq_refl) as [ts' H].
  pose proof (C52_commitments_unbound [cM] pp4 _ [FComs [0] [] []] _ _ H eq_refl) as H'.
  eexists [cM], pp4, _, _, 5%Z, ts'. split; [exact H|]. split; [exact H'|]. split; [reflexivity|]. split; [reflexivity|]. split; [reflexivity|].
  cbn [with_coms forged_plus forged_cm pp_cm cp_dcom dc_coms]. intros E. injection E as E. discriminate E.
Qed.
(** Two accepted proofs that differ in the stored evaluation point only. *)
Theorem C54_point_refuted : exists (M : list (smat q4)) (pr pr' : cm_proof fq q4) (ts : Z),
  so_sc (dc_out (cp_dcom pr)) = so_sc (dc_out (cp_dcom pr')) /\ cp_sc pr = cp_sc pr' /\ cp_evals pr = cp_evals pr' /\
  so_r (dc_out (cp_dcom pr)) <> so_r (dc_out (cp_dcom pr')) /\
  (exists x ts', cm_verify pr M ts = Ok (x, ts')) /\ (exists x ts', cm_verify pr' M ts = Ok (x, ts')).
Proof.
  assert (forall r : list fq, length r = 9%nat -> exists x ts', cm_verify (forged_cm cP 9 1 1 [FComs [] [] []] r) [cM] 5%Z = Ok (x, ts')) as H.
  { intros r Hr. apply (forged_cm_accepted (p := 257) [cM]); auto; try (cbn; lia); try discriminate.
    intros i Hi; apply char257; lia. }
  exists [cM], (forged_cm cP 9 1 1 [FComs [] [] []] (repeat 0 9)), (forged_cm cP 9 1 1 [FComs [] [] []] (repeat 1 9)), 5%Z.
  split; [reflexivity|]. split; [reflexivity|]. split; [reflexivity|]. split; [|split; apply H; reflexivity].
  cbn [forged_cm cp_dcom dc_out so_r repeat]. intros E. injection E as E _. discriminate E.
Qed.
Theorem C67_folded_instance_refuted : exists (M : list (smat q4)) pp proof proof' (ts ts' : Z),
  plus_verify M pp proof ts = Ok (true, ts') /\ plus_verify M pp proof' ts = Ok (true, ts') /\
  pp_cm proof = pp_cm proof' /\ pp_l proof = pp_l proof' /\ l2_cm (pp_x proof) <> l2_cm (pp_x proof').
Proof.
  destruct (forge_ok (LinB2X [1] [] []) [FComs [1] [] []] (repeat 0 9) 5%Z ltac:(discriminate) eq_refl) as [ts' H].
  destruct (C67_folded_instance_unbound (p := 257) [cM] pp4 _ (LinB2X [0] [] []) _ _ H) as [d H'].
  eexists [cM], pp4, _, _, 5%Z, ts'. split; [exact H|]. split; [exact H'|]. split; [reflexivity|]. split; [reflexivity|].
  cbn [forged_plus pp_x l2_cm]. intros E. injection E as E. discriminate E.
Qed.
(** A prover whose accumulated instance states a wrong commitment is accepted. *)
Theorem C68_claims_refuted : exists (acc : linb q4) (A : ajtai q4) M pp comps (ts ts' : Z) proof acc',
  commit A (lb_f acc) <> Ok (lb_cm acc) /\ plus_prove [acc] A M pp comps ts = Ok (proof, acc', ts') /\ plus_verify M pp proof ts = Ok (true, ts').
Proof.
  destruct (plus_complete (p := 257) [LinB (bitf (2 ^ 10)) [] [] []] (bitA (2 ^ 10)) [diagM (2 ^ 10)] ppq [bit_com (2 ^ 10) []] 10 5%Z) as (g & _ & P); auto.
  - destruct ex_settingq as [Q1 Q2 Q3 Q4' Q5 Q6 Q7 Q8 Q9 Q10 Q11 Q12 Q13 Q14 Q15]. split; auto; [cbn; lia|]. inversion Q14 as [|? ? Qf _].
    apply Forall_cons; [exact Qf|]. apply Forall_cons; [exact Qf|apply Forall_nil].
  - apply Forall_cons; [apply (bit_comp_ok (p := 257))|apply Forall_nil].
  - vm_compute. discriminate.
  - reflexivity.
  - destruct P as (pr & l0 & l1 & t' & P1 & P2 & _); [apply (within_all (p := 257)); vm_compute; discriminate|].
    exists (LinB (bitf (2 ^ 10)) [] [] []), (bitA (2 ^ 10)), [diagM (2 ^ 10)], ppq, [bit_com (2 ^ 10) []], 5%Z, t', pr, [l0; l1]. split; [|split; [exact P1|exact P2]].
    cbn [lb_f lb_cm]. rewrite commit_ok by (rewrite bitf_length; reflexivity). intros E. apply ok_inj in E. discriminate E.
Qed.
