(** Concrete cases and refutations for Properties5.v, on F257[X]/(X^4+1) with the toy transcript. *)
From Coq Require Import String List Arith Lia ZArith Bool.
From Verif Require Import Prelude Alg MLE MLE_Proofs Transcript Sumcheck Sumcheck_Proofs Arith Arith_Proofs Linearization_Proofs Folding_Sound
  Rings PlusRing PlusUtils_Proofs Toy Inst257 SetCheck SetCheck_Proofs SetCheck_Sound RangeCheck RangeCheck_Proofs Properties5.
Import ListNotations.
Local Open Scope rs_scope.

(** * C47: one witness of 64 elements with coefficients in [-2, 2], two digits, one commitment row *)
Definition rP : rparams := RParams 2 2 1.
Definition zz (i : nat) : fq := zq (Z.of_nat i mod 5 - 2).
Definition rf : list q4 := map (fun i => Q4 (zz i) (zz (i * i)) (zz (i + 3)) (zz (2 * i))) (seq 0 64).
Definition rA : ajtai q4 := Ajtai 64 [map (fun i => Q4 (zq (Z.of_nat (7 * i + 2))) (zq (Z.of_nat (i * i))) 1 (zq (Z.of_nat i))) (seq 0 64)].
Definition rM (c : q4) : smat q4 := SMat 64 64 (map (fun i => [(c, Nat.modulo (5 * i + 3) 64)]) (seq 0 64)).
Definition in_rangeb (b : Z) (f : list q4) : bool := forallb (fun x => forallb (fun c => (2 * Z.abs (psigned c) <=? b)%Z) (pcoeffs x)) f.
Lemma in_rangeb_ok b f : in_rangeb b f = true -> Forall (fun x => Forall (fun c => (2 * Z.abs (psigned c) <= b)%Z) (pcoeffs x)) f.
Proof.
  intros H. apply Forall_forall. intros x Hx. apply Forall_forall. intros c Hc. unfold in_rangeb in H.
  rewrite forallb_forall in H. specialize (H x Hx). rewrite forallb_forall in H. apply Z.leb_le, H, Hc.
Qed.
Lemma rM_ok c : wf_mat 64 (rM c) /\ (length (m_coeffs (rM c)) <= 2 ^ 6)%nat.
Proof.
  split; [|cbn; lia]. unfold wf_mat, rM. cbn [m_nrows m_ncols m_coeffs]. repeat split; auto.
  apply Forall_map, Forall_forall. intros i _. apply Forall_cons; [|apply Forall_nil]. cbn [snd]. apply Nat.mod_upper_bound. discriminate.
Qed.
Lemma rM_base k : base_mat (rM (emb (k : fq))).
Proof. apply Forall_map, Forall_forall. intros i _. apply Forall_cons; [|apply Forall_nil]. exists k. reflexivity. Qed.
Example ex_C47_hypotheses : exists insts dc ts', mapM (fun f => from_f f rA rP) [rf] = Ok insts /\ map ri_f insts = [rf] /\
    range_check (Rg 6 insts rP) [rM (emb (zq 9))] 5%Z = Ok (dc, ts') /\ rg_verify dc 5%Z = Ok ts'.
Proof.
  destruct (C47_range_check_complete (p := 257%Z) [rf] rA rP 64 6 [rM (emb (zq 9))] 5%Z) as (i & dc & ts' & H1 & H2 & H3 & H4 & _).
  - reflexivity.
  - lia.
  - intros i Hi; apply char257; lia.
  - cbn; lia.
  - reflexivity.
  - reflexivity.
  - reflexivity.
  - cbn; lia.
  - cbn; lia.
  - vm_compute. lia.
  - apply Forall_cons; [|apply Forall_nil]. split; [reflexivity|]. apply in_rangeb_ok. vm_compute. reflexivity.
  - apply Forall_cons; [|apply Forall_nil]. destruct (rM_ok (emb (zq 9))) as [H1 H2].
    split; [exact H1|]. split; [exact H2|]. apply rM_base.
  - exists i, dc, ts'. auto.
Qed.

(** The result of the honest prover's run given to the verifier. *)
Definition rg_run (f : list q4) P (M : list (smat q4)) (ts : Z) : result (result Z) :=
  do x <- from_f f rA P; do dt <- range_check (Rg 6 [x] P) M ts; Ok (rg_verify (fst dt) ts).
Definition is_vu (r : result (result Z)) : bool := match r with Ok (Err PsiCheckVU) => true | _ => false end.
Definition is_ab (r : result (result Z)) : bool := match r with Ok (Err PsiCheckAB) => true | _ => false end.
Example ex_C47_run : match rg_run rf rP [rM (emb (zq 9))] 5 with Ok (Ok _) => true | _ => false end = true.
Proof. vm_compute. reflexivity. Qed.

(** A run that ends with the named error is a run of the honest prover. *)
Lemma rg_run_inv f P M ts e : rg_run f P M ts = Ok (Err e) -> exists x dc ts', from_f f rA P = Ok x /\
  range_check (Rg 6 [x] P) M ts = Ok (dc, ts') /\ rg_verify dc ts = Err e.
Proof.
  unfold rg_run. destruct (from_f f rA P) as [x| |]; cbn [bind]; try discriminate.
  destruct (range_check (Rg 6 [x] P) M ts) as [[dc ts']| |] eqn:E; cbn [bind fst]; try discriminate.
  intros H. apply ok_inj in H. exists x, dc, ts'. auto.
Qed.
Lemma is_vu_ok r : is_vu r = true -> r = Ok (Err PsiCheckVU).
Proof. destruct r as [[?|[]|]| |]; try discriminate; reflexivity. Qed.
Lemma is_ab_ok r : is_ab r = true -> r = Ok (Err PsiCheckAB).
Proof. destruct r as [[?|[]|]| |]; try discriminate; reflexivity. Qed.

(** * C63: a matrix with the ring element X^2 as entries: the honest range check is rejected *)
Theorem C63_ring_matrix_refuted : exists (f : list q4) (A : ajtai q4) P nv (M : smat q4) (ts ts' : Z) x dc,
  wf_mat 64 M /\ length f = 64%nat /\ a_ncols A = 64%nat /\ rp_b P = Z.of_nat (pdim / 2) /\
  Forall (fun x => Forall (fun c => (2 * Z.abs (psigned c) <= rp_b P ^ Z.of_nat (rp_k P))%Z) (pcoeffs x)) f /\
  from_f f A P = Ok x /\ range_check (Rg nv [x] P) [M] ts = Ok (dc, ts') /\ rg_verify dc ts = Err PsiCheckAB.
Proof.
  assert (is_ab (rg_run rf rP [rM (Q4 0 0 1 0)] 5) = true) as H by (vm_compute; reflexivity).
  apply is_ab_ok, rg_run_inv in H as (x & dc & ts' & H1 & H2 & H3).
  exists rf, rA, rP, 6%nat, (rM (Q4 0 0 1 0)), 5%Z, ts', x, dc. split; [apply rM_ok|].
  do 3 (split; [reflexivity|]). split; [apply in_rangeb_ok; vm_compute; reflexivity|]. auto.
Qed.

(** * C64: digits in base 3, all admissible ([exp] succeeds): the verifier recomposes in base d/2 = 2 *)
Definition rf3 : list q4 := map (fun i => Q4 (zq (Z.of_nat i mod 9 - 4)) (zz i) 0 1) (seq 0 64).
Theorem C64_base_refuted : exists (f : list q4) (A : ajtai q4) P nv (ts ts' : Z) x dc,
  length f = 64%nat /\ a_ncols A = 64%nat /\ rp_b P = 3%Z /\
  Forall (fun x => Forall (fun c => (2 * Z.abs (psigned c) <= rp_b P ^ Z.of_nat (rp_k P))%Z) (pcoeffs x)) f /\
  from_f f A P = Ok x /\ range_check (Rg nv [x] P) [] ts = Ok (dc, ts') /\ rg_verify dc ts = Err PsiCheckVU.
Proof.
  assert (is_vu (rg_run rf3 (RParams 3 2 1) [] 5) = true) as H by (vm_compute; reflexivity).
  apply is_vu_ok, rg_run_inv in H as (x & dc & ts' & H1 & H2 & H3).
  exists rf3, rA, (RParams 3 2 1), 6%nat, 5%Z, ts', x, dc.
  do 3 (split; [reflexivity|]). split; [apply in_rangeb_ok; vm_compute; reflexivity|]. auto.
Qed.

(** * C65: one instance with one digit: a single matrix with a vector, which the set check rejects (C45) *)
Definition rf1 : list q4 := map (fun i => Q4 (zq (Z.of_nat i mod 3 - 1)) 1 0 (zq (Z.of_nat (i * i) mod 3 - 1))) (seq 0 64).
Theorem C65_single_digit_refuted : exists (f : list q4) (A : ajtai q4) P nv (ts ts' : Z) x dc,
  length f = 64%nat /\ a_ncols A = 64%nat /\ rp_b P = Z.of_nat (pdim / 2) /\ rp_k P = 1%nat /\
  Forall (fun x => Forall (fun c => (2 * Z.abs (psigned c) <= rp_b P ^ Z.of_nat (rp_k P))%Z) (pcoeffs x)) f /\
  from_f f A P = Ok x /\ range_check (Rg nv [x] P) [] ts = Ok (dc, ts') /\ rg_verify dc ts = Panic.
Proof.
  assert (match rg_run rf1 (RParams 2 1 1) [] 5 with Ok Panic => true | _ => false end = true) as H by (vm_compute; reflexivity).
  unfold rg_run in H. destruct (from_f rf1 rA (RParams 2 1 1)) as [x| |] eqn:E1; cbn [bind] in H; try discriminate H.
  destruct (range_check (Rg 6 [x] (RParams 2 1 1)) [] 5%Z) as [[dc ts']| |] eqn:E2; cbn [bind fst] in H; try discriminate H.
  exists rf1, rA, (RParams 2 1 1), 6%nat, 5%Z, ts', x, dc.
  do 4 (split; [reflexivity|]). split; [apply in_rangeb_ok; vm_compute; reflexivity|].
  split; [auto|]. split; [auto|]. destruct (rg_verify dc 5%Z); try discriminate H. reflexivity.
Qed.
