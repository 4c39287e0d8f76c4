(** Concrete cases for Properties19.v, on F257[X]/(X^4+1). *)
From Coq Require Import String List Arith Lia ZArith Bool Ring.
From Verif Require Import Prelude Alg MLE MLE_Proofs Counting Transcript Sumcheck Sumcheck_Proofs Arith Arith_Proofs Linearization_Proofs Folding_Sound
  Rings Rings_Proofs PlusRing PlusUtils_Proofs Toy Inst257 SetCheck SetCheck_Proofs SetCheck_Sound RangeCheck RangeCheck_Proofs RangeCheck_Sound
  Plus Plus_Sound SoundErr RandomOracle PlusErr PlusRO Examples4 Examples10 Properties19.
Import ListNotations.
Local Open Scope rs_scope.
#[local] Existing Instance coin_trans.

Definition pts257 : list fq := map (fun i => zq (Z.of_nat i)) (seq 0 257).
Lemma pts257_ok : NoDup pts257 /\ length pts257 = 257%nat.
Proof. split; [apply NoDup_zq; auto|]. unfold pts257. rewrite map_length, seq_length. reflexivity. Qed.
Lemma not_mono_1X : ~ in_monos (Q4 1 1 0 0 : q4).
Proof.
  intros [E|(i & Hi & E)].
  - apply (f_equal (fun x => fz (q0 x))) in E. discriminate E.
  - cbn in Hi. destruct i as [|[|[|[|i]]]]; [| | | |lia].
    + apply (f_equal (fun x => fz (q1 x))) in E. discriminate E.
    + apply (f_equal (fun x => fz (q0 x))) in E. discriminate E.
    + apply (f_equal (fun x => fz (q0 x))) in E. discriminate E.
    + apply (f_equal (fun x => fz (q0 x))) in E. discriminate E.
Qed.
(** C99: two matrices, one with the entry 1 + X; seven batching challenges, and the degrees. *)
Example ex_C99 : NoDup pts257 /\ (Nat.max (2 * pdim - 1) (Nat.max 1 (length bad_cols + 0)) <= length pts257)%nat /\ char_gt fq 3 /\
  set_sizes 1 1 bad_cols [] /\ Exists claim_bad (claims bad_cols []) /\ n_batch 2 1 2 = 7%nat /\ sc_degree 1 2 = 11%nat.
Proof.
  destruct pts257_ok as [H1 H2]. split; auto. split; [rewrite H2; cbn; lia|]. split; [intros i Hi; apply char257; lia|].
  split; [|split; [|split; reflexivity]].
  - repeat (apply Forall_cons; [split; [cbn; lia|repeat (apply Forall_cons; [cbn; lia|]); apply Forall_nil]|]); apply Forall_nil.
  - apply Exists_cons_hd. exists [Q4 1 1 0 0; X1], (Q4 1 1 0 0). split; [left; reflexivity|]. split; [left; reflexivity|]. exact not_mono_1X.
Qed.
(** C100: an instance whose digits are fine and whose [m_tau] has the entry 1 + X. *)
Definition bad_mtau : list q4 := [Q4 1 1 0 0; 0].
Example ex_C100 : (Nat.max (2 * pdim - 1) (length [sx bad_mtau] * 2 + length [sx bad_mtau]) <= length pts257)%nat /\ (2 <= 2 ^ 1)%nat /\
  Forall (rg_data 2 2) [sx bad_mtau] /\ ~ Forall (rg_wf ri_f 2 2) [sx bad_mtau].
Proof.
  split; [rewrite (proj2 pts257_ok); cbn; lia|]. split; [cbn; lia|]. split.
  - apply Forall_cons; [|apply Forall_nil]. split; try reflexivity. eapply Forall_impl; [|exact sx_rows]. intros M [L F]. split; auto. eapply Forall_impl; [|exact F]. intros row []; auto.
  - intros H. apply Forall_inv in H. destruct H as [_ _ _ _ _ H _]. exact (not_mono_1X (Forall_inv H)).
Qed.
(** C101: a false R1CS over F257[X]/(X^4+1): z_0 * z_0 = 0 with z_0 = 1; the guess of the challenge 0. *)
Definition bad_r1cs257 : r1cs q4 := R1cs 0 (SMat 2 1 [[(1, 0%nat)]; []]) (SMat 2 1 [[(1, 0%nat)]; []]) (SMat 2 1 [[]; []]).
Example ex_C101 : char_gt fq 3 /\ ~ r1cs_holds bad_r1cs257 [1] 1 /\ In (0 : fq) pts257 /\ (1 - 0 - 0 : fq) <> 0.
Proof.
  split; [intros i Hi; apply char257; lia|]. split; [|split].
  - intros H. specialize (H 0%nat ltac:(cbn; lia)). apply (f_equal (fun x => fz (q0 x))) in H. vm_compute in H. discriminate.
  - left. apply fq_ext. reflexivity.
  - intros E. apply (f_equal fz) in E. vm_compute in E. discriminate.
Qed.
(** The guessing prover at work: with the second coin 0 the verifier accepts the false statement, with the second coin 1 it does not. *)
Example ex_C101_run :
  (exists ts, Plus.lin_verify (lin_play 1 (lin_cheater 0 bad_r1cs257 [1] 1) [zq 7; zq 0]) [zq 7; zq 0] = Ok (true, ts)) /\
  Plus.lin_verify (lin_play 1 (lin_cheater 0 bad_r1cs257 [1] 1) [zq 7; zq 1]) [zq 7; zq 1] = Panic.
Proof. split; [eexists|]; vm_compute; reflexivity. Qed.
