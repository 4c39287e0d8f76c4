(** Concrete cases and refutations for Properties4.v, on F257[X]/(X^4+1) with the toy transcript. *)
From Coq Require Import String List Arith Lia ZArith Bool.
From Verif Require Import Prelude Alg MLE MLE_Proofs Transcript Sumcheck Sumcheck_Proofs Arith Arith_Proofs Linearization_Proofs Folding_Sound
  Rings PlusRing PlusUtils_Proofs Toy Inst257 SetCheck SetCheck_Proofs SetCheck_Sound Properties4.
Import ListNotations.
Local Open Scope rs_scope.

(** * C43 *)
Example ex_tensor : map fz (tensor [zq 2; zq 5]) = [4; 252; 249; 10]%Z.
Proof. vm_compute. reflexivity. Qed.

(** * C44: two 4x2 monomial matrices and one monomial vector, one matrix M *)
Definition X0 : q4 := Q4 1 0 0 0.
Definition X1 : q4 := Q4 0 1 0 0.
Definition X2 : q4 := Q4 0 0 1 0.
Definition X3 : q4 := Q4 0 0 0 1.
Definition exA : smat q4 := SMat 4 2 [[(X1, 0%nat); (X0, 1%nat)]; [(X3, 1%nat)]; []; [(X2, 0%nat); (X2, 1%nat)]].
Definition exB : smat q4 := SMat 4 2 [[(X0, 0%nat)]; [(X1, 0%nat); (X2, 1%nat)]; [(X3, 1%nat)]; []].
Definition exv : list q4 := [X0; Q4 0 0 0 0; X3; X1].
Definition exM : smat q4 := SMat 4 4 [[(X1, 3%nat)]; [(Q4 (zq 2) 1 0 (zq 3), 0%nat)]; [(X0, 2%nat)]; [(X0, 1%nat)]].
Ltac mono := first [left; reflexivity | right; exists 0%nat; split; [cbn; lia|reflexivity] | right; exists 1%nat; split; [cbn; lia|reflexivity]
  | right; exists 2%nat; split; [cbn; lia|reflexivity] | right; exists 3%nat; split; [cbn; lia|reflexivity]].
Ltac monos := repeat (apply Forall_cons; [|]); try apply Forall_nil; cbn [fst]; try mono.
Lemma exA_ok : mono_set 4 2 (MMat exA).
Proof. do 3 (split; [reflexivity|]). repeat (apply Forall_cons; [monos|]); apply Forall_nil. Qed.
Lemma exB_ok : mono_set 4 2 (MMat exB).
Proof. do 3 (split; [reflexivity|]). repeat (apply Forall_cons; [monos|]); apply Forall_nil. Qed.
Lemma exv_ok : mono_set 4 2 (MVec exv).
Proof. split; [reflexivity|]. unfold exv. monos. Qed.
Lemma exM_ok : wf_mat 4 exM /\ (length (m_coeffs exM) <= 2 ^ 2)%nat.
Proof. split; [|cbn; lia]. unfold wf_mat, exM; cbn. repeat (split; try lia); repeat (apply Forall_cons; [repeat (apply Forall_cons; [cbn; lia|]); apply Forall_nil|]); apply Forall_nil. Qed.
Example ex_C44_hypotheses : exists o ts', set_check 2 [MMat exA; MMat exB; MVec exv] [exM] 5%Z = Ok (o, ts') /\ set_verify o 5%Z = Ok ts'.
Proof.
  destruct (C44_set_check_complete (p := 257%Z) 2 4 2 [MMat exA; MMat exB; MVec exv] [exM] 5%Z) as (o & ts' & H1 & H2 & _).
  - lia.
  - reflexivity.
  - intros i Hi; apply char257; lia.
  - repeat (apply Forall_cons; [first [exact exA_ok|exact exB_ok|exact exv_ok]|]); apply Forall_nil.
  - discriminate.
  - left; cbn; lia.
  - apply Forall_cons; [exact exM_ok|apply Forall_nil].
  - exists o, ts'. auto.
Qed.
(** A non-monomial entry in the first matrix is rejected. *)
Definition exBad : smat q4 := SMat 4 2 [[(Q4 1 1 0 0, 0%nat); (X0, 1%nat)]; [(X3, 1%nat)]; []; [(X2, 0%nat); (X2, 1%nat)]].
Example ex_C44_rejects : match set_check 2 [MMat exBad; MMat exB; MVec exv] [exM] 5%Z with
  | Ok (o, ts') => match set_verify o 5%Z with Ok _ => false | _ => true end | _ => false end = true.
Proof. vm_compute. reflexivity. Qed.

(** * C45: one matrix together with a vector: the honest output is rejected *)
Theorem C45_one_matrix_with_vectors_refuted : exists nvars n nc sets (ts : Z) o ts',
  nvars = ark_log2 (next_pow2 n) /\ Forall (mono_set n nc) sets /\ length (set_mats sets) = 1%nat /\ length (set_vecs sets) = 1%nat /\
  set_check nvars sets [] ts = Ok (o, ts') /\ set_verify o ts = Err ExpectedEvaluation.
Proof.
  exists 2%nat, 4%nat, 2%nat, [MMat exA; MVec exv], 5%Z.
  destruct (set_check 2 [MMat exA; MVec exv] [] 5%Z) as [[o ts']| |] eqn:E.
  - exists o, ts'. split; [reflexivity|]. split.
    { repeat (apply Forall_cons; [first [exact exA_ok|exact exv_ok]|]); apply Forall_nil. }
    do 2 (split; [reflexivity|]). split; [reflexivity|].
    assert (match set_check 2 [MMat exA; MVec exv] [] 5%Z with Ok (o, _) => match set_verify o 5%Z with Err ExpectedEvaluation => true | _ => false end | _ => false end = true) as H by (vm_compute; reflexivity).
    rewrite E in H. destruct (set_verify o 5%Z) as [|[]|]; try discriminate H. reflexivity.
  - exfalso. assert (match set_check 2 [MMat exA; MVec exv] [] 5%Z with Ok _ => true | _ => false end = true) as H by (vm_compute; reflexivity).
    rewrite E in H. discriminate H.
  - exfalso. assert (match set_check 2 [MMat exA; MVec exv] [] 5%Z with Ok _ => true | _ => false end = true) as H by (vm_compute; reflexivity).
    rewrite E in H. discriminate H.
Qed.

(** * C46 *)
Example ex_C46 : fz (ev (Q4 1 1 0 0) (zq 3) * ev (Q4 1 1 0 0) (zq 3)) <> fz (ev (Q4 1 1 0 0) (zq 3 * zq 3)).
Proof. vm_compute. discriminate. Qed.

(** * C55 *)
Definition ex_com : list (list q4) := [[Q4 1 (zq 2) (zq 3) (zq 4)]; [Q4 (zq 2) 0 0 1]].
Example ex_C55 : (length (split_data ex_com 2 2) < 17)%nat /\ split ex_com 17 2 2 = Ok (split_data ex_com 2 2 ++ [0]).
Proof. vm_compute. split; [lia|reflexivity]. Qed.
(** A target of exactly the length of the data panics ([n - length] digits of padding would be zero). *)
Theorem C55_split_exact_refuted : exists (com : list (list q4)) n b k, length (split_data com b k) = n /\ split com n b k = Panic.
Proof. exists ex_com, 16%nat, 2%Z, 2%nat. split; vm_compute; reflexivity. Qed.

(** * C56 *)
Lemma tbytes_ok s n : length (tbytes s n) = n /\ Forall (fun b => (0 <= b < 256)%Z) (tbytes s n).
Proof.
  revert s; induction n as [|n IH]; intros s; cbn [tbytes]; [split; [reflexivity|apply Forall_nil]|].
  destruct (IH (tmix s 3)) as [H1 H2]. split; [cbn [length]; congruence|]. apply Forall_cons; [apply Z.mod_pos_bound; lia|auto].
Qed.
Lemma toy_good_bytes : @good_bytes fq q4 Z qtoy.
Proof. intros ts n. apply tbytes_ok. Qed.
Example ex_C56_range : exists c ts', short_challenge 8 5%Z = Ok (c, ts') /\ c <> 0.
Proof. eexists. eexists. split; [vm_compute; reflexivity|]. discriminate. Qed.
(** Security parameter below the ring dimension: only the zero challenge. *)
Theorem C56_constant_refuted : exists lambda, forall ts : Z, exists ts', short_challenge lambda ts = Ok (0 : q4, ts').
Proof. exists 3%nat. intros ts. eexists. apply (C56_degenerate (PO := popsq) (p := 257%Z) 3 ts toy_good_bytes). cbn. lia. Qed.
(** Security parameter of 64 bits or more per coefficient: the shift overflows. *)
Theorem C56_overflow_refuted : exists lambda, forall ts : Z, @short_challenge fq q4 Z _ _ lambda ts = Panic.
Proof. exists 256%nat. intros ts. reflexivity. Qed.


(** * C62: tables with a non-monomial entry (1+X) and a transcript whose challenges happen to hide it *)
Definition bad_mats : list (smat q4) := [SMat 2 1 [[(Q4 1 1 0 0, 0%nat)]; [(X1, 0%nat)]]; SMat 2 1 [[(X0, 0%nat)]; [(X3, 0%nat)]]].
Definition bad_cols : list (list (list q4)) := map sm_cols bad_mats.
Fixpoint leqb {A} (e : A -> A -> bool) (l1 l2 : list A) : bool :=
  match l1, l2 with [], [] => true | x :: l1, y :: l2 => e x y && leqb e l1 l2 | _, _ => false end.
Lemma leqb_ok {A} (e : A -> A -> bool) l1 l2 : (forall x y, e x y = true -> x = y) -> leqb e l1 l2 = true -> l1 = l2.
Proof.
  intros H. revert l2; induction l1 as [|x l1 IH]; intros [|y l2] E; cbn [leqb] in E; try discriminate E; auto.
  apply andb_true_iff in E as [E1 E2]. f_equal; auto.
Qed.
Definition c62_run (ts : Z) : bool :=
  match set_check 1 (map MMat bad_mats) [] ts with
  | Ok (o, _) =>
      match set_verify o ts with
      | Ok _ =>
          let '(cba, ts1) := cba_loop 2 1 ts in
          let '(rc, ts2) := opt_challenge 2 ts1 in
          match sc_verify ts2 1 3 0 (so_sc o) with
          | Ok (point, v, ts3) => leqb (leqb req) (nth 0 (so_e o) []) (map (map (open point)) bad_cols)
          | _ => false
          end && (so_nvars o =? 1)%nat && (length (so_b o) =? 0)%nat && (length (nth 0 (so_e o) []) =? 2)%nat
      | _ => false
      end
  | _ => false
  end.
Lemma NoDup_zq n : (n <= 257)%nat -> NoDup (map (fun i => zq (Z.of_nat i)) (seq 0 n)).
Proof.
  intros Hn.
  assert (forall a m, (a + m <= 257)%nat -> NoDup (map (fun i => zq (Z.of_nat i)) (seq a m))) as H; [|apply (H 0%nat n); lia].
  clear. intros a m; revert a; induction m as [|m IH]; intros a Ha; cbn [seq map]; [apply NoDup_nil|].
  apply NoDup_cons; [|apply IH; lia]. intros HI. apply in_map_iff in HI as (j & E & Hj). apply in_seq in Hj.
  apply (f_equal fz) in E. cbn [fz zq] in E. unfold q in E. rewrite !Z.mod_small in E by lia. lia.
Qed.
(** All hypotheses of the soundness statement hold together (so its conclusion, a hit of one of the two
    bad events, is what happened here). *)
Example ex_C62_hypotheses : exists (pts : list fq) (o : sc_out fq q4) (ts ts' : Z),
  NoDup pts /\ (Nat.max (2 * pdim - 1) (Nat.max 1 (length bad_cols + 0)) <= length pts)%nat /\ char_gt fq 3 /\
  Forall (fun cl => (length (cl_cols cl) <= 1)%nat /\ Forall (fun col => (length col <= 2 ^ 1)%nat) (cl_cols cl)) (claims bad_cols []) /\
  Exists claim_bad (claims bad_cols []) /\ so_nvars o = 1%nat /\ set_verify o ts = Ok ts' /\
  (let '(cba, ts1) := cba_loop 2 1 ts in
   let '(rc, ts2) := opt_challenge 2 ts1 in
   forall point v ts3, sc_verify ts2 1 3 0 (so_sc o) = Ok (point, v, ts3) ->
     nth 0 (so_e o) [] = map (map (open point)) bad_cols /\ so_b o = map (open point) []) /\
  length (nth 0 (so_e o) []) = length bad_cols /\ length (so_b o) = 0%nat.
Proof.
  exists (map (fun i => zq (Z.of_nat i)) (seq 0 7)).
  assert (c62_run 15 = true) as H by (vm_compute; reflexivity). unfold c62_run in H.
  destruct (set_check 1 (map MMat bad_mats) [] 15%Z) as [[o u]|e|]; try discriminate H. exists o, 15%Z.
  destruct (set_verify o 15%Z) as [ts'|e|]; try discriminate H. exists ts'.
  destruct (cba_loop 2 1 15%Z) as [cba ts1]. destruct (opt_challenge 2 ts1) as [rc ts2].
  apply andb_true_iff in H as [H H4]. apply andb_true_iff in H as [H H3]. apply andb_true_iff in H as [H H2].
  apply Nat.eqb_eq in H2, H3, H4.
  split; [apply NoDup_zq; lia|]. split; [cbn; lia|]. split; [intros i Hi; apply char257; lia|].
  split. { repeat (apply Forall_cons; [split; [cbn; lia|repeat (apply Forall_cons; [cbn; lia|]); apply Forall_nil]|]); apply Forall_nil. }
  split.
  { apply Exists_cons_hd. exists [Q4 1 1 0 0; X1], (Q4 1 1 0 0). split; [left; reflexivity|]. split; [left; reflexivity|].
    intros [E|(i & Hi & E)].
    - apply (f_equal (fun x => fz (q0 x))) in E. discriminate E.
    - cbn in Hi. destruct i as [|[|[|[|i]]]]; [| | | |lia].
      + apply (f_equal (fun x => fz (q1 x))) in E. discriminate E.
      + apply (f_equal (fun x => fz (q0 x))) in E. discriminate E.
      + apply (f_equal (fun x => fz (q0 x))) in E. discriminate E.
      + apply (f_equal (fun x => fz (q0 x))) in E. discriminate E. }
  split; [exact H2|]. split; [reflexivity|]. split; [|split; [exact H4|exact H3]].
  intros point v ts3 E. rewrite E in H. split.
  - apply (leqb_ok (leqb req)); [|exact H]. intros x y. apply leqb_ok. intros a b. apply req_true.
  - cbn [map]. destruct (so_b o); [reflexivity|discriminate H3].
Qed.
