(** C105: knowledge error of the folding step. *)
From Coq Require Import String List Arith Lia ZArith Bool Ring Znumtheory.
From Verif Require Import Prelude Alg Poly MLE MLE_Proofs Transcript Interp Sumcheck Sumcheck_Proofs
  Arith Arith_Proofs Balanced Rings Rings_Proofs Linearization Linearization_Proofs Relations LinRel
  Decomposition Decomposition_Proofs Folding Folding_Comb Folding_Proofs Folding_Complete Folding_Sound NIFS NIFS_Proofs Extract
  Challenge Challenge_Proofs PolyInst Primes FieldExt CycInst RealRings ShortDual Sampling Shipped Zippel Counting Fork Properties9 Properties12.
Import ListNotations.
Local Open Scope rs_scope.

Section Knowledge.
Context {p : Z} {K : Type} (y : cyc p K) (decode : list Z -> result (list Z)) (need : nat) (RR : real_ring p K y decode need).
Notation C := (pol (fp p) (cy_d y)).
Notation R := (pol K (cy_k y)).
Local Instance SO22 : SOps (fp p) K C R := cyc_ops y.
Local Instance SL22 : SLaws (fp p) K C R p := real_laws y decode need RR.
Context {T : Type} {TO : TransOps T R K}.
(** The squeezer [SQ bs] answers the m questions from state [tr] with the byte strings [bs]. *)
Definition programmed (SQ : list (list Z) -> T -> list Z * T) (tr : T) (m : nat) (S0 : list (list Z)) : Prop :=
  forall bs, In bs (tuples m S0) -> draws (SQ bs) tr m = bs.
Lemma byte_fork (SQ : list (list Z) -> T -> list Z * T) tr m S0 (L : list (list (list Z))) : Forall (bytes need) S0 -> programmed SQ tr m S0 ->
  NoDup L -> Forall (fun bs => In bs (tuples m S0)) L -> (m * length S0 ^ (m - 1) < length L)%nat ->
  exists bss : nat -> list (list Z), (forall j, (j <= m)%nat -> In (bss j) L) /\ forked need m bss /\ forked need m (fun j => draws (SQ (bss j)) tr m).
Proof.
  intros HB HP ND HF HL. destruct (fork_exists [] (list_eq_dec Z.eq_dec) m S0 L ND HF HL) as (x & Hx & Hv).
  destruct (finite_choice x m (fun i z => In z L /\ varies [] m i x z)) as (f & Hf); [exact Hv|].
  exists (fun j => match j with O => x | S i => f i end).
  assert (forall j, (j <= m)%nat -> In (match j with O => x | S i => f i end) L) as HI. { intros [|i] Hj; [auto|]. apply Hf. lia. }
  rewrite Forall_forall in HF.
  assert (forked need m (fun j => match j with O => x | S i => f i end)) as FK.
  { split.
    - intros j Hj. pose proof (HF _ (HI j Hj)) as Q. apply in_tuples in Q as [Q1 Q2]. split; [exact Q1|]. eapply Forall_impl; [|exact Q2]. intros a Ha. rewrite Forall_forall in HB. auto.
    - intros i k Hi Hk. apply (proj2 (Hf i Hi)). exact Hk. }
  split; [exact HI|]. split; [exact FK|]. destruct FK as [F1 F2]. split.
  - intros j Hj. rewrite HP by auto. apply F1, Hj.
  - intros i k Hi Hk. rewrite (HP (f i)) by (apply HF, (HI (S i)); lia). rewrite (HP x) by (apply HF, Hx). apply F2; auto.
Qed.

(** * C105
    One statement and one proof; the prover answers every vector of byte strings over [S0] with a witness.  If it is right for more than
    (2K-1)|S0|^(2K-2) of the |S0|^(2K-1) vectors, then openings of all 2K commitments are computed from its answers, and theta and eta are
    the evaluations of them. *)
Theorem C105_folding P (A : ajtai R) (cs : ccs R) cms pf (ts tr : T) (SQ : list (list Z) -> T -> list Z * T) S0 (L : list (list (list Z))) lc ts' (w : list (list Z) -> witness C R) :
  let m := (2 * dp_K P - 1)%nat in
  sizes_ok p P cs -> length cms = (2 * dp_K P)%nat -> Forall (fun c => length (lc_cm c) = kappa A /\ length (lc_x c) = c_l cs) cms ->
  fold_shape P cs pf -> rho_state P cms pf ts cs = Ok tr ->
  Forall (bytes need) S0 -> programmed SQ tr m S0 ->
  NoDup L -> (forall bs, In bs L -> In bs (tuples m S0) /\
    fold_verify (HO := short_of y decode (SQ bs)) P cms pf ts cs = Ok (lc bs, ts' bs) /\ lcccs_rel P A cs (lc bs) (w bs)) ->
  (m * length S0 ^ (m - 1) < length L)%nat ->
  exists ws, Forall2 (fun c w => opens P A cs (lc_cm c) w) cms ws /\ exists bss : nat -> list (list Z), forked need m bss /\
    forall j, (j <= m)%nat -> In (bss j) L /\
      fp_theta pf = evs (map w_fhat ws) (lc_r (lc (bss j))) /\
      fp_eta pf = evs (zipw (fun c w => map (Mz_mle (c_s cs) (lcccs_z c (w_ccs w))) (c_M cs)) cms ws) (lc_r (lc (bss j))) /\
      is_lin (2 * dp_K P) (fun k => nth k (rhos (short_of y decode (SQ (bss j))) P tr) 0) (fun k => w_fc (nth k ws (Witness [] [] [] []))) (w_fc (w (bss j))).
Proof.
  intros m H1 H2 H3 H4 H5 HB HP ND HW HL. assert (1 <= dp_K P)%nat as HK by apply H1.
  destruct (byte_fork SQ tr m S0 L HB HP ND ltac:(apply Forall_forall; intros bs Hb; apply HW, Hb) HL) as (bss & HI & FK & FK').
  destruct (C82_folding_extract y decode need RR P A cs cms pf ts tr (fun j => SQ (bss j)) (fun j => lc (bss j)) (fun j => ts' (bss j)) (fun j => w (bss j)) H1 H2 H3 H4 H5 FK') as (ws & W1 & W2).
  - intros j Hj. apply HW, HI. unfold m. lia.
  - exists ws. split; [exact W1|]. exists bss. split; [exact FK|]. intros j Hj. split; [apply HI, Hj|]. apply W2. unfold m in Hj. lia.
Qed.
(** The whole step: fix openings of the component commitments.  A prover which is right that often proves true statements, or one of the
    bad events of C73 has happened (whose probability C89 and C92 bound), or two openings of one commitment are found. *)
Theorem C105_nifs P (A : ajtai R) (cs : ccs R) acc cm_i lin lcs_l lcs_r (ws_l ws_r : list (witness C R)) :
  sizes_ok p P cs -> degree_ok cs -> (Z.of_nat (c_d cs + 1) < p)%Z -> (2 * Z.of_nat (dp_b P) < p)%Z -> (Z.of_nat (c_t cs) < p)%Z -> length (lc_r acc) = c_s cs ->
  Forall2 (fun c w => opens P A cs (lc_cm c) w) lcs_l ws_l -> Forall2 (fun c w => opens P A cs (lc_cm c) w) lcs_r ws_r ->
  let cms := lcs_l ++ lcs_r in
  let ws := ws_l ++ ws_r in
  let fhs := map w_fhat ws in
  let mzs := zipw (fun c w => map (Mz_mle (c_s cs) (lcccs_z c (w_ccs w))) (c_M cs)) cms ws in
  let n := ((c_n cs - c_l cs - 1) * dp_L P)%nat in
  let m := (2 * dp_K P - 1)%nat in
  exists ref : list K, forall pf (ts ts1 ts2 ts3 tr : T) (SQ : list (list Z) -> T -> list Z * T) S0 (L : list (list (list Z))) lc ts' (w : list (list Z) -> witness C R),
    dec_shape P cs (lf_dec_l pf) -> dec_shape P cs (lf_dec_r pf) -> fold_shape P cs (lf_fold pf) ->
    lin_verify cm_i (lf_lin pf) (absorb_public_input acc cm_i ts) cs = Ok (lin, ts1) ->
    dec_verify P acc (lf_dec_l pf) ts1 = Ok (lcs_l, ts2) ->
    dec_verify P lin (lf_dec_r pf) ts2 = Ok (lcs_r, ts3) ->
    rho_state P cms (lf_fold pf) ts3 cs = Ok tr ->
    Forall (bytes need) S0 -> programmed SQ tr m S0 ->
    NoDup L -> (forall bs, In bs L -> In bs (tuples m S0) /\
       nifs_verify (HO := short_of y decode (SQ bs)) P acc cm_i pf ts cs = Ok (lc bs, ts' bs) /\ lcccs_rel P A cs (lc bs) (w bs)) ->
    (m * length S0 ^ (m - 1) < length L)%nat ->
    (lcccs_rel P A cs acc (wsum P n ws_l) /\ cccs_rel P A cs cm_i (wsum P n ws_r) /\
     forall i w, nth_error ws i = Some w -> (i < 2 * dp_K P - 1)%nat \/ tau = 1%nat -> wit_norm (Z.of_nat (dp_b P) - 1) w) \/
    (exists bs, In bs L /\ fold_bad P cs cms fhs mzs (lc_r acc) (lc_r lin) (Nat.max tau (c_t cs)) ref ts3 (lf_fold pf) (lc bs)) \/
    lin_bad cs (i_x cm_i ++ 1 :: w_ccs (wsum P n ws_r)) (absorb_public_input acc cm_i ts) (lf_lin pf) lin \/
    (exists bss : nat -> list (list Z), (forall j, (j <= m)%nat -> In (bss j) L) /\ forked need m bss /\
       relaxed_collision P A cs cms ws (fun j => rhos (short_of y decode (SQ (bss j))) P tr) (fun j => w (bss j))).
Proof.
  intros H1 H2 H3 H4 H5 H8 H9 H10 cms ws fhs mzs n m. assert (1 <= dp_K P)%nat as HK by apply H1.
  destruct (C82_nifs_knowledge y decode need RR P A cs acc cm_i lin lcs_l lcs_r ws_l ws_r H1 H2 H3 H4 H5 H8 H9 H10) as (ref & HR).
  exists ref. intros pf ts ts1 ts2 ts3 tr SQ S0 L lc ts' w D1 D2 D3 E1 E2 E3 E4 HB HP ND HW HL.
  destruct (byte_fork SQ tr m S0 L HB HP ND ltac:(apply Forall_forall; intros bs Hb; apply HW, Hb) HL) as (bss & HI & FK & FK').
  destruct (HR pf ts ts1 ts2 ts3 tr (fun j => SQ (bss j)) (fun j => lc (bss j)) (fun j => ts' (bss j)) (fun j => w (bss j)) D1 D2 D3 E1 E2 E3 E4 FK') as [Q|[Q|[Q|Q]]].
  - intros j Hj. apply HW, HI. unfold m. lia.
  - left. exact Q.
  - right. left. exists (bss 0%nat). split; [apply HI; lia|exact Q].
  - right. right. left. exact Q.
  - right. right. right. exists bss. auto.
Qed.
End Knowledge.
(** All byte strings: |S0| = 256^need; for the shipped parameters the knowledge error (2K-1)/|S0| is at most 2^-120. *)
Theorem C105_shipped {p K} (y : cyc p K) decode need W G P : shipped p K y decode need W G -> In P (W ++ G) ->
  (Z.of_nat (2 * dp_K P - 1) * 2 ^ 120 <= 256 ^ Z.of_nat need)%Z.
Proof. intros S HP. apply Z.leb_le. revert P HP. apply forallb_forall. destruct S; vm_compute; reflexivity. Qed.
Theorem C105_bytes need : exists S0, NoDup S0 /\ (forall bs, In bs S0 <-> bytes need bs) /\ length S0 = (256 ^ need)%nat.
Proof.
  exists (tuples need (map Z.of_nat (seq 0 256))). split; [|split].
  - apply tuples_NoDup. apply FinFun.Injective_map_NoDup; [intros a b; apply Nat2Z.inj|apply seq_NoDup].
  - intros bs. rewrite in_tuples. unfold bytes. split; intros [H1 H2]; (split; [exact H1|]); (eapply Forall_impl; [|exact H2]); intros a Ha.
    + apply in_map_iff in Ha as (i & <- & Hi). apply in_seq in Hi. unfold is_byte. lia.
    + unfold is_byte in Ha. apply in_map_iff. exists (Z.to_nat a). rewrite in_seq. lia.
  - rewrite tuples_length, map_length, seq_length. reflexivity.
Qed.
