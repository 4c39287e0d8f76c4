(** Final statements about Fiat-Shamir: what has been absorbed when a challenge is drawn.  The transcript is any transcript
    [T] with a log of the calls made on it ([fs_trans], [fs_short]), so "the log before a challenge" is everything the
    challenge can depend on.  [says l] are the calls absorbing [l], [draws l] the calls that returned the challenges [l]. *)
From Coq Require Import String List Arith Lia ZArith Bool Ring.
From Verif Require Import Prelude Alg MLE Transcript Interp Sumcheck Arith Balanced Rings Linearization Decomposition Folding NIFS NIFS_Proofs
  PlusRing PlusUtils_Proofs SetCheck RangeCheck Cm Plus FSLog FSPlus.
Import ListNotations.
Local Open Scope rs_scope.

(** * C70
    All calls of an accepted sumcheck: the two sizes, then for every round its message, its challenge, and the challenge
    absorbed again. *)
Section C70.
Context {R K C T : Type} {RO : RingOps R} {KO : FieldOps K} {E : Embed K R} {TO : TransOps T R K} {HO : ShortOps T C}.
Theorem C70_schedule (s s' : T * list (fs_ev R K C)) nv deg claim proof cs e : sc_verify s nv deg claim proof = Ok (cs, e, s') ->
  (nv <= length proof)%nat /\ length cs = nv /\
  snd s' = snd s ++ says [rofn nv; rofn deg] ++ concat (zipw (fun m c => says m ++ [FChal c; FAbs (emb c)]) (firstn nv proof) cs).
Proof.
  intros H. destruct (log_sc_verify _ _ _ _ _ _ _ _ H) as (H1 & H2 & H3). split; [auto|]. split; [auto|]. rewrite H3. unfold sc_sched. do 2 f_equal.
  generalize (firstn nv proof). clear. intros msgs. revert cs. induction msgs as [|m l IH]; intros [|c cs]; try reflexivity.
  cbn [sc_rounds zipw concat]. rewrite IH, <- app_assoc. reflexivity.
Qed.
(** The [i]-th challenge is drawn when the log is [before i], and two accepted runs from one state for which this is the
    same have sent the same messages in rounds 0 to [i]. *)
Theorem C70_challenge_binds (s s1 s2 : T * list (fs_ev R K C)) nv deg claim claim' proof proof' cs cs' e e' i :
  sc_verify s nv deg claim proof = Ok (cs, e, s1) -> sc_verify s nv deg claim' proof' = Ok (cs', e', s2) -> (i < nv)%nat ->
  exists before1 before2 c1 c2 after1 after2, snd s1 = before1 ++ FChal c1 :: after1 /\ snd s2 = before2 ++ FChal c2 :: after2 /\
    nth_error cs i = Some c1 /\ nth_error cs' i = Some c2 /\
    length before1 = (length (snd s) + 2 + i * (deg + 3) + (deg + 1))%nat /\ length before2 = length before1 /\
    (before1 = before2 -> firstn (i + 1) proof = firstn (i + 1) proof').
Proof.
  intros H H' Hi. destruct (sc_challenge_binds _ _ _ _ _ _ _ _ _ _ _ _ _ _ H H' Hi) as ((d & r1 & E1) & B).
  destruct (sc_challenge_binds _ _ _ _ _ _ _ _ _ _ _ _ _ _ H' H Hi) as ((d' & r2 & E2) & _).
  assert (forall claim proof cs e s', sc_verify s nv deg claim proof = Ok (cs, e, s') ->
    length (snd s ++ upto nv deg proof cs i) = (length (snd s) + 2 + i * (deg + 3) + (deg + 1))%nat /\ (i < length cs)%nat) as L.
  { clear - Hi. intros claim proof cs e s' H. pose proof (sc_verify_lengths _ _ _ _ _ _ _ _ H) as F. destruct (log_sc_verify _ _ _ _ _ _ _ _ H) as (L1 & L2 & _). split; [|lia].
    rewrite app_length. unfold upto. rewrite !app_length. unfold says at 1 2. rewrite !map_length. cbn [length].
    assert (forall (i : nat) msgs (cs : list K), (i <= length msgs)%nat -> (i <= length cs)%nat -> Forall (fun m => length m = deg + 1)%nat (firstn i msgs) ->
      length (sc_rounds (C := C) (firstn i msgs) (firstn i cs)) = (i * (deg + 3))%nat) as G.
    { clear. induction i as [|i IH]; intros [|m msgs] [|c cs] H1 H2 F; try (cbn [length] in *; lia); try reflexivity. cbn [length] in H1, H2. cbn [firstn] in *. inversion F; subst.
      cbn [sc_rounds]. rewrite app_length. cbn [length]. rewrite IH by (auto; lia). unfold says. rewrite map_length. lia. }
    rewrite G; try lia.
    - rewrite Forall_forall in F. rewrite (F (nth i proof [])); [lia|]. rewrite <- (firstn_skipn nv proof) at 1. rewrite app_nth1 by (rewrite firstn_length; lia). apply nth_In. rewrite firstn_length. lia.
    - replace (firstn i proof) with (firstn i (firstn nv proof)); [|rewrite firstn_firstn; f_equal; lia].
      rewrite <- (firstn_skipn i (firstn nv proof)) in F. apply Forall_app in F as [F _]. exact F. }
  destruct (L _ _ _ _ _ H) as [L1 L2]. destruct (L _ _ _ _ _ H') as [L1' L2'].
  exists (snd s ++ upto nv deg proof cs i), (snd s ++ upto nv deg proof' cs' i), (nth i cs d), (nth i cs' d'), r1, r2.
  split; [exact E1|]. split; [exact E2|]. split; [apply nth_error_nth'; exact L2|]. split; [apply nth_error_nth'; exact L2'|]. split; [exact L1|]. split; [congruence|]. exact B.
Qed.
End C70.

(** * C71
    All calls of an accepted folding step before its short challenges: both instances, linearization (tag, beta, sumcheck,
    evaluations), both decompositions, folding (four tagged batches of challenges, sumcheck, theta, eta, tag). *)
Section C71.
Context {F K C R T : Type} {SO : SOps F K C R} {TO : TransOps T R K} {HO : ShortOps T C}.
Theorem C71_schedule (s s' : T * list (fs_ev R K C)) P cs acc cm_i pf lc : nifs_verify P acc cm_i pf s cs = Ok (lc, s') -> exists b r alpha zeta mu beta r0 rho,
  length b = c_s cs /\ length r = c_s cs /\ length alpha = (2 * dp_K P)%nat /\ length zeta = (2 * dp_K P)%nat /\ length mu = (2 * dp_K P - 1)%nat /\
  length beta = c_s cs /\ length r0 = c_s cs /\ length rho = (2 * dp_K P - 1)%nat /\
  snd s' = snd s ++ says (tag_elt "acc" :: lc_r acc ++ lc_v acc ++ lc_cm acc ++ lc_u acc ++ lc_x acc ++ lc_h acc :: tag_elt "cm_i" :: i_cm cm_i ++ i_x cm_i) ++
    says [tag_elt "beta_s"] ++ draws b ++ sc_sched (c_s cs) (c_d cs + 1) (lp_sc (lf_lin pf)) r ++ says (lp_v (lf_lin pf)) ++ says (lp_u (lf_lin pf)) ++
    dec_sched (lf_dec_l pf) ++ dec_sched (lf_dec_r pf) ++
    says [tag_elt "alpha_s"] ++ draws alpha ++ says [tag_elt "zeta_s"] ++ draws zeta ++ says [tag_elt "mu_s"] ++ draws mu ++ says [tag_elt "beta_s"] ++ draws beta ++
    sc_sched (c_s cs) (2 * dp_b P) (fp_sc (lf_fold pf)) r0 ++ says (concat (fp_theta (lf_fold pf))) ++ says (concat (fp_eta (lf_fold pf))) ++
    says [tag_elt "rho_s"] ++ map FShort rho.
Proof.
  intros H. apply log_nifs in H as ([b r al ze mu be r0] & rho & (D1 & D2 & D3 & D4 & D5 & D6 & D7) & L & H). cbn [nd_b nd_r nd_alpha nd_zeta nd_mu nd_beta nd_r0] in *.
  exists b, r, al, ze, mu, be, r0, rho. repeat (split; [auto; fail|]). rewrite H. unfold nifs_sched, lin_sched, fold_sched, absorbed. cbn [nd_b nd_r nd_alpha nd_zeta nd_mu nd_beta nd_r0].
  rewrite <- !app_assoc. reflexivity.
Qed.
(** The log at the point where the first short challenge is drawn determines the statement and the whole proof. *)
Theorem C71_rho_binds (s s1 s2 : T * list (fs_ev R K C)) P cs acc acc' cm_i cm_i' pf pf' lc lc' :
  nifs_verify P acc cm_i pf s cs = Ok (lc, s1) -> nifs_verify P acc' cm_i' pf' s cs = Ok (lc', s2) -> nifs_same cs acc acc' cm_i cm_i' pf pf' ->
  exists pre1 pre2 rho1 rho2, snd s1 = pre1 ++ map FShort rho1 /\ snd s2 = pre2 ++ map FShort rho2 /\
    length rho1 = (2 * dp_K P - 1)%nat /\ length rho2 = (2 * dp_K P - 1)%nat /\
    (pre1 = pre2 -> acc = acc' /\ cm_i = cm_i' /\ pf = pf').
Proof. exact (nifs_rho_binds s s1 s2 P cs acc acc' cm_i cm_i' pf pf' lc lc'). Qed.
End C71.

(** * C72
    All calls of the LatticeFold+ verifier, and the parts of the proof they determine: the messages of all sumchecks, all
    evaluations but [de_v] and [de_b], and the commitments to [h].  The commitments to the witnesses, the points and the
    folded instance are not among them ([C72_commitments_absorbed_refuted]). *)
Section C72.
Context {K R C T : Type} {PO : POps K R} {TO : TransOps T R K} {p : Z} {PL : PLaws K R p}.
Theorem C72_schedule (s s' : T * list (fs_ev R K C)) M pp q b : plus_verify M pp q s = Ok (b, s') -> exists dl d, length dl = length (pp_l q) /\
  Forall (fun pd => length (fst (snd pd)) = rp_nvars (fst pd) /\ msgs_ok (rp_nvars (fst pd)) 3 (rp_sc (fst pd)) (snd (snd pd))) (combine (pp_l q) dl) /\
  cm_draws_ok (pp_cm q) d /\ snd s' = snd s ++ plus_sched q dl d.
Proof. exact (log_plus s s' M pp q b). Qed.
Theorem C72_messages_bound (s s1 s2 : T * list (fs_ev R K C)) M pp q q' b b' : plus_verify M pp q s = Ok (b, s1) -> plus_verify M pp q' s = Ok (b', s2) ->
  plus_same q q' -> snd s1 = snd s2 -> bare q = bare q'.
Proof. exact (plus_log_binds (p := p) s s1 s2 M pp q q' b b'). Qed.
End C72.
