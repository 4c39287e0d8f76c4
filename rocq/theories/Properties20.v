(** C102 to C104: small helpers, the folding verifier over the real transcript, the size of proofs. *)
From Coq Require Import String List Arith Lia ZArith Bool Znumtheory.
From Verif Require Import Prelude Alg Poly MLE MLE_Proofs Transcript Interp Sumcheck Sumcheck_Proofs Arith Arith_Proofs Balanced Rings Rings_Proofs Linearization Linearization_Proofs Relations
  Decomposition Decomposition_Proofs Folding Folding_Comb Folding_Proofs Folding_Complete NIFS NIFS_Proofs PlusRing SetCheck RangeCheck
  Challenge PolyInst Primes FieldExt CycInst RealRings Poseidon PoseidonParams Sponge_Proofs PTrans_Proofs SpongeBind PShipped Sampling FSLog FSReal ProofSize Properties1.
Import ListNotations.
Local Open Scope rs_scope.

(** * C102: helpers *)
Section Extract.
Context {R K T : Type} {RO : RingOps R} {KO : FieldOps K} {E : Embed K R} {TO : TransOps T R K} {LR : RingLaws R} {LK : FieldLaws K} {EL : EmbedLaws K R}.
(** The sum read off a proof is the one the verifier accepts it for, and no other. *)
Theorem C102_extract_sum (ts : T) n d claimed proof v : sc_verify ts n d claimed proof = Ok v -> extract_sum proof = Ok claimed.
Proof.
  unfold sc_verify. intros H. apply bind_ok_inv in H as ([[ms cs] t1] & E1 & H). destruct (Nat.eqb_spec n 0) as [|Hn]; [discriminate|]. apply bind_ok_inv in H as (e & E2 & _).
  destruct n as [|n]; [contradiction|]. cbn [verify_loop] in E1. destruct proof as [|m proof]; [discriminate|].
  destruct (get_challenge _) as [c t]. apply bind_ok_inv in E1 as ([[ms' cs'] t2] & _ & E1). apply ok_inj in E1. injection E1 as <- <- _. cbn [check_loop] in E2.
  destruct (negb _); [discriminate|]. destruct m as [|p0 [|p1 m]]; try discriminate. destruct (p0 + p1 =? claimed) eqn:Ec; [|discriminate]. cbn [extract_sum]. f_equal. apply req_true, Ec.
Qed.
Theorem C102_extract_honest (ts : T) (mles : list (mle R)) n d comb proof r ts' : (1 <= n)%nat -> (1 <= d)%nat -> char_gt K d -> comb_deg (length mles) d comb -> Forall (fun m => mle_nv m = n) mles ->
  sc_prove ts mles n d comb = Ok (proof, r, ts') -> extract_sum proof = Ok (cube_sum n (fun p => comb (mles_at mles p))).
Proof.
  intros H1 H2 H3 H4 H5 H. destruct (C11_sumcheck_complete ts mles n d comb H1 H2 H3 H4 H5) as (q & r' & t' & E1 & _ & _ & E2). rewrite H in E1. apply ok_inj in E1. injection E1 as <- <- <-.
  exact (C102_extract_sum _ _ _ _ _ _ E2).
Qed.
Theorem C102_extract_panics (proof : list (list R)) : extract_sum proof = Panic <-> proof = [] \/ (length (hd [] proof) < 2)%nat.
Proof.
  destruct proof as [|[|p0 [|p1 m]] proof]; cbn [extract_sum hd length]; (split; [intros H; try discriminate H; auto; right; lia|intros [H|H]; try discriminate H; try reflexivity; lia]).
Qed.
(** Evaluating a list of vectors: all or the first error. *)
Theorem C102_evaluate (ms : list (list R)) (p : list R) :
  evaluate_mles_vecref ms p = match find (fun m => negb (length m =? 2 ^ length p)%nat) ms with
    | Some m => Err (MleIncorrectLength (length p) (length m))
    | None => Ok (map (fun m => sumn (2 ^ length p) (fun b => nth b m 0 * eqw p b)) ms) end.
Proof.
  unfold evaluate_mles_vecref. induction ms as [|m ms IH]; [reflexivity|]. cbn [mapM find map]. rewrite (proj1 (proj2 (C10_mle_eval m p))).
  destruct (length m =? 2 ^ length p)%nat; cbn [negb bind]; [|reflexivity]. rewrite IH. destruct (find _ ms); reflexivity.
Qed.
End Extract.
(** Bits, least significant first. *)
Theorem C102_bits i n : bit_decompose i n = map (Nat.testbit i) (seq 0 n).
Proof.
  revert i. induction n as [|n IH]; intros i; [reflexivity|]. cbn [bit_decompose seq map]. rewrite IH, Nat.bit0_odd. f_equal. rewrite <- seq_shift, map_map. apply map_ext. intros j.
  rewrite <- Nat.div2_div, Nat.div2_spec. rewrite Nat.shiftr_spec by lia. f_equal. lia.
Qed.
(** Setting the index of the constant one changes nothing else, and nothing else changes it. *)
Theorem C102_one (vm : varmap) i : vm_one (vm_set_one vm i) = i /\ vm_total (vm_set_one vm i) = vm_total vm /\
  (forall name, vm_get (vm_set_one vm i) name = vm_get vm name) /\ (forall name a n, vm_one (vm_add vm name a n) = vm_one vm) /\ vm_one vm_new = 0%nat.
Proof. repeat split. Qed.
(** The sets of one range instance are those the prover checks for it. *)
Theorem C102_sets {K R} {PO : POps K R} (i : rg_inst K R) : ri_sets i = rg_sets [i].
Proof. unfold ri_sets, rg_sets. cbn [flat_map map]. rewrite app_nil_r. reflexivity. Qed.

Lemma Forall2_repeat {A} (Q : A -> A -> Prop) x n : Q x x -> Forall2 Q (repeat x n) (repeat x n).
Proof. intros H. induction n; cbn [repeat]; constructor; auto. Qed.

(** * C103: the Poseidon sponge binds the folding proof *)
Section Real.
Context {p : Z} {K : Type} (y : cyc p K) (decode : list Z -> result (list Z)) (need : nat) (c : poseidon_cfg) (RC : real_cfg p K y decode need c).
Notation R := (pol K (cy_k y)).
Notation C := (pol (fp p) (cy_d y)).
Local Instance tr20 : TransOps (wsponge (p := p) c) R K := pw_trans y decode need c RC.
Local Instance sh20 : ShortOps (wsponge (p := p) c) C := short_of y decode (pw_bytes y decode need c RC).
Local Instance so20 : SOps (fp p) K C R := cyc_ops y.
(** Two accepted runs of the verifier over the Poseidon transcript from one sponge, with statements and proofs of the same shape.  The runs are
    histories [h1], [h2] of the sponge followed by 2K-1 short challenges.  If the sponges from which the first short challenge is drawn are equal,
    or the sponges at the end are, the statements and the proofs are equal or the histories collide in the capacity part of the permutation. *)
Theorem C103_binds (ws0 ws1 ws2 : wsponge (p := p) c) P (cs : ccs R) acc acc' cm_i cm_i' pf pf' lc lc' :
  nifs_verify P acc cm_i pf ws0 cs = Ok (lc, ws1) -> nifs_verify P acc' cm_i' pf' ws0 cs = Ok (lc', ws2) -> nifs_same cs acc acc' cm_i cm_i' pf pf' ->
  exists h1 h2 : list (op y), let run := fun h => op_run y decode need c h (proj1_sig ws0) in let evs := fun h => events y decode need c h (proj1_sig ws0) in
    let rhos := repeat (OShort y) (2 * dp_K P - 1) in let same := acc = acc' /\ cm_i = cm_i' /\ pf = pf' in
    proj1_sig ws1 = run (h1 ++ rhos) /\ proj1_sig ws2 = run (h2 ++ rhos) /\
    (run h1 = run h2 -> same \/ collide c (evs h1) (evs h2) (proj1_sig ws0) (proj1_sig ws0)) /\
    (proj1_sig ws1 = proj1_sig ws2 -> same \/ collide c (evs (h1 ++ rhos)) (evs (h2 ++ rhos)) (proj1_sig ws0) (proj1_sig ws0)).
Proof.
  intros H H' N. destruct (real_binds y decode need c RC ws0 P cs acc acc' cm_i cm_i' pf pf' lc lc' ws1 ws2 H H' N) as (h1 & h2 & E1 & E2 & HK & HB). exists h1, h2. cbv zeta in *.
  split; [exact E1|]. split; [exact E2|]. split.
  - intros E. destruct (transcript_binding y decode need c RC h1 h2 _ (proj2_sig ws0) HK E) as [X|X]; auto.
  - intros E. rewrite E1, E2 in E. destruct (transcript_binding y decode need c RC _ _ _ (proj2_sig ws0) (Forall2_app HK (Forall2_repeat (op_kind y) (OShort y) _ I)) E) as [X|X]; auto.
    left. apply HB. apply app_inv_tail in X. exact X.
Qed.
End Real.

(** * C104: the size of a proof *)
Section Size.
Context {F K C R T : Type} {SO : SOps F K C R} {p : Z} {SL : SLaws F K C R p} {TO : TransOps T R K} {HO : ShortOps T C}.
(** The honest proof has [s(d+2) + s(2b+1)] elements in sumchecks, [2K(l+1+kappa)] in digits of the public input and commitments, and
    [(4K+1)(tau+t)] evaluations, whatever the witnesses are; [2^s] is the number of rows of the CCS. *)
Theorem C104_size P (A : ajtai R) (cs : ccs R) acc (w_acc : witness C R) cm_i w_i (ts : T) lc w pf ts' :
  sizes_ok p P cs -> lcccs_rel P A cs acc w_acc -> cccs_rel P A cs cm_i w_i ->
  nifs_prove P acc w_acc cm_i w_i ts cs A = Ok (lc, w, pf, ts') ->
  (length (concat (lp_sc (lf_lin pf))) = c_s cs * (c_d cs + 2) /\ length (lp_v (lf_lin pf)) = tau /\ length (lp_u (lf_lin pf)) = c_t cs /\
   (forall q, q = lf_dec_l pf \/ q = lf_dec_r pf -> length (concat (dp_xs q)) = dp_K P * (c_l cs + 1) /\ length (concat (dp_ys q)) = dp_K P * kappa A /\
      length (concat (dp_us q)) = dp_K P * c_t cs /\ length (concat (dp_vs q)) = dp_K P * tau) /\
   length (concat (fp_sc (lf_fold pf))) = c_s cs * (2 * dp_b P + 1) /\ length (concat (fp_theta (lf_fold pf))) = 2 * dp_K P * tau /\
   length (concat (fp_eta (lf_fold pf))) = 2 * dp_K P * c_t cs /\ 2 ^ c_s cs = c_m cs)%nat.
Proof.
  intros HS Ra Ri H. pose proof (nifs_prove_sized P acc w_acc cm_i w_i ts cs A lc w pf ts' HS Ra Ri H) as N. assert (length (c_M cs) = c_t cs) as Ht by apply HS.
  destruct N as [[L1 L2 L3] [X1 X2 X3 X4] [Y1 Y2 Y3 Y4] [F1 F2 F3]].
  split; [exact (all_len_size _ _ _ L1)|]. split; [exact L2|]. split; [congruence|]. split.
  - intros q [->| ->]; rewrite <- Ht; repeat split; apply all_len_size; auto.
  - rewrite <- Ht. split; [exact (all_len_size _ _ _ F1)|]. split; [exact (all_len_size _ _ _ F2)|]. split; [exact (all_len_size _ _ _ F3)|]. symmetry. apply HS.
Qed.
(** In total; the terms that grow with the CCS are the logarithm of its rows, its public input and its number of matrices. *)
Theorem C104_total P (A : ajtai R) (cs : ccs R) acc (w_acc : witness C R) cm_i w_i (ts : T) lc w pf ts' :
  sizes_ok p P cs -> lcccs_rel P A cs acc w_acc -> cccs_rel P A cs cm_i w_i ->
  nifs_prove P acc w_acc cm_i w_i ts cs A = Ok (lc, w, pf, ts') ->
  (lf_size pf = Nat.log2 (c_m cs) * (c_d cs + 2 * dp_b P + 3) + 2 * dp_K P * (c_l cs + 1 + kappa A) + (4 * dp_K P + 1) * (tau + c_t cs))%nat.
Proof.
  intros HS Ra Ri H. pose proof (nifs_prove_sized P acc w_acc cm_i w_i ts cs A lc w pf ts' HS Ra Ri H) as N.
  rewrite (sized_size P A cs pf) by (auto; apply HS). assert (c_m cs = 2 ^ c_s cs)%nat as -> by apply HS. rewrite Nat.log2_pow2 by lia. auto.
Qed.
(** Honest proofs for two statements about one CCS have the same shape, so C103 applies to them. *)
Theorem C104_same_shape P (A : ajtai R) (cs : ccs R) acc acc' (w_acc w_acc' : witness C R) cm_i cm_i' w_i w_i' (ts ts0 : T) lc w pf ts' lc' w' pf' ts0' :
  sizes_ok p P cs -> lcccs_rel P A cs acc w_acc -> cccs_rel P A cs cm_i w_i -> lcccs_rel P A cs acc' w_acc' -> cccs_rel P A cs cm_i' w_i' ->
  nifs_prove P acc w_acc cm_i w_i ts cs A = Ok (lc, w, pf, ts') -> nifs_prove P acc' w_acc' cm_i' w_i' ts0 cs A = Ok (lc', w', pf', ts0') ->
  nifs_same cs acc acc' cm_i cm_i' pf pf'.
Proof.
  intros HS Ra Ri Ra' Ri' H H'. pose proof (nifs_prove_sized P acc w_acc cm_i w_i ts cs A lc w pf ts' HS Ra Ri H) as N. pose proof (nifs_prove_sized P acc' w_acc' cm_i' w_i' ts0 cs A lc' w' pf' ts0' HS Ra' Ri' H') as N'.
  destruct N as [[L1 L2 L3] D1 D2 [F1 F2 F3]], N' as [[L1' L2' L3'] D1' D2' [F1' F2' F3']].
  destruct (opens_facts _ _ _ _ _ HS (lr_open _ _ _ _ _ Ra)) as (A1 & _). destruct (opens_facts _ _ _ _ _ HS (lr_open _ _ _ _ _ Ra')) as (A1' & _).
  destruct (opens_facts _ _ _ _ _ HS (cr_open _ _ _ _ _ Ri)) as (I1 & _). destruct (opens_facts _ _ _ _ _ HS (cr_open _ _ _ _ _ Ri')) as (I1' & _).
  assert (forall q q', dec_sized P A cs q -> dec_sized P A cs q' -> dec_full q /\ dec_full q' /\ dec_same q q') as DS.
  { clear. intros q q' [X1 X2 X3 X4] [Y1 Y2 Y3 Y4]. unfold dec_full, dec_same, same_len. repeat match goal with |- _ /\ _ => split end; try (eapply all_len_eq; eauto; fail);
      match goal with H1 : all_len _ _ ?a, H2 : all_len _ _ ?b |- length ?a = length ?b => rewrite (proj1 H1), (proj1 H2); auto end. }
  split; try congruence; auto.
  - rewrite (lr_r _ _ _ _ _ Ra), (lr_r _ _ _ _ _ Ra'). auto.
  - rewrite (lr_v _ _ _ _ _ Ra), (lr_v _ _ _ _ _ Ra'), !map_length. auto.
  - rewrite (lr_u _ _ _ _ _ Ra), (lr_u _ _ _ _ _ Ra'), !map_length. auto.
  - rewrite (lr_x _ _ _ _ _ Ra), (lr_x _ _ _ _ _ Ra'). auto.
  - rewrite (cr_x _ _ _ _ _ Ri), (cr_x _ _ _ _ _ Ri'). auto.
  - split; [apply L1|apply L1'].
  - split; [apply F1|apply F1'].
  - eapply all_len_eq; eauto.
  - eapply all_len_eq; eauto.
Qed.
End Size.
