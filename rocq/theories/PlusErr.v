(** Soundness errors of the LatticeFold+ subprotocols, by counting challenge vectors (see [SoundErr] for the setting), and a prover
    that reaches one challenge in [|S|]. *)
From Coq Require Import String List Arith Lia ZArith Bool Ring.
From Verif Require Import Prelude Alg Poly MLE MLE_Proofs Zippel Counting Transcript Interp Interp_Proofs Sumcheck Sumcheck_Proofs CombDeg Arith Arith_Proofs
  Balanced Linearization_Proofs Folding_Sound Rings Rings_Proofs PlusRing PlusUtils_Proofs SetCheck SetCheck_Proofs SetCheck_Sound
  RangeCheck RangeCheck_Proofs RangeCheck_Sound Cm Cm_Proofs Plus Plus_Sound Decomposition_Proofs SoundErr Properties4.
Import ListNotations.
Local Open Scope rs_scope.

Section G.
Context {R K : Type} {RO : RingOps R} {KO : FieldOps K} {E : Embed K R} {LR : RingLaws R} {LK : FieldLaws K} {EL : EmbedLaws K R}.
Add Ring Rring88 : (@rlaws_th R _ LR).
Add Ring Kring88 : (@rlaws_th K _ (fld_laws (FieldLaws := LK))).
#[local] Existing Instance coin_trans.

Lemma nth_skipn_firstn {A} a i n (x : list A) d : (i < n)%nat -> nth i (firstn n (skipn a x)) d = nth (a + i) x d.
Proof.
  intros Hi. revert x; induction a as [|a IH]; intros x.
  - cbn [skipn Nat.add]. revert i n Hi; induction x as [|y x IH]; intros i n Hi; [rewrite firstn_nil; destruct i; auto|].
    destruct n; [lia|]. destruct i; auto. cbn [firstn nth]. apply IH. lia.
  - destruct x as [|y x]; [rewrite skipn_nil, firstn_nil; destruct i; auto|]. cbn [skipn Nat.add nth]. apply IH.
Qed.
Lemma skipn_firstn_add {A} a i (x : list A) : skipn a (firstn (a + i) x) = firstn i (skipn a x).
Proof. rewrite skipn_firstn_comm. f_equal. lia. Qed.
Lemma firstn_add_firstn {A} a i (x : list A) : firstn a (firstn (a + i) x) = firstn a x.
Proof. rewrite firstn_firstn. f_equal. lia. Qed.

(** A bad coordinate of the block of [n] coins after coin [a]; the table may depend on the coins before. *)
Lemma few_coord_at N a n (S : list K) (t : list K -> nat -> R) : (a + n <= N)%nat ->
  few (fun x => In x (tuples N S) /\ bad_coord (t (firstn a x)) (firstn n (skipn a x))) (n * length S ^ (N - 1)).
Proof.
  intros HN. eapply few_weaken; [|apply Nat.eq_le_incl|
    apply (few_block S N a n (fun i pre c =>
      vanishes_at (t (firstn a pre)) (map emb (skipn a pre)) (n - 1 - i) (emb c) /\
      forall bad : list K, NoDup bad -> (forall c, In c bad -> vanishes_at (t (firstn a pre)) (map emb (skipn a pre)) (n - 1 - i) (emb c)) -> (length bad <= 1)%nat) 1); auto].
  - intros x [Hx (i & Hi & _ & Hv & Hall)]. split; auto. apply in_tuples in Hx as [Hl _].
    assert (length (firstn n (skipn a x)) = n) as Ln by (rewrite firstn_length, skipn_length; lia). rewrite Ln in *.
    exists i. split; auto. rewrite firstn_add_firstn, skipn_firstn_add. rewrite nth_skipn_firstn in Hv by auto.
    rewrite firstn_firstn, Nat.min_l in Hv, Hall by lia. auto.
  - lia.
  - intros i pre Hi _. apply few_if. intros c0 (_ & _ & Hall) L HL HF. apply Hall; auto.
    rewrite Forall_forall in HF. intros c Hc. apply HF in Hc as (_ & Hc & _). auto.
Qed.
(** A bad batching value among the first [n] coins. *)
Lemma few_batch N (S : list K) D (G : list R -> R) (ref : list K) n : (n <= N)%nat ->
  few (fun x => In x (tuples N S) /\ bad_batch D G ref (firstn n x)) (n * D * length S ^ (N - 1)).
Proof.
  intros HN. eapply few_weaken; [|apply le_n|
    apply (few_block S N 0 n (fun t pre c =>
      G (map emb pre ++ emb c :: map emb (skipn (Datatypes.S t) ref)) = 0 /\
      forall bad : list K, NoDup bad -> (forall y, In y bad -> G (map emb pre ++ emb y :: map emb (skipn (Datatypes.S t) ref)) = 0) -> (length bad <= D)%nat) D); lia || auto].
  - intros x [Hx (t & Ht & _ & Hb)]. split; auto. apply in_tuples in Hx as [Hl _]. rewrite firstn_length, Nat.min_l in Ht by lia.
    exists t. split; auto. cbn [Nat.add]. rewrite firstn_firstn, Nat.min_l in Hb by lia.
    pose proof (nth_skipn_firstn 0 t n x 0 Ht) as Ex. cbn [skipn Nat.add] in Ex. rewrite Ex in Hb. tauto.
  - intros i pre Hi _. apply few_if. intros c0 (_ & _ & Hall) L HL HF. apply Hall; auto.
    rewrite Forall_forall in HF. intros c Hc. apply HF in Hc as (_ & Hc & _). auto.
Qed.

(** ** A prover that guesses one challenge *)
(** The honest message of a round. *)
Definition hmsg (d : nat) (g : list R -> R) (pre : list R) (k : nat) : list R := map (fun j => true_round g pre k (rofn j)) (seq 0 (d + 1)).
(** A first message for the claim [claimed] which agrees with the honest one at [c]. *)
Definition cheat_poly (c : K) (claimed : R) (g : list R -> R) (k : nat) (y : R) : R :=
  true_round g [] k y + (claimed - cube_sum (S k) g) * emb (finv (1 - c - c)) * (y - emb c).
Definition cheater (c : K) (claimed : R) (d a n : nat) (g : list K -> list R -> R) (pre : list K) : list R :=
  match (length pre - a)%nat with
  | O => map (fun j => cheat_poly c claimed (g (firstn a pre)) (n - 1) (rofn j)) (seq 0 (d + 1))
  | i => hmsg d (g (firstn a pre)) (map emb (skipn a pre)) (n - 1 - i)
  end.

Lemma seq_head (f : nat -> R) d : (1 <= d)%nat -> exists tl, map f (seq 0 (d + 1)) = f 0%nat :: f 1%nat :: tl.
Proof. intros Hd. replace (d + 1)%nat with (S (S (d - 1))) by lia. cbn [seq map]. eauto. Qed.

Lemma check_step (h : R -> R) d c msgs cs : (1 <= d)%nat -> char_gt K d -> deg_le d h ->
  check_loop d (map (fun j => h (rofn j)) (seq 0 (d + 1)) :: msgs) (c :: cs) (h 0 + h 1) = check_loop d msgs cs (h (emb c)).
Proof.
  intros Hd Hc Hh. cbn [check_loop]. rewrite map_length, seq_length, Nat.eqb_refl. cbn [negb].
  destruct (seq_head (fun j => h (rofn j)) d Hd) as (tl & Etl). rewrite Etl at 1. rewrite rofn_0, rofn_1, req_refl. cbn [negb].
  rewrite map_rofn_nodes by auto. cbn [bind]. auto.
Qed.
Fixpoint hmsgs (d : nat) (g : list R -> R) (pre : list R) (cs : list K) : list (list R) :=
  match cs with [] => [] | c :: cs => hmsg d g pre (length cs) :: hmsgs d g (pre ++ [emb c]) cs end.
Lemma check_honest n d g : (1 <= d)%nat -> char_gt K d -> var_deg n d g ->
  forall cs pre, (length pre + length cs)%nat = n ->
  check_loop d (hmsgs d g pre cs) cs (cube_sum (length cs) (fun suf => g (pre ++ suf))) = Ok (g (pre ++ map emb cs)).
Proof.
  intros Hd Hc Hg. induction cs as [|c cs IH]; intros pre Hl.
  - cbn [hmsgs check_loop length map]. rewrite cube_sum_0. auto.
  - cbn [hmsgs length] in *. rewrite <- true_round_sum. unfold hmsg. rewrite check_step; auto; [|apply (true_round_deg n); auto].
    rewrite true_round_next, IH by (rewrite app_length; cbn; lia). cbn [map]. rewrite <- app_assoc. auto.
Qed.
Lemma hmsgs_map d g : forall cs pre,
  hmsgs d g pre cs = map (fun i => hmsg d g (pre ++ map emb (firstn i cs)) (length cs - 1 - i)) (seq 0 (length cs)).
Proof.
  induction cs as [|c cs IH]; intros pre; auto. cbn [hmsgs length seq map firstn]. rewrite app_nil_r. f_equal; [f_equal; lia|].
  rewrite IH, <- seq_shift, map_map. apply map_ext. intros i. cbn [firstn map]. rewrite <- app_assoc. cbn [app]. f_equal. lia.
Qed.
Lemma coin_verify_loop_fwd k : forall (ts : list K) (proof : list (list R)), (k <= length ts)%nat -> (k <= length proof)%nat ->
  verify_loop k ts proof = Ok (firstn k proof, firstn k ts, skipn k ts).
Proof.
  induction k as [|k IH]; intros ts proof H1 H2; cbn [verify_loop firstn skipn]; auto.
  destruct proof as [|m proof]; [cbn in H2; lia|]. destruct ts as [|c ts]; [cbn in H1; lia|]. cbn [length] in *.
  rewrite coin_absorb_slice. cbn [get_challenge coin_trans hd tl absorb]. rewrite IH by lia. cbn [bind]. auto.
Qed.

(** If the first coin of the sumcheck is [c] then the cheater is believed, whatever it claims. *)
Lemma sc_cheat n d (g : list K -> list R -> R) a c claimed x : (1 <= n)%nat -> (1 <= d)%nat -> char_gt K d ->
  (forall pre, var_deg n d (g pre)) -> 1 - c - c <> 0 -> (a + n <= length x)%nat -> nth a x 0 = c ->
  let r := firstn n (skipn a x) in
  sc_verify (skipn a x) n d claimed (sc_messages (cheater c claimed d a n g) a n x) = Ok (r, g (firstn a x) (map emb r), skipn (a + n) x).
Proof.
  intros Hn Hd Hc Hg H2c Hx Ex r. unfold sc_verify. cbn [absorb coin_trans].
  assert (length (sc_messages (cheater c claimed d a n g) a n x) = n) as Lm by (unfold sc_messages; rewrite map_length, seq_length; auto).
  rewrite coin_verify_loop_fwd by (rewrite ?skipn_length; lia). cbn [bind].
  destruct (Nat.eqb_spec n 0); [lia|]. rewrite firstn_all2 by lia. fold r. rewrite skipn_skipn', (Nat.add_comm n a).
  destruct n as [|m]; [lia|]. set (g0 := g (firstn a x)).
  assert (r = c :: firstn m (skipn (S a) x)) as Er.
  { unfold r. destruct (skipn a x) as [|y z] eqn:Es; [apply (f_equal (@length _)) in Es; rewrite skipn_length in Es; cbn in Es; lia|].
    cbn [firstn]. f_equal.
    - rewrite <- Ex, <- (firstn_skipn a x), Es, app_nth2; rewrite firstn_length, Nat.min_l by lia; [|lia]. rewrite Nat.sub_diag. auto.
    - f_equal. change z with (skipn 1 (y :: z)). rewrite <- Es, skipn_skipn'. auto. }
  set (z := firstn m (skipn (S a) x)) in *. assert (length z = m) as Lz by (unfold z; rewrite firstn_length, skipn_length; lia).
  assert (sc_messages (cheater c claimed d a (S m) g) a (S m) x =
    map (fun j => cheat_poly c claimed g0 m (rofn j)) (seq 0 (d + 1)) :: hmsgs d g0 [emb c] z) as ->.
  { unfold sc_messages. cbn [seq map]. f_equal.
    - unfold cheater. rewrite firstn_length, Nat.add_0_r, Nat.min_l, Nat.sub_diag by lia. rewrite firstn_firstn, Nat.min_id. cbn [Nat.sub]. rewrite Nat.sub_0_r. auto.
    - rewrite hmsgs_map, Lz, <- seq_shift, map_map. apply map_ext_in. intros i Hi. apply in_seq in Hi. unfold cheater.
      assert (length (firstn (a + S i) x) - a = S i)%nat as -> by (rewrite firstn_length; lia).
      rewrite firstn_add_firstn, skipn_firstn_add. fold g0. f_equal; [|lia].
      assert (firstn (S i) (skipn a x) = c :: firstn i z) as ->; [|reflexivity].
      transitivity (firstn (S i) r); [unfold r; rewrite firstn_firstn; f_equal; lia|]. rewrite Er. auto. }
  rewrite Er at 1. 
  assert (cheat_poly c claimed g0 m 0 + cheat_poly c claimed g0 m 1 = claimed) as Ecl.
  { unfold cheat_poly. set (D := claimed - cube_sum (S m) g0). set (i := emb (finv (1 - c - c)) : R).
    transitivity (true_round g0 [] m 0 + true_round g0 [] m 1 + D * (i * (1 - emb c - emb c))); [ring|].
    rewrite true_round_sum. assert (i * (1 - emb c - emb c) = 1) as ->; [|unfold D; ring_simplify; rewrite (cube_sum_ext _ (fun suf => g0 ([] ++ suf)) g0) by auto; ring].
    transitivity (emb ((1 - c - c) * finv (1 - c - c)) : R).
    - rewrite (hom_mul (emb : K -> R) emb_hom), !(hom_sub (emb : K -> R) emb_hom), (hom_1 (emb : K -> R) emb_hom). unfold i. ring.
    - rewrite finv_r by auto. apply (hom_1 (emb : K -> R) emb_hom). }
  rewrite <- Ecl at 1. rewrite check_step; auto.
  2:{ unfold cheat_poly. apply deg_le_add; [apply (true_round_deg (S m)); [apply Hg|auto]|].
      eapply deg_le_mono; [|apply (deg_le_mul 0 1); [apply deg_le_const|apply deg_le_sub; [apply deg_le_id|apply deg_le_const]]]. lia. }
  assert (cheat_poly c claimed g0 m (emb c) = cube_sum (length z) (fun suf => g0 ([emb c] ++ suf))) as ->.
  { unfold cheat_poly. rewrite true_round_next, Lz. cbn [app]. ring. }
  rewrite (check_honest (S m) d g0 Hd Hc (Hg _)) by (cbn; lia). cbn [bind]. rewrite Er. reflexivity.
Qed.

(** The sumcheck error is at least one challenge in [|S|]. *)
Theorem sumcheck_error_low n d (g : list R -> R) (claimed : R) (S : list K) c : (1 <= n)%nat -> (1 <= d)%nat -> char_gt K d -> var_deg n d g ->
  NoDup S -> In c S -> 1 - c - c <> 0 ->
  exists (P : list K -> list R) L, NoDup L /\ length L = (length S ^ (n - 1))%nat /\
    Forall (fun x => In x (tuples n S) /\
      exists r e ts', sc_verify x n d claimed (sc_messages P 0 n x) = Ok (r, e, ts') /\ e = g (map emb r)) L.
Proof.
  intros Hn Hd Hc Hg HS Hin H2c. exists (cheater c claimed d 0 n (fun _ => g)), (map (cons c) (tuples (n - 1) S)).
  split; [|split].
  - apply FinFun.Injective_map_NoDup; [intros u v Euv; congruence|]. apply tuples_NoDup; auto.
  - rewrite map_length. apply tuples_length.
  - apply Forall_map, Forall_forall. intros x Hx. pose proof Hx as Hx'. apply in_tuples in Hx' as [Lx Fx]. split.
    + apply in_tuples. split; [cbn; lia|]. constructor; auto.
    + do 3 eexists. split; [|reflexivity].
      apply (sc_cheat n d (fun _ => g) 0 c claimed (c :: x)); auto. cbn [length]. lia.
Qed.
End G.

Section P.
Context {K R : Type} {PO : POps K R} {p : Z} {PL : PLaws K R p}.
Add Ring Rring89 : (@rlaws_th R _ (pl_R (p := p))).
Add Ring Kring89 : (@rlaws_th K _ (fld_laws (FieldLaws := pl_K (p := p)))).
#[local] Existing Instance coin_trans.

(** ** C101: the linearization *)
(** The R1CS holds in the first [2^n] rows. *)
Definition r1cs_holds (rc : r1cs R) (f : list R) (n : nat) : Prop :=
  forall i, (i < 2 ^ n)%nat -> mz (r_A rc) f i * mz (r_B rc) f i = mz (r_C rc) f i.
(** The verifier accepts a proof whose evaluations at the sumcheck point are those of [f]; the sumcheck draws coins [n] to [2n-1]. *)
Definition lin_fooled (rc : r1cs R) (f : list R) (n : nat) (pf : r1cs_proof R) (x : list K) : Prop :=
  let point := firstn n (skipn n x) in
  (exists ts', Plus.lin_verify pf x = Ok (true, ts')) /\
  rp_va pf = open_mul point (r_A rc) f /\ rp_vb pf = open_mul point (r_B rc) f /\ rp_vc pf = open_mul point (r_C rc) f.
(** A prover of the linearization: its sumcheck messages depend on the coins before them, everything else on all coins. *)
Record lin_strategy := LinStrategy { ls_msg : list K -> list R; ls_rest : list K -> r1cs_proof R }.
Definition lin_play (n : nat) (st : lin_strategy) (x : list K) : r1cs_proof R :=
  let q := ls_rest st x in R1csProof (sc_messages (ls_msg st) n n x) n (rp_r q) (rp_v q) (rp_va q) (rp_vb q) (rp_vc q).

Theorem lin_error (rc : r1cs R) (f : list R) n e (st : lin_strategy) (S : list K) : char_gt K 3 -> ~ r1cs_holds rc f n ->
  few (fun x => In x (tuples (2 * n + e) S) /\ lin_fooled rc f n (lin_play n st x) x) (4 * n * length S ^ (2 * n + e - 1)).
Proof.
  intros Hc Hno. set (N := (2 * n + e)%nat).
  eapply few_weaken; [|apply Nat.eq_le_incl|apply few_or;
    [apply (few_coord_at N 0 n S (fun _ => r1cs_gap rc f)); unfold N; lia
    |apply (few_sc_bad n 3 (ls_msg st) n N S (fun pre => lin_poly rc f pre)); unfold N; lia]].
  - intros x [Hx ((ts' & HV) & Ha & Hb & Hcc)]. pose proof Hx as Hx'. apply in_tuples in Hx' as [Lx _].
    pose proof (plus_lin_sound (p := p) rc f (lin_play n st x) x ts' Hc HV) as H. cbn [lin_play rp_nvars] in H.
    rewrite coin_challenges in H by (unfold N in Lx; lia). cbv zeta in H. destruct H as (point & s & ts2 & Hsc & Lp & H).
    pose proof Hsc as Hsc'. apply coin_sc_verify in Hsc' as [Ep _]; [|rewrite skipn_length; unfold N in Lx; lia]. subst point.
    destruct (H Ha Hb Hcc) as [H'|[H'|H']]; [destruct (Hno H')|left|right]; split; auto.
  - unfold N. lia.
Qed.

(** The guessing prover against the linearization: it knows [f], sends the true evaluations, and is believed on one in [|S|] coin vectors,
    whether or not the R1CS holds. *)
Definition lin_cheater (c : K) (rc : r1cs R) (f : list R) (n : nat) : lin_strategy :=
  LinStrategy (cheater c 0 3 n n (fun pre => lin_poly rc f pre))
    (fun x => let point := firstn n (skipn n x) in
      R1csProof [] n [] 0 (open_mul point (r_A rc) f) (open_mul point (r_B rc) f) (open_mul point (r_C rc) f)).
Theorem lin_error_low (rc : r1cs R) (f : list R) n (S : list K) c : char_gt K 3 -> (1 <= n)%nat -> NoDup S -> In c S -> 1 - c - c <> 0 ->
  exists L, NoDup L /\ length L = (length S ^ (2 * n - 1))%nat /\
    Forall (fun x => In x (tuples (2 * n) S) /\ lin_fooled rc f n (lin_play n (lin_cheater c rc f n) x) x) L.
Proof.
  intros Hc Hn HS Hin H2c.
  exists (map (fun z => firstn n z ++ c :: skipn n z) (tuples (2 * n - 1) S)). split; [|split].
  - apply (map_nodup_on _ (fun z => length z = (2 * n - 1)%nat)); [|apply Forall_forall; intros z Hz; apply in_tuples in Hz; tauto|apply tuples_NoDup; auto].
    intros y z Ly Lz Eq. apply app_split_len in Eq as [E1 E2]; [|rewrite !firstn_length; lia]. injection E2 as E2.
    rewrite <- (firstn_skipn n y), <- (firstn_skipn n z). congruence.
  - rewrite map_length. apply tuples_length.
  - apply Forall_map, Forall_forall. intros z Hz. apply in_tuples in Hz as [Lz Fz]. rewrite <- (firstn_skipn n z) in Fz. apply Forall_app in Fz as [F1 F2].
    set (x := firstn n z ++ c :: skipn n z).
    assert (length x = (2 * n)%nat) as Lx by (unfold x; rewrite app_length; cbn [length]; rewrite firstn_length, skipn_length; lia).
    split; [apply in_tuples; split; auto; apply Forall_app; auto|].
    unfold lin_fooled. cbv zeta. set (point := firstn n (skipn n x)). cbn [lin_play lin_cheater ls_rest ls_msg rp_va rp_vb rp_vc]. split; [|auto].
    assert (firstn n x = firstn n z) as Er.
    { unfold x. rewrite firstn_app, firstn_firstn, Nat.min_id, firstn_length, Nat.min_l, Nat.sub_diag by lia. cbn [firstn]. apply app_nil_r. }
    assert (length point = n) as Lp by (unfold point; rewrite firstn_length, skipn_length; lia).
    eexists. unfold Plus.lin_verify. cbn [rp_nvars rp_sc rp_va rp_vb rp_vc lin_play lin_cheater ls_rest ls_msg]. rewrite coin_challenges by lia.
    rewrite (sc_cheat n 3 (fun pre => lin_poly rc f pre) n c 0 x); auto; try lia.
    + cbn [unwrap bind]. rewrite eq_eval_spec, !map_length, firstn_length, Nat.min_l by lia. fold point. rewrite Lp, Nat.eqb_refl. cbn [unwrap bind].
      assert (eqp (map emb (firstn n x)) (map emb point) * (open_mul point (r_A rc) f * open_mul point (r_B rc) f - open_mul point (r_C rc) f) =
        lin_poly rc f (firstn n x) (map emb point)) as ->.
      { unfold lin_poly, open_mul. rewrite mle_spec_eqw by (rewrite !map_length, firstn_length; lia).
        rewrite (eqp_sym (map emb point)) by (rewrite !map_length, firstn_length; lia). reflexivity. }
      rewrite req_refl. reflexivity.
    + intros pre. apply cdeg_var_deg. apply (cdeg_mul 1 2); [apply mle_spec_cdeg|]. apply cdeg_sub; [apply (cdeg_mul 1 1); apply mle_spec_cdeg|].
      eapply cdeg_mono; [|apply mle_spec_cdeg]. lia.
    + unfold x. rewrite app_nth2; rewrite firstn_length, Nat.min_l by lia; [|lia]. rewrite Nat.sub_diag. auto.
Qed.

(** ** C99: the set check *)
(** The challenges of the claims and the batching challenge, read off the list of all challenges. *)
Fixpoint cba_of (m n : nat) (cs : list K) : list (list K * K * K) :=
  match m with
  | O => []
  | S m => (firstn n cs, nth n cs 0, nth (n + 1) cs 0) :: cba_of m n (skipn (n + 2) cs)
  end.
Definition rc_of (m n w : nat) (cs : list K) : option K := if (1 <? w)%nat then Some (nth (m * (n + 2)) cs 0) else None.
Lemma cba_of_cvec n : forall cba tl, Forall (fun x : list K * K * K => length (fst (fst x)) = n) cba ->
  cba_of (length cba) n (flat_map (fun x => fst (fst x) ++ [snd (fst x); snd x]) cba ++ tl) = cba.
Proof.
  intros cba tl H. induction H as [|[[c b] a] cba Hc H IH]; auto. cbn [length cba_of flat_map fst snd] in *.
  rewrite <- !app_assoc. cbn [app].
  assert (forall u : list K, firstn n (c ++ u) = c) as Ef.
  { intros u. rewrite firstn_app, <- Hc, firstn_all, Nat.sub_diag. cbn. apply app_nil_r. }
  rewrite Ef. rewrite !app_nth2 by lia. rewrite Hc, Nat.sub_diag. replace (n + 1 - n)%nat with 1%nat by lia. cbn [nth]. f_equal.
  etransitivity; [|exact IH]. f_equal. rewrite skipn_app, skipn_all2 by lia. rewrite Hc. replace (n + 2 - n)%nat with 2%nat by lia. reflexivity.
Qed.
Lemma flat_cba_length n (cba : list (list K * K * K)) : Forall (fun x => length (fst (fst x)) = n) cba ->
  length (flat_map (fun x => fst (fst x) ++ [snd (fst x); snd x]) cba) = (length cba * (n + 2))%nat.
Proof. induction 1 as [|y cba H _ IH]; auto. cbn [flat_map length]. rewrite !app_length, IH, H. cbn [length]. lia. Qed.
(** What a run of the loop draws, on any transcript. *)
Definition n_batch (m n w : nat) : nat := (m * (n + 2) + (if (1 <? w)%nat then 1 else 0))%nat.
Lemma cba_cvec {T} {TO : TransOps T R K} m n w (ts : T) cba ts1 rc ts2 :
  cba_loop m n ts = (cba, ts1) -> opt_challenge w ts1 = (rc, ts2) ->
  get_challenges ts (n_batch m n w) = (sc_cvec cba rc, ts2) /\ cba = cba_of m n (sc_cvec cba rc) /\ rc = rc_of m n w (sc_cvec cba rc).
Proof.
  intros E1 E2. pose proof (C62_challenges n m w ts) as H. 
  pose proof (cba_loop_wf m n ts) as HW. rewrite E1 in H, HW. rewrite E2 in H. destruct HW as [Lc Fc].
  unfold n_batch, sc_cvec. rewrite flat_map_concat_map. split; [exact H|]. rewrite <- flat_map_concat_map. split.
  - rewrite <- Lc at 1. symmetry. apply cba_of_cvec. auto.
  - unfold rc_of, opt_challenge in *. destruct (1 <? w)%nat; [|injection E2 as <- <-; auto].
    destruct (get_challenge ts1) as [c t]. injection E2 as <- <-. pose proof (flat_cba_length n cba Fc) as HF. rewrite Lc in HF. rewrite app_nth2 by (rewrite HF; lia). rewrite HF, Nat.sub_diag. auto.
Qed.

(** The point of the sumcheck inside the set check. *)
Definition set_point {T} {TO : TransOps T R K} (n m w : nat) (o : sc_out K R) (ts : T) (point : list K) : Prop :=
  let '(_, ts1) := cba_loop m n ts in
  let '(_, ts2) := opt_challenge w ts1 in
  exists v ts3, sc_verify ts2 n 3 0 (so_sc o) = Ok (point, v, ts3).
(** The verifier accepts a proof whose evaluations are those of the given columns and vectors at the point. *)
Definition set_fooled {T} {TO : TransOps T R K} (n : nat) (cols : list (list (list R))) (vecs : list (list R)) (o : sc_out K R) (ts : T) : Prop :=
  so_nvars o = n /\ (exists ts', set_verify o ts = Ok ts') /\
  exists point, set_point n (length cols + length vecs) (length cols) o ts point /\
    nth 0 (so_e o) [] = map (map (open point)) cols /\ so_b o = map (open point) vecs.
(** A prover of the set check. *)
Record set_strategy := SetStrategy { ss_msg : list K -> list R; ss_rest : list K -> sc_out K R }.
Definition set_play (n M : nat) (st : set_strategy) (x : list K) : sc_out K R :=
  let q := ss_rest st x in ScOut n (so_r q) (sc_messages (ss_msg st) M n x) (so_e q) (so_b q).

(** The sets are of the right sizes. *)
Definition set_sizes (n nc : nat) (cols : list (list (list R))) (vecs : list (list R)) : Prop :=
  Forall (fun cl => (length (cl_cols cl) <= nc)%nat /\ Forall (fun col => (length col <= 2 ^ n)%nat) (cl_cols cl)) (claims cols vecs).

Lemma set_fooled_bad n (cols : list (list (list R))) vecs nc (pts : list K) :
  NoDup pts -> (Nat.max (2 * pdim - 1) (Nat.max nc (length cols + length vecs)) <= length pts)%nat -> char_gt K 3 ->
  set_sizes n nc cols vecs -> Exists claim_bad (claims cols vecs) ->
  let m := (length cols + length vecs)%nat in let w := length cols in
  exists ref, forall T (TO : TransOps T R K) (o : sc_out K R) (ts : T), set_fooled n cols vecs o ts ->
    let '(cs, ts2) := get_challenges ts (n_batch m n w) in
    exists point v ts3, sc_verify ts2 n 3 0 (so_sc o) = Ok (point, v, ts3) /\
    (bad_batch (sc_degree nc m) (sc_G n (1 <? w)%nat (claims cols vecs)) ref cs \/
     sc_bad n 3 (sc_g (claims cols vecs) (cba_of m n cs) (rc_of m n w cs)) ts2 (so_sc o) point).
Proof.
  intros H1 H2 H3 H4 H5 m w. destruct (sc_ref_exists (p := p) n cols vecs nc pts H1 H2 H4 H5) as (ref & Hl & Hr).
  exists ref. intros T TO o ts (Hn & (ts' & HV) & point & HP & O1 & O2). pose proof (set_check_sound_at (p := p) n cols vecs nc ref H3 H4 H5 Hl Hr o ts ts' Hn HV) as Href. unfold set_point in HP. fold m w in HP, Href.
  destruct (cba_loop m n ts) as [cba ts1] eqn:E1. destruct (opt_challenge w ts1) as [rc ts2] eqn:E2.
  destruct (cba_cvec m n w ts cba ts1 rc ts2 E1 E2) as (G1 & G2 & G3). rewrite G1, <- G2, <- G3.
  destruct HP as (v & ts3 & Hsc). exists point, v, ts3. split; auto.
  destruct Href as [H|(pt & v' & ts3' & Hsc' & H)]; auto.
  - intros pt v' ts3' Hsc'. rewrite Hsc in Hsc'. injection Hsc' as <- <- <-. auto.
  - rewrite O1, map_length. auto.
  - rewrite O2, map_length. auto.
  - rewrite Hsc in Hsc'. injection Hsc' as <- <- <-. auto.
Qed.

Theorem set_error n (cols : list (list (list R))) vecs nc e (st : set_strategy) (S : list K) :
  NoDup S -> (Nat.max (2 * pdim - 1) (Nat.max nc (length cols + length vecs)) <= length S)%nat -> char_gt K 3 ->
  set_sizes n nc cols vecs -> Exists claim_bad (claims cols vecs) ->
  let M := n_batch (length cols + length vecs) n (length cols) in
  few (fun x => In x (tuples (M + n + e) S) /\ set_fooled n cols vecs (set_play n M st x) x)
    ((M * sc_degree nc (length cols + length vecs) + 3 * n) * length S ^ (M + n + e - 1)).
Proof.
  intros HS HL Hc Hsz Hbad M. set (m := (length cols + length vecs)%nat) in *. set (N := (M + n + e)%nat).
  destruct (set_fooled_bad n cols vecs nc S HS HL Hc Hsz Hbad) as (ref & Href). fold m in Href.
  change (n_batch m n (length cols)) with M in Href.
  eapply few_weaken; [|apply Nat.eq_le_incl|apply few_or;
    [apply (few_batch N S (sc_degree nc m) (sc_G n (1 <? length cols)%nat (claims cols vecs)) ref M); unfold N; lia
    |apply (few_sc_bad n 3 (ss_msg st) M N S (fun pre => sc_g (claims cols vecs) (cba_of m n pre) (rc_of m n (length cols) pre))); unfold N; lia]].
  - intros x [Hx HF]. pose proof Hx as Hx'. apply in_tuples in Hx' as [Lx _]. unfold N in Lx. apply Href in HF.
    rewrite coin_challenges in HF by lia. cbn [set_play so_sc] in HF.
    destruct HF as (point & v & ts3 & Hsc & HF). apply coin_sc_verify in Hsc as [-> _]; [|rewrite skipn_length; lia].
    destruct HF as [H|H]; [left|right]; split; auto.
  - lia.
Qed.

(** ** C100: the range check *)
Definition range_fooled {T} {TO : TransOps T R K} (n k : nat) (insts : list (rg_inst K R)) (dc : dcom K R) (ts : T) : Prop :=
  so_nvars (dc_out dc) = n /\ rp_k (dc_params dc) = k /\ (exists ts', rg_verify dc ts = Ok ts') /\
  exists point, set_point n (length insts * k + length insts) (length insts * k) (dc_out dc) ts point /\ rg_opens dc insts point.
Record range_strategy := RangeStrategy { rs_msg : list K -> list R; rs_rest : list K -> dcom K R }.
Definition range_play (n M : nat) (st : range_strategy) (x : list K) : dcom K R :=
  let q := rs_rest st x in
  Dcom (dc_evals q) (dc_coms q) (ScOut n (so_r (dc_out q)) (sc_messages (rs_msg st) M n x) (so_e (dc_out q)) (so_b (dc_out q))) (dc_params q).

Lemma range_lengths N k insts : Forall (rg_data N k) insts ->
  length (range_cols (K := K) (R := R) insts) = (length insts * k)%nat /\ length (range_vecs (K := K) (R := R) insts) = length insts.
Proof.
  intros HD. unfold range_vecs. rewrite map_length. split; auto. unfold range_cols. induction HD as [|x l W _ IH]; auto.
  cbn [flat_map length]. rewrite app_length, IH. unfold inst_cols. rewrite map_length, (rd_k _ _ _ W). lia.
Qed.
Lemma range_sizes n N k insts : (N <= 2 ^ n)%nat -> Forall (rg_data N k) insts -> set_sizes n pdim (range_cols insts) (range_vecs insts).
Proof.
  intros HN HD. unfold set_sizes, claims. apply Forall_app. split; apply Forall_map, Forall_forall.
  - intros css Hcs. cbn [cl_cols]. unfold range_cols in Hcs. apply in_flat_map in Hcs as (x & Hx & Hcs). unfold inst_cols in Hcs.
    apply in_map_iff in Hcs as (M & <- & HM). rewrite Forall_forall in HD. destruct (HD x Hx) as [_ _ D _ _]. rewrite Forall_forall in D. destruct (D M HM) as [LM _].
    unfold dcols. rewrite map_length, seq_length. split; auto. apply Forall_map, Forall_forall. intros j _. rewrite map_length. lia.
  - intros v Hv. cbn [cl_cols length]. pose proof (pdim_pos (p := p)). split; [lia|]. apply Forall_cons; [|apply Forall_nil]. unfold range_vecs in Hv.
    apply in_map_iff in Hv as (x & <- & Hx). rewrite Forall_forall in HD. rewrite (rd_mtau _ _ _ (HD x Hx)). auto.
Qed.
Lemma range_fooled_set {T} {TO : TransOps T R K} n N k insts dc (ts : T) : Forall (rg_data N k) insts -> range_fooled n k insts dc ts ->
  set_fooled n (range_cols insts) (range_vecs insts) (dc_out dc) ts.
Proof.
  intros HD (Hn & Hk & (ts' & HV) & point & HP & O1 & O2 & _). split; auto. split.
  - unfold rg_verify in HV. destruct (set_verify (dc_out dc) ts); [eauto|discriminate..].
  - exists point. destruct (range_lengths N k insts HD) as [-> ->]. split; auto. split; auto. rewrite O2. unfold range_vecs. rewrite map_map. auto.
Qed.

(** Instances that are not well formed although all their entries are monomials have a table that is not zero and that an accepting verifier
    forces to vanish at the point. *)
Lemma range_gap_witness n N k insts : (N <= 2 ^ n)%nat -> Forall (rg_data N k) insts -> ~ Forall (rg_wf ri_f N k) insts ->
  Forall (fun cl => ~ claim_bad cl) (claims (range_cols insts) (range_vecs insts)) ->
  exists t : nat -> K, (exists b, (b < 2 ^ n)%nat /\ t b <> 0) /\
    forall T (TO : TransOps T R K) dc (ts : T) point, rp_k (dc_params dc) = k -> (exists ts', rg_verify dc ts = Ok ts') -> rg_opens dc insts point ->
      mle_spec t point = 0.
Proof.
  intros HN HD Hno HG.
  assert (forall m (t : nat -> K), (forall b, (b < m)%nat -> t b = 0) \/ exists b, (b < m)%nat /\ t b <> 0) as dec.
  { intros m t. induction m as [|m IH]; [left; intros; lia|]. destruct IH as [IH|(b & Hb & H)]; [|right; exists b; split; auto].
    destruct (req_dec (t m) 0) as [E|E]; [left|right; exists m; auto]. intros b Hb. destruct (Nat.eq_dec b m) as [->|]; auto. apply IH. lia. }
  assert (forall x, In x insts -> rg_wf ri_f N k x \/ (exists c b, (c < pdim)%nat /\ (b < N)%nat /\ digit_gap k x c b <> 0) \/ exists b, (b < N)%nat /\ tau_gap x b <> 0) as HX.
  { intros x Hx. assert (rg_data N k x) as D by (rewrite Forall_forall in HD; auto).
    destruct (dec N (tau_gap x)) as [T1|T1]; [|auto].
    assert ((forall c, (c < pdim)%nat -> forall b, (b < N)%nat -> digit_gap k x c b = 0) \/ exists c b, (c < pdim)%nat /\ (b < N)%nat /\ digit_gap k x c b <> 0) as [G|G]; [|left|auto].
    { assert (forall m, (forall c, (c < m)%nat -> forall b, (b < N)%nat -> digit_gap k x c b = 0) \/ exists c b, (c < m)%nat /\ (b < N)%nat /\ digit_gap k x c b <> 0) as HH; [|apply HH].
      induction m as [|m IH]; [left; intros; lia|]. destruct IH as [IH|(c & b & Hc & Hb & H)]; [|right; exists c, b; auto].
      destruct (dec N (digit_gap k x m)) as [E|(b & Hb & E)]; [left|right; exists m, b; auto]. intros c Hc. destruct (Nat.eq_dec c m) as [->|]; auto. apply IH. lia. }
    destruct D as [D1 D2 D3 D4 D5]. rewrite Forall_forall in HG. split; auto.
    - apply (inst_cols_monos N k); [split; auto|]. apply Forall_forall. intros cs Hcs. apply (not_bad (CMat cs)), HG. unfold claims. apply in_or_app. left. apply in_map.
      apply in_flat_map. eauto.
    - split; auto. intros r c Hr Hcc. specialize (G c Hcc r Hr). unfold digit_gap in G.
      set (A := sumn k _) in *. set (B := nth c _ 0) in *. transitivity (A - B + B); [ring|]. rewrite G. ring.
    - assert (Forall (Forall in_monos) [ri_mtau x]) as Hmt; [|apply (Forall_inv Hmt)]. apply (not_bad (CVec (ri_mtau x))), HG. unfold claims. apply in_or_app. right. apply in_map.
      unfold range_vecs. apply in_map. auto.
    - apply (list_ext 0); [rewrite map_length; lia|]. intros b Hb. rewrite map_length in Hb. rewrite (nth_map_lt _ _ _ 0) by auto.
      specialize (T1 b ltac:(lia)). unfold tau_gap in T1. set (A := psi_ct (nth b (ri_mtau x) 0)) in *. set (B := nth b (ri_tau x) 0) in *. transitivity (A - B + B); [ring|]. rewrite T1. ring. }
  assert (exists l, (l < length insts)%nat /\ ((exists c b, (c < pdim)%nat /\ (b < N)%nat /\ digit_gap k (nth l insts inst0) c b <> 0) \/ exists b, (b < N)%nat /\ tau_gap (nth l insts inst0) b <> 0)) as (l & Hl & G).
  { clear - Hno HX. induction insts as [|x insts IH]; [destruct Hno; auto|]. destruct (HX x ltac:(left; auto)) as [W|G]; [|exists 0%nat; cbn [length nth]; split; [lia|auto]].
    destruct IH as (l & Hl & G); [intros F; apply Hno; auto|intros y Hy; apply HX; right; auto|]. exists (S l). cbn [length nth]. split; [lia|auto]. }
  destruct G as [(c & b & Hc & Hb & Hne)|(b & Hb & Hne)].
  - exists (digit_gap k (nth l insts inst0) c). split; [exists b; split; [lia|auto]|]. intros T TO dc ts point Hk (ts' & HV) HO.
    apply (range_gaps_vanish (p := p) N k insts dc ts ts' point l HD Hk HV HO Hl). auto.
  - exists (tau_gap (nth l insts inst0)). split; [exists b; split; [lia|auto]|]. intros T TO dc ts point Hk (ts' & HV) HO.
    apply (range_gaps_vanish (p := p) N k insts dc ts ts' point l HD Hk HV HO Hl).
Qed.

Theorem range_error n N k e insts (st : range_strategy) (S : list K) :
  NoDup S -> (Nat.max (2 * pdim - 1) (length insts * k + length insts) <= length S)%nat -> char_gt K 3 -> (N <= 2 ^ n)%nat ->
  Forall (rg_data N k) insts -> ~ Forall (rg_wf ri_f N k) insts ->
  let m := (length insts * k + length insts)%nat in let M := n_batch m n (length insts * k) in
  few (fun x => In x (tuples (M + n + e) S) /\ range_fooled n k insts (range_play n M st x) x)
    ((M * sc_degree pdim m + 3 * n) * length S ^ (M + n + e - 1)).
Proof.
  intros HS HL Hc HN HD Hno m M. destruct (range_lengths N k insts HD) as [L1 L2]. pose proof (pdim_pos (p := p)) as Hd.
  destruct (claims_bad_dec (claims (range_cols insts) (range_vecs insts))) as [Hbad|HG].
  - pose proof (set_error n (range_cols insts) (range_vecs insts) pdim e (SetStrategy (rs_msg st) (fun x => dc_out (rs_rest st x))) S HS) as H.
    rewrite L1, L2 in H. fold m M in H. eapply few_weaken; [|apply le_n|apply H; auto].
    + intros x [Hx HF]. split; auto. exact (range_fooled_set n N k insts _ x HD HF).
    + lia.
    + eapply range_sizes; eauto.
  - destruct (range_gap_witness n N k insts HN HD Hno HG) as (t & (b & Hb & Hne) & Ht).
    eapply few_weaken; [| |apply (few_coord_at (M + n + e) M n S (fun _ b => emb (t b))); lia].
    + intros x [Hx (Hn & Hk & HV & point & HP & HO)]. split; auto. pose proof Hx as Hx'. apply in_tuples in Hx' as [Lx _].
      specialize (Ht _ _ _ x point Hk HV HO). unfold set_point in HP. fold m in HP.
      destruct (cba_loop m n x) as [cba ts1] eqn:E1. destruct (opt_challenge (length insts * k) ts1) as [rc ts2] eqn:E2.
      destruct (cba_cvec m n _ x cba ts1 rc ts2 E1 E2) as (G1 & _). fold M in G1. rewrite coin_challenges in G1 by lia. injection G1 as _ <-.
      destruct HP as (v & ts3 & Hsc). cbn [range_play dc_out so_sc] in Hsc. apply coin_sc_verify in Hsc as [-> _]; [|rewrite skipn_length; lia].
      apply (zero_mle_bad_coord _ _ b).
      * rewrite firstn_length, skipn_length, Nat.min_l by lia. auto.
      * intros E0. apply Hne, (emb_0_inv (p := p)), E0.
      * rewrite <- (hom_mle_spec emb emb_hom), Ht. apply (hom_0 _ emb_hom).
    + apply Nat.mul_le_mono_r. lia.
Qed.
End P.
