(** C109: error over all challenges of the folding step, including the short ones: only the output instance is assumed true. *)
From Coq Require Import String List Arith Lia ZArith Bool Ring Znumtheory.
From Verif Require Import Prelude Alg Poly MLE MLE_Proofs Transcript Interp Sumcheck Sumcheck_Proofs
  Arith Arith_Proofs Balanced Rings Rings_Proofs Linearization Linearization_Proofs Relations LinRel
  Decomposition Decomposition_Proofs Folding Folding_Comb Folding_Proofs Folding_Complete Folding_Sound NIFS NIFS_Proofs Extract
  Challenge Challenge_Proofs PolyInst Primes FieldExt CycInst RealRings ShortDual Sampling Shipped Zippel Counting Fork Properties9 Properties12
  SoundErr RhoErr Properties16 Properties21.
Import ListNotations.
Local Open Scope rs_scope.

Lemma real_need {p K} (y : cyc p K) decode need : real_ring p K y decode need -> (2 ^ 120 <= 256 ^ Z.of_nat need)%Z.
Proof. intros RR. destruct RR; vm_compute; discriminate. Qed.
Section Rho.
Context {p : Z} {K : Type} (y : cyc p K) (decode : list Z -> result (list Z)) (need : nat) (RR : real_ring p K y decode need).
Notation C := (pol (fp p) (cy_d y)).
Notation R := (pol K (cy_k y)).
Local Instance SO25 : SOps (fp p) K C R := cyc_ops y.
Local Instance SL25 : SLaws (fp p) K C R p := real_laws y decode need RR.

(** The folding coefficients that the byte strings [bs] decode to, and the last one, which is 1. *)
Definition rho_of (bs : list (list Z)) : list C := map (fun b => elt_of p (cy_d y) (match decode b with Ok c => c | _ => [] end)) bs ++ [1].
Lemma rhos_of {T} (sq : T -> list Z * T) P tr : rhos (short_of y decode sq) P tr = rho_of (draws sq tr (2 * dp_K P - 1)).
Proof. unfold rhos, rho_of. rewrite small_draws. reflexivity. Qed.
Lemma rho_of_unit m i bs bs' (S0 : list (list Z)) : Forall (bytes need) S0 -> (i < m)%nat -> In bs (tuples m S0) -> In bs' (tuples m S0) -> varies [] m i bs bs' ->
  unit_at m i (rho_of bs) (rho_of bs').
Proof.
  intros HB Hi Hb Hb' (L1 & L2 & V). destruct (real_facts y decode need RR) as (_ & _ & _ & _ & SS & lo & hi & GD). rewrite Forall_forall in HB.
  set (dec := fun b => elt_of p (cy_d y) (match decode b with Ok c => c | _ => [] end)).
  assert (forall l k, length l = m -> (k < m)%nat -> nth k (rho_of l) 0 = dec (nth k l [])) as N.
  { intros l k Hl Hk. unfold rho_of. rewrite app_nth1 by (rewrite map_length; lia). rewrite (nth_map_lt _ _ _ []) by lia. reflexivity. }
  assert (forall l, length l = m -> nth m (rho_of l) 0 = 1) as Nm. { intros l Hl. unfold rho_of. rewrite app_nth2; rewrite map_length, Hl; [|lia]. rewrite Nat.sub_diag. reflexivity. }
  split.
  - intros k Hk Hn. destruct (Nat.eq_dec k m) as [->|]; [rewrite !Nm; auto|]. rewrite !N by (auto; lia). f_equal. apply V; [lia|exact Hn].
  - rewrite !N by auto. apply in_tuples in Hb as [_ Hb], Hb' as [_ Hb']. rewrite Forall_forall in Hb, Hb'.
    assert (bytes need (nth i bs [])) as B0 by (apply HB, Hb, nth_In; lia). assert (bytes need (nth i bs' [])) as B1 by (apply HB, Hb', nth_In; lia).
    destruct GD as (_ & G & _). destruct (G _ B1) as (c1 & E1 & _). destruct (G _ B0) as (c0 & E0 & _).
    destruct (SS _ _ c1 c0 B1 B0) as [u Hu]; auto. { intros E. apply (proj1 (V i Hi) E). reflexivity. }
    exists u. unfold dec. rewrite E1, E0. exact Hu.
Qed.

(** ** One folding: commitments with openings, a proof whose theta or eta is wrong.
    At most |S0|^(m-1) of the |S0|^m vectors of byte strings lead to an accepted folding whose output holds for the combination of the openings. *)
Theorem C109_folding {T} {TO : TransOps T R K} P (A : ajtai R) (cs : ccs R) cms (ws : list (witness C R)) pf (ts tr : T) (SQ : list (list Z) -> T -> list Z * T) S0 :
  let m := (2 * dp_K P - 1)%nat in
  sizes_ok p P cs -> length cms = (2 * dp_K P)%nat -> Forall (fun c => length (lc_x c) = c_l cs) cms ->
  fold_shape P cs pf -> rho_state P cms pf ts cs = Ok tr -> Forall2 (fun c w => opens P A cs (lc_cm c) w) cms ws ->
  Forall (bytes need) S0 -> programmed SQ tr m S0 ->
  few (fun bs => In bs (tuples m S0) /\ rho_fooled P A cs cms ws pf ts tr (short_of y decode (SQ bs))) (length S0 ^ (m - 1)).
Proof.
  intros m H1 H2 H3 H4 H5 H6 HB HP.
  apply (rho_error (SL := SL25) [] (list_eq_dec Z.eq_dec) S0 (fun bs => short_of y decode (SQ bs)) P A cs cms ws pf ts tr H1 H2 H3 H4 H5 H6).
  intros i bs bs' Hi Hb Hb' V. rewrite !rhos_of. fold m. rewrite (HP bs Hb), (HP bs' Hb'). eapply rho_of_unit; eauto.
Qed.
(** The combination opens the commitment of the output, so an output witness other than the combination is a collision. *)
Theorem C109_binding {T} {TO : TransOps T R K} (HO : ShortOps T C) P A cs cms (ws : list (witness C R)) pf (ts tr : T) lc ts' w :
  sizes_ok p P cs -> length cms = (2 * dp_K P)%nat -> Forall (fun c => length (lc_x c) = c_l cs) cms ->
  fold_shape P cs pf -> rho_state P cms pf ts cs = Ok tr -> Forall2 (fun c w => opens P A cs (lc_cm c) w) cms ws ->
  fold_verify P cms pf ts cs = Ok (lc, ts') -> lcccs_rel P A cs lc w ->
  let w' := comb_wit P ((c_n cs - c_l cs - 1) * dp_L P) (rhos HO P tr) ws in
  lcccs_rel P A cs lc w' \/ (w_f w <> w_f w' /\ commit A (w_f w) = commit A (w_f w')).
Proof.
  intros Hsz H2 H3 H4 H5 H6 HV HR w'. pose proof (so_cov _ _ _ Hsz) as (_ & HL & _).
  pose proof (comb_opens (SL := SL25) HO P A cs cms ws pf ts tr lc ts' (so_K _ _ _ Hsz) HL H2 H3 H4 H5 H6 HV) as O. fold w' in O.
  destruct (list_eq_dec (req_dec (R := R)) (w_f w) (w_f w')) as [E|N].
  - left. rewrite <- (opens_wit_eq _ _ _ _ _ _ (lr_open _ _ _ _ _ HR) O E). exact HR.
  - right. split; [exact N|]. rewrite (op_cm _ _ _ _ _ O). apply (op_cm _ _ _ _ _ (lr_open _ _ _ _ _ HR)).
Qed.

(** ** The whole step: the coins [x] and the byte strings [bs] are drawn independently. *)
(** Squeezer of a tape with [m] coins left: it returns the byte strings of [bs] one after the other. *)
Definition tape_sq (m : nat) (bs : list (list Z)) : list K -> list Z * list K := fun t => (nth (m - length t) bs [], tl t).
Lemma tape_draws m bs n : forall (t : list K), (length t <= m)%nat -> (n <= length t)%nat -> draws (tape_sq m bs) t n = map (fun i => nth (m - length t + i) bs []) (seq 0 n).
Proof.
  induction n as [|n IH]; intros t H1 H2; [reflexivity|]. destruct t as [|c t]; [cbn in H2; lia|]. cbn [length] in *.
  cbn [draws tape_sq length tl seq map]. f_equal; [f_equal; lia|]. rewrite IH by lia. rewrite <- seq_shift, map_map. apply map_ext. intros i. f_equal. lia.
Qed.
Lemma tape_programmed m S0 (t : list K) : length t = m -> programmed (tape_sq m) t m S0.
Proof.
  intros H bs Hb. apply in_tuples in Hb as [Hb _]. rewrite tape_draws by lia. rewrite H, Nat.sub_diag. rewrite <- Hb. cbn [Nat.add].
  clear. induction bs as [|b bs IH]; [reflexivity|]. cbn [length seq map nth]. f_equal. rewrite <- seq_shift, map_map. exact IH.
Qed.
#[local] Existing Instance coin_trans.
Section Whole.
Variables (P : dparams) (A : ajtai R) (cs : ccs R) (acc : lcccs R) (cm_i : cccs R).
Variables (opn : list R -> witness C R) (w0 : list R) (st : strategy (K := K) (R := R)).
Notation m := (2 * dp_K P - 1)%nat.
(** The verifier accepts, the opening of the output commitment is a witness of the output instance and is the combination of the openings of the
    component commitments (otherwise it collides with it, [C109_binding]); nevertheless one of the instances that went in does not hold. *)
Definition fooled_all (z : list K * list (list Z)) : Prop :=
  let '(x, bs) := z in
  let s := c_s cs in
  let pf := play P cs st x in
  let lcs_l := dec_parts (lc_r acc) (lf_dec_l pf) in
  let lcs_r := dec_parts (map emb (skipn s (firstn (2 * s) x))) (lf_dec_r pf) in
  let ws_l := map (fun c => opn (lc_cm c)) lcs_l in
  let ws_r := map (fun c => opn (lc_cm c)) lcs_r in
  let n := ((c_n cs - c_l cs - 1) * dp_L P)%nat in
  exists lc ts',
    nifs_verify (HO := short_of y decode (tape_sq m bs)) P acc cm_i pf x cs = Ok (lc, ts') /\
    dec_shape P cs (lf_dec_l pf) /\ dec_shape P cs (lf_dec_r pf) /\ fold_shape P cs (lf_fold pf) /\
    Forall (fun c => opens P A cs (lc_cm c) (opn (lc_cm c))) (lcs_l ++ lcs_r) /\
    lcccs_rel P A cs lc (opn (lc_cm lc)) /\ w_f (opn (lc_cm lc)) = w_f (comb_wit P n (rho_of bs) (ws_l ++ ws_r)) /\
    w_ccs (wsum P n ws_r) = w0 /\
    ~ (lcccs_rel P A cs acc (wsum P n ws_l) /\ cccs_rel P A cs cm_i (wsum P n ws_r) /\
       forall i w, nth_error (ws_l ++ ws_r) i = Some w -> (i < 2 * dp_K P - 1)%nat \/ tau = 1%nat -> wit_norm (Z.of_nat (dp_b P) - 1) w).

Lemma few_snd {X Y} (eqY : forall a b : Y, {a = b} + {a <> b}) (H : list Y) (Q : X -> Y -> Prop) a :
  (forall h, In h H -> few (fun x => Q x h) a) -> few (fun z => In (snd z) H /\ Q (fst z) (snd z)) (length H * a).
Proof.
  intros HF. apply (few_fibre eqY snd H); [tauto|]. intros h Hh.
  apply (few_inj fst _ (fun x => Q x h)); [|intros [x h1] [x' h2] [_ E1] [_ E2] E; cbn in *; congruence|apply HF, Hh].
  intros [x h'] [[H1 H2] E]. cbn [fst snd] in *. subst h'. auto.
Qed.
Lemma few_fst {X Y} (eqX : forall a b : X, {a = b} + {a <> b}) (G : list X) (Q : X -> Y -> Prop) a :
  (forall g, In g G -> few (fun h => Q g h) a) -> few (fun z => In (fst z) G /\ Q (fst z) (snd z)) (length G * a).
Proof.
  intros HF. apply (few_fibre eqX fst G); [tauto|]. intros g Hg.
  apply (few_inj snd _ (fun h => Q g h)); [|intros [x h1] [x' h2] [_ E1] [_ E2] E; cbn in *; congruence|apply HF, Hg].
  intros [g' h] [[H1 H2] E]. cbn [fst snd] in *. subst g'. auto.
Qed.

Theorem C109_nifs (S : list K) (S0 : list (list Z)) :
  sizes_ok p P cs -> degree_ok cs -> (Z.of_nat (c_d cs + 1) < p)%Z -> (2 * Z.of_nat (dp_b P) < p)%Z ->
  NoDup S -> (Nat.max tau (c_t cs) < length S)%nat -> length (lc_r acc) = c_s cs -> Forall (bytes need) S0 ->
  let N := (n_coins P cs + m)%nat in
  few (fun z => In (fst z) (tuples N S) /\ In (snd z) (tuples m S0) /\ fooled_all z)
    ((c_s cs + c_s cs * (c_d cs + 1) + ((6 * dp_K P - 1 + c_s cs) * Nat.max tau (c_t cs) + c_s cs * (2 * dp_b P))) * length S ^ (N - 1) * length S0 ^ m
     + length S ^ N * length S0 ^ (m - 1)).
Proof.
  intros Hsz Hd Hcd Hcb HS Hq Hra HB N. pose proof (so_K _ _ _ Hsz) as HK. pose proof (so_cov _ _ _ Hsz) as (_ & HL & _).
  set (Fo := fun (x : list K) (bs : list (list Z)) => fooled (HO := short_of y decode (tape_sq m bs)) P A cs acc cm_i opn w0 st x).
  apply (few_em _ (fun z => Fo (fst z) (snd z))).
  - eapply few_weaken; [|apply Nat.eq_le_incl; rewrite <- (tuples_length m S0), Nat.mul_comm; reflexivity|apply (few_snd (list_eq_dec (list_eq_dec Z.eq_dec)) (tuples m S0) (fun x bs => In x (tuples N S) /\ Fo x bs))].
    + intros z [(H1 & H2 & _) H3]. auto.
    + intros bs _. refine (C89_nifs_error (SL := SL25) (HO := short_of y decode (tape_sq m bs)) P A cs acc cm_i opn w0 st m S Hsz Hd _ _ _ HS Hq Hra); [apply (real_char y decode need RR); auto|apply (real_char y decode need RR); lia|lia].
  - eapply few_weaken; [|apply Nat.eq_le_incl; rewrite <- (tuples_length N S); reflexivity|apply (few_fst kl_dec (tuples N S) (fun x bs => In x (tuples N S) /\ In bs (tuples m S0) /\ fooled_all (x, bs) /\ ~ Fo x bs))].
    + intros [x bs] [(H1 & H2 & H3) H4]. cbn [fst snd] in *. auto.
    + intros x _. apply few_if. intros bs0 (Hx & Hb0 & (lc0 & ts0 & HV0 & Hs1 & Hs2 & Hs3 & Ho & _) & _).
      set (s := c_s cs) in *. set (pf := play P cs st x) in *.
      set (lcs_l := dec_parts (lc_r acc) (lf_dec_l pf)) in *. set (lcs_r := dec_parts (map emb (skipn s (firstn (2 * s) x))) (lf_dec_r pf)) in *.
      set (cms := lcs_l ++ lcs_r) in *. set (ws := map (fun c => opn (lc_cm c)) lcs_l ++ map (fun c => opn (lc_cm c)) lcs_r) in *.
      pose proof Hx as Lx. apply in_tuples in Lx as [Lx _].
      assert (N = 2 * s + (6 * dp_K P - 1 + s) + s + m)%nat as EN by (unfold N, n_coins, s; lia).
      (* the prefix of the run, the same for all byte strings *)
      assert (forall HO lc ts', nifs_verify (HO := HO) P acc cm_i pf x cs = Ok (lc, ts') ->
        fold_verify (HO := HO) P cms (lf_fold pf) (skipn (2 * s) x) cs = Ok (lc, ts') /\ length cms = (2 * dp_K P)%nat /\ Forall (fun c => length (lc_x c) = c_l cs) cms) as RUN.
      { intros HO lc ts' HV. unfold nifs_verify in HV. apply bind_ok_inv in HV as (u0 & _ & HV). rewrite coin_public in HV.
        apply bind_ok_inv in HV as ([lin ts1] & HL1 & HV). apply bind_ok_inv in HV as ([l1 ts2] & HDl & HV). apply bind_ok_inv in HV as ([l2 ts3] & HDr & HV).
        destruct (lin_verify_inv _ _ _ _ _ _ (so_wf _ _ _ Hsz) HL1) as (rs & e0 & tsx & Hsc & Hrs & El & _ & Ets1).
        fold s in Hsc, Hrs, Ets1. rewrite coin_tag, coin_challenges in Hsc by lia. cbn [snd] in Hsc.
        apply coin_sc_verify in Hsc as [Ers Etsx]; [|rewrite skipn_length; lia].
        assert (ts1 = skipn (2 * s) x) as -> by (rewrite Ets1, !coin_absorb_slice, Etsx, skipn_skipn'; f_equal; lia).
        assert (lc_r lin = map emb (skipn s (firstn (2 * s) x))) as Elr.
        { rewrite El. cbn [lc_r]. rewrite Ers, skipn_firstn_comm. do 2 f_equal. lia. }
        destruct (dec_verify_shape P cs _ _ _ _ _ Hs1 HDl) as [Ll Sl]. destruct (dec_verify_shape P cs _ _ _ _ _ Hs2 HDr) as [Lr Sr].
        destruct (dec_verify_parts _ _ _ _ _ _ HDl) as [Ha1 EL1]. destruct (dec_verify_parts _ _ _ _ _ _ HDr) as [Ha2 EL2].
        apply coin_dec_absorb in Ha1. apply coin_dec_absorb in Ha2. cbn [snd] in Ha1, Ha2. subst ts2 ts3.
        rewrite Elr in EL2. change (l2 = lcs_r) in EL2. change (l1 = lcs_l) in EL1. subst l1 l2. split; [exact HV|].
        unfold cms. rewrite app_length. split; [lia|]. apply Forall_app; split; (eapply Forall_impl; [|eassumption]); cbn beta; tauto. }
      destruct (RUN _ _ _ HV0) as (HF0 & Lc & Scx).
      assert (exists tr, rho_state P cms (lf_fold pf) (skipn (2 * s) x) cs = Ok tr /\ length tr = m) as (tr & ET & Ltr).
      { clear - HF0 EN Lx HK RR. unfold fold_verify in HF0. apply bind_ok_inv in HF0 as (u & _ & HV). unfold rho_state. fold s in HV |- *.
        rewrite coin_squeeze in HV |- * by (auto; rewrite skipn_length; lia). destruct (tape_abzm P s (skipn (2 * s) x)) as [[[al be] ze] mu].
        apply bind_ok_inv in HV as ([[rs v] ts2] & ES & _). rewrite ES. cbn [bind snd]. eexists. split; [reflexivity|].
        rewrite coin_tag, !coin_slices. apply coin_sc_verify in ES as [_ ->]; [|rewrite !skipn_length; lia].
        rewrite !skipn_length. lia. }
      assert (Forall2 (fun c w => opens P A cs (lc_cm c) w) cms ws) as Hop.
      { unfold ws. rewrite <- map_app. fold cms. clear - Ho. induction Ho; cbn [map]; auto. }
      eapply few_weaken; [|apply le_n|apply (C109_folding P A cs cms ws (lf_fold pf) (skipn (2 * s) x) tr (tape_sq m) S0 Hsz Lc Scx Hs3 ET Hop HB (tape_programmed m S0 tr Ltr))].
      intros bs (_ & Hb & HFo & HN). split; [exact Hb|]. destruct HFo as (lc & ts' & HV & _ & _ & _ & _ & HR & Eo & Ew & Hno). fold s in HR, Eo, Ew, Hno. fold pf in HV, Eo, Ew, Hno.
      destruct (RUN _ _ _ HV) as (HF & _). exists lc, ts'. split; [exact HF|]. rewrite rhos_of. rewrite (tape_programmed m S0 tr Ltr bs Hb).
      fold lcs_l in Eo, Ew, Hno. fold lcs_r in Eo, Ew, Hno. fold ws in Eo, Hno.
      pose proof (comb_opens (SL := SL25) (short_of y decode (tape_sq m bs)) P A cs cms ws (lf_fold pf) (skipn (2 * s) x) tr lc ts' HK HL Lc Scx Hs3 ET Hop HF) as O.
      rewrite rhos_of, (tape_programmed m S0 tr Ltr bs Hb) in O.
      split; [rewrite <- (opens_wit_eq _ _ _ _ _ _ (lr_open _ _ _ _ _ HR) O Eo); exact HR|].
      intros [Th Et]. apply HN. exists lc, ts'. fold s pf lcs_l lcs_r. fold cms ws. auto 10.
Qed.
(** All challenges and all byte strings: probability at most 2^-119. *)
Theorem C109_error (S0 : list (list Z)) :
  sizes_ok p P cs -> degree_ok cs -> (Z.of_nat (c_d cs + 1) < p)%Z -> (2 * Z.of_nat (dp_b P) < p)%Z -> length (lc_r acc) = c_s cs ->
  (Z.of_nat (c_s cs + c_s cs * (c_d cs + 1) + ((6 * dp_K P - 1 + c_s cs) * Nat.max tau (c_t cs) + c_s cs * (2 * dp_b P))) <= 2 ^ 63)%Z ->
  Forall (bytes need) S0 -> length S0 = (256 ^ need)%nat ->
  let N := (n_coins P cs + m)%nat in
  forall L, NoDup L -> Forall (fun z => In (fst z) (tuples N (all_challenges y)) /\ In (snd z) (tuples m S0) /\ fooled_all z) L ->
    (2 ^ 119 * Z.of_nat (length L) <= Z.of_nat (length (all_challenges y)) ^ Z.of_nat N * Z.of_nat (length S0) ^ Z.of_nat m)%Z.
Proof.
  intros Hsz Hd Hcd Hcb Hra HN HB LB N L H1 H2. destruct (C90_challenges y decode need RR) as (HS & _ & H3 & H4). pose proof (so_K _ _ _ Hsz) as HK.
  assert (2 ^ 120 <= Z.of_nat (length S0))%Z as HB0.
  { rewrite LB, Nat2Z.inj_pow. change (Z.of_nat 256) with 256%Z. exact (real_need y decode need RR). }
  set (er := (c_s cs + c_s cs * (c_d cs + 1) + ((6 * dp_K P - 1 + c_s cs) * Nat.max tau (c_t cs) + c_s cs * (2 * dp_b P)))%nat) in *.
  rewrite <- H3 in H4. set (q := length (all_challenges y)) in *.
  assert (Nat.max tau (c_t cs) < q)%nat as Hq.
  { apply Nat2Z.inj_lt. eapply Z.lt_le_trans; [|exact H4]. apply Z.le_lt_trans with (m := (2 ^ 63)%Z); [|reflexivity]. etransitivity; [|exact HN]. apply Nat2Z.inj_le. unfold er. nia. }
  apply (C109_nifs (all_challenges y) S0 Hsz Hd Hcd Hcb HS Hq Hra HB) in H2; auto. fold er q N in H2. set (B := length S0) in *.
  apply Nat2Z.inj_le in H2. rewrite Nat2Z.inj_add, !Nat2Z.inj_mul, !Nat2Z.inj_pow in H2.
  assert (Z.of_nat q ^ Z.of_nat N = Z.of_nat q * Z.of_nat q ^ Z.of_nat (N - 1))%Z as EN.
  { replace N with (Datatypes.S (N - 1)) at 1 by (unfold N; lia). rewrite Nat2Z.inj_succ, Z.pow_succ_r by lia. reflexivity. }
  assert (Z.of_nat B ^ Z.of_nat m = Z.of_nat B * Z.of_nat B ^ Z.of_nat (m - 1))%Z as EB.
  { replace m with (Datatypes.S (m - 1)) at 1 by lia. rewrite Nat2Z.inj_succ, Z.pow_succ_r by lia. reflexivity. }
  rewrite EN, EB in *. set (u := (Z.of_nat q ^ Z.of_nat (N - 1))%Z) in *. set (v := (Z.of_nat B ^ Z.of_nat (m - 1))%Z) in *.
  assert (0 <= u)%Z as Hu by (apply Z.pow_nonneg; lia). assert (0 <= v)%Z as Hv by (apply Z.pow_nonneg; lia).
  set (a := Z.of_nat q) in *. set (b := Z.of_nat B) in *. set (e := Z.of_nat er) in *. set (l := Z.of_nat (length L)) in *.
  clearbody a b e l u v. clear - H2 H4 HB0 HN Hu Hv.
  assert (2 ^ 128 * e <= a)%Z as Q1. { etransitivity; [|exact H4]. change (2 ^ 191)%Z with (2 ^ 128 * 2 ^ 63)%Z. apply Z.mul_le_mono_nonneg_l; [lia|exact HN]. }
  assert (2 ^ 128 * (e * u * (b * v)) <= a * u * (b * v))%Z as Q2.
  { transitivity (2 ^ 128 * e * (u * (b * v)))%Z; [apply Z.eq_le_incl; ring|]. rewrite <- (Z.mul_assoc a). apply Z.mul_le_mono_nonneg_r; [|exact Q1].
    apply Z.mul_nonneg_nonneg; [exact Hu|]. apply Z.mul_nonneg_nonneg; [|exact Hv]. eapply Z.le_trans; [|exact HB0]. lia. }
  assert (2 ^ 120 * (a * u * v) <= a * u * (b * v))%Z as Q3.
  { transitivity (2 ^ 120 * (a * u * v))%Z; [lia|]. replace (a * u * (b * v))%Z with (b * (a * u * v))%Z by ring. apply Z.mul_le_mono_nonneg_r; [|exact HB0].
    apply Z.mul_nonneg_nonneg; [|exact Hv]. apply Z.mul_nonneg_nonneg; [|exact Hu]. eapply Z.le_trans; [|exact H4]. lia. }
  assert (0 <= a * u * (b * v))%Z as Q4.
  { assert (0 <= a)%Z by lia. assert (0 <= b)%Z by lia. apply Z.mul_nonneg_nonneg; apply Z.mul_nonneg_nonneg; auto. }
  change (2 ^ 128)%Z with (2 ^ 119 * 512)%Z in Q2. change (2 ^ 120)%Z with (2 ^ 119 * 2)%Z in Q3. set (t := (2 ^ 119)%Z) in *.
  assert (0 <= t)%Z as Ht by (unfold t; lia). clearbody t. set (X := (e * u * (b * v))%Z) in *. set (Y := (a * u * v)%Z) in *. set (W := (a * u * (b * v))%Z) in *.
  apply (Z.mul_le_mono_nonneg_l _ _ t Ht) in H2. rewrite Z.mul_add_distr_l in H2. lia.
Qed.
End Whole.
End Rho.
