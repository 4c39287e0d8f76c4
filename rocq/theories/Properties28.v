(** C112: error of a chain of n folding steps over all challenges. *)
From Coq Require Import String List Arith Lia ZArith Bool Ring Znumtheory.
From Verif Require Import Prelude Alg Poly MLE MLE_Proofs Transcript Interp Sumcheck Sumcheck_Proofs
  Arith Arith_Proofs Balanced Rings Rings_Proofs Linearization Linearization_Proofs Relations LinRel
  Decomposition Decomposition_Proofs Folding Folding_Comb Folding_Proofs Folding_Complete Folding_Sound NIFS NIFS_Proofs Extract
  Challenge Challenge_Proofs PolyInst Primes FieldExt CycInst RealRings ShortDual Sampling Shipped Zippel Counting Fork Properties9 Properties12 Properties13
  SoundErr RhoErr Properties16 Properties21 Properties25.
Import ListNotations.
Local Open Scope rs_scope.

(** The point of an output instance has the right length. *)
Lemma nifs_out_len {F K C R} {SO : SOps F K C R} {T} {TO : TransOps T R K} {HO : ShortOps T C} P acc cm_i (pf : lf_proof R) (ts : T) (cs : ccs R) lc ts' :
  nifs_verify P acc cm_i pf ts cs = Ok (lc, ts') -> length (lc_r lc) = c_s cs.
Proof.
  intros HV. unfold nifs_verify in HV. apply bind_ok_inv in HV as (u & _ & HV). apply bind_ok_inv in HV as ([lin ts1] & _ & HV). apply bind_ok_inv in HV as ([l1 ts2] & _ & HV). apply bind_ok_inv in HV as ([l2 ts3] & _ & HV).
  unfold fold_verify in HV. apply bind_ok_inv in HV as (u' & _ & HV). destruct (squeeze_abzm _ _ _) as [[[[al be] ze] mu] tz].
  apply bind_ok_inv in HV as ([[pt sv] t4] & ES & HV). apply bind_ok_inv in HV as (u2 & _ & HV). destruct (get_rhos P _) as [[rho_c rho] ts5].
  apply bind_ok_inv in HV as ([[[v0 cm0] u3] x0] & _ & HV). apply bind_ok_inv in HV as (lc' & EO & HV). apply ok_inj in HV. injection HV as -> _.
  unfold public_output in EO. apply bind_ok_inv in EO as (h & _ & EO). apply ok_inj in EO. rewrite <- EO. cbn [lc_r]. rewrite map_length. unfold sc_verify in ES.
  apply bind_ok_inv in ES as ([[ms ch] t] & EL & ES). destruct (c_s cs =? 0)%nat; [discriminate|]. apply bind_ok_inv in ES as (e & _ & ES). apply ok_inj in ES. injection ES as <- _ _.
  destruct (verify_loop_inv _ _ _ _ _ _ EL) as (_ & _ & H2). auto.
Qed.

(** Sequences of [n] draws, something unlikely at some step: at the first draw (whatever follows) or later. *)
Lemma few_cons {Z} (eqZ : forall a b : Z, {a = b} + {a <> b}) (U : list Z) n (A : Z -> list Z -> Prop) (B : Z -> list Z -> Prop) a b :
  (forall zs, In zs (tuples n U) -> few (fun z => In z U /\ A z zs) a) -> (forall z, In z U -> few (fun zs => In zs (tuples n U) /\ B z zs) b) ->
  few (fun l => In l (tuples (Datatypes.S n) U) /\ match l with [] => False | z :: zs => A z zs \/ B z zs end) (length U ^ n * a + length U * b).
Proof.
  intros HA HB.
  assert (few (fun l => In l (tuples (Datatypes.S n) U) /\ match l with [] => False | z :: zs => A z zs end) (length U ^ n * a)) as F1.
  { rewrite <- tuples_length. apply (few_fibre (list_eq_dec eqZ) (fun l => tl l) (tuples n U)).
    - intros [|z zs] [H1 H2]; [destruct H2|]. apply in_tuples in H1 as [H1 H3]. inversion H3; subst. apply in_tuples. cbn [tl]. split; auto.
    - intros zs Hzs. apply (few_inj (fun l => match l with z :: _ => Some z | [] => None end) _ (fun o => match o with Some z => In z U /\ A z zs | None => False end)).
      + intros [|z l] [[H1 H2] E]; [exact H2|]. cbn [tl] in E. subst l. apply in_tuples in H1 as [_ H1]. inversion H1; subst; auto.
      + intros [|z l] [|z' l'] [[_ H] E] [[_ H'] E'] Q; try destruct H; try destruct H'. cbn [tl] in *. congruence.
      + intros L HL HF. assert (exists L', L = map Some L' /\ Forall (fun z => In z U /\ A z zs) L') as (L' & -> & HF').
        { clear HL. induction HF as [|[z|] L Hz _ (L' & -> & IH)]; [exists []; auto|exists (z :: L'); split; [reflexivity|constructor; auto]|destruct Hz]. }
        rewrite map_length. apply (HA zs Hzs); auto. apply NoDup_map_inv in HL. exact HL. }
  assert (few (fun l => In l (tuples (Datatypes.S n) U) /\ match l with [] => False | z :: zs => B z zs end) (length U * b)) as F2.
  { rewrite <- (map_length Some). assert (forall x y : option Z, {x = y} + {x <> y}) as D by (decide equality).
    apply (few_fibre D (fun l => match l with z :: _ => Some z | [] => None end) (map Some U)).
    - intros [|z zs] [H1 H2]; [destruct H2|]. apply in_tuples in H1 as [H1 H3]. inversion H3; subst. apply in_map; auto.
    - intros [z|] Hz; [|apply in_map_iff in Hz as (? & ? & _); discriminate]. apply in_map_iff in Hz as (z' & E & Hz). injection E as ->.
      apply (few_inj (fun l => tl l) _ (fun zs => In zs (tuples n U) /\ B z zs)); [| |apply HB, Hz].
      + intros [|z' l] [[H1 H2] E]; [discriminate|]. injection E as ->. cbn [tl]. apply in_tuples in H1 as [H1 H3]. inversion H3; subst. split; [apply in_tuples; auto|auto].
      + intros [|z1 l] [|z2 l'] [_ E] [_ E'] Q; try discriminate. cbn [tl] in Q. congruence. }
  eapply few_weaken; [|apply le_n|exact (few_or _ _ _ _ F1 F2)].
  intros [|z zs] [H1 H2]; [destruct H2|]. destruct H2; auto.
Qed.

Section Chain.
Context {p : Z} {K : Type} (y : cyc p K) (decode : list Z -> result (list Z)) (need : nat) (RR : real_ring p K y decode need).
Notation C := (pol (fp p) (cy_d y)).
Notation R := (pol K (cy_k y)).
Local Instance SO28 : SOps (fp p) K C R := cyc_ops y.
Local Instance SL28 : SLaws (fp p) K C R p := real_laws y decode need RR.
#[local] Existing Instance coin_trans.
(** The draws of one step: challenges and byte strings. *)
Notation draw := (list K * list (list Z))%type.
Variables (P : dparams) (A : ajtai R) (cs : ccs R).
(** [opn] opens commitments; at every step the adversary chooses the instance to fold in, and how to play, from all draws of the steps before. *)
Variables (opn : list R -> witness C R) (adv : list draw -> cccs R * strategy (K := K) (R := R)).
Notation m := (2 * dp_K P - 1)%nat.
Notation n := ((c_n cs - c_l cs - 1) * dp_L P)%nat.
Definition run (h : list draw) (acc : lcccs R) (z : draw) : result (lcccs R * list K) :=
  nifs_verify (HO := short_of y decode (tape_sq m (snd z))) P acc (fst (adv h)) (play P cs (snd (adv h)) (fst z)) (fst z) cs.
(** The accumulator after the step. *)
Definition out (h : list draw) (acc : lcccs R) (z : draw) : lcccs R := match run h acc z with Ok (lc, _) => lc | _ => acc end.
(** The openings of the component commitments sent in the step. *)
Definition parts_l (h : list draw) (acc : lcccs R) (z : draw) : list (lcccs R) := dec_parts (lc_r acc) (lf_dec_l (play P cs (snd (adv h)) (fst z))).
Definition parts_r (h : list draw) (z : draw) : list (lcccs R) := dec_parts (map emb (skipn (c_s cs) (firstn (2 * c_s cs) (fst z)))) (lf_dec_r (play P cs (snd (adv h)) (fst z))).
Definition opened (lcs : list (lcccs R)) : list (witness C R) := map (fun c => opn (lc_cm c)) lcs.
(** The step is accepted, the proof has the right shape, [opn] opens the component commitments, and the openings of the incoming and outgoing commitments
    are those computed from the components (otherwise there are two openings of one commitment). *)
Definition step_good (h : list draw) (acc : lcccs R) (z : draw) : Prop :=
  let pf := play P cs (snd (adv h)) (fst z) in
  (exists r, run h acc z = Ok r) /\
  dec_shape P cs (lf_dec_l pf) /\ dec_shape P cs (lf_dec_r pf) /\ fold_shape P cs (lf_fold pf) /\
  Forall (fun c => opens P A cs (lc_cm c) (opn (lc_cm c))) (parts_l h acc z ++ parts_r h z) /\
  opn (lc_cm acc) = wsum P n (opened (parts_l h acc z)) /\
  opn (i_cm (fst (adv h))) = wsum P n (opened (parts_r h z)) /\
  opn (lc_cm (out h acc z)) = comb_wit P n (rho_of y decode (snd z)) (opened (parts_l h acc z) ++ opened (parts_r h z)).
(** What the step claims: accumulator and instance are true, the components are short. *)
Definition claim (h : list draw) (acc : lcccs R) (z : draw) : Prop :=
  lcccs_rel P A cs acc (opn (lc_cm acc)) /\ cccs_rel P A cs (fst (adv h)) (opn (i_cm (fst (adv h)))) /\
  forall i w, nth_error (opened (parts_l h acc z) ++ opened (parts_r h z)) i = Some w -> (i < 2 * dp_K P - 1)%nat \/ tau = 1%nat -> wit_norm (Z.of_nat (dp_b P) - 1) w.
(** A chain of good steps with a true last accumulator. *)
Fixpoint good (h : list draw) (acc : lcccs R) (zs : list draw) : Prop :=
  match zs with
  | [] => lcccs_rel P A cs acc (opn (lc_cm acc))
  | z :: zs' => step_good h acc z /\ good (h ++ [z]) (out h acc z) zs'
  end.
(** All claims of all steps hold. *)
Fixpoint claims (h : list draw) (acc : lcccs R) (zs : list draw) : Prop :=
  match zs with
  | [] => True
  | z :: zs' => claim h acc z /\ claims (h ++ [z]) (out h acc z) zs'
  end.

Definition draw_dec : forall a b : draw, {a = b} + {a <> b}.
Proof. intros [a b] [a' b']. destruct (kl_dec a a') as [->|]; [|right; congruence]. destruct (list_eq_dec (list_eq_dec Z.eq_dec) b b') as [->|]; [left; reflexivity|right; congruence]. Defined.

(** The number of bad draws of one step. *)
Definition step_err (S : list K) (S0 : list (list Z)) : nat :=
  ((c_s cs + c_s cs * (c_d cs + 1) + ((6 * dp_K P - 1 + c_s cs) * Nat.max tau (c_t cs) + c_s cs * (2 * dp_b P))) * length S ^ (n_coins P cs + m - 1) * length S0 ^ m
     + length S ^ (n_coins P cs + m) * length S0 ^ (m - 1))%nat.
Theorem C112_chain (S : list K) (S0 : list (list Z)) :
  sizes_ok p P cs -> degree_ok cs -> (Z.of_nat (c_d cs + 1) < p)%Z -> (2 * Z.of_nat (dp_b P) < p)%Z ->
  NoDup S -> (Nat.max tau (c_t cs) < length S)%nat -> Forall (bytes need) S0 ->
  let U := list_prod (tuples (n_coins P cs + m) S) (tuples m S0) in
  forall k h acc, length (lc_r acc) = c_s cs ->
  few (fun zs => In zs (tuples k U) /\ good h acc zs /\ ~ claims h acc zs) (k * (length U ^ (k - 1) * step_err S S0)).
Proof.
  intros Hsz Hd Hcd Hcb HS Hq HB U k. induction k as [|k IH]; intros h acc Hra.
  { apply few_none. intros zs (H1 & _ & H2). apply in_tuples in H1 as [H1 _]. destruct zs; [|discriminate]. apply H2. exact I. }
  eapply few_weaken; [| |apply (few_em _ (fun zs => match zs with [] => True | z :: zs' => claims (h ++ [z]) (out h acc z) zs' end)
     (length U ^ k * step_err S S0) (length U * (k * (length U ^ (k - 1) * step_err S S0))))].
  - intros zs H. exact H.
  - rewrite Nat.sub_succ, Nat.sub_0_r. destruct k as [|k]; [cbn [Nat.mul]; lia|]. rewrite Nat.sub_succ, Nat.sub_0_r. cbn [Nat.pow]. nia.
  - eapply few_weaken; [|apply le_n|].
    2: { replace (length U ^ k * step_err S S0)%nat with (length U ^ k * step_err S S0 + length U * 0)%nat by lia.
      apply (few_cons draw_dec U k (fun z zs => good h acc (z :: zs) /\ ~ claim h acc z /\ claims (h ++ [z]) (out h acc z) zs) (fun _ _ => False)); [|intros z _; apply few_none; tauto].
      intros zs Hzs. eapply few_weaken; [|apply le_n|apply (C109_nifs y decode need RR P A cs acc (fst (adv h)) opn (w_ccs (opn (i_cm (fst (adv h))))) (snd (adv h)) S S0 Hsz Hd Hcd Hcb HS Hq Hra HB)].
      intros [x bs] (Hz & [(([lc ts'] & HV) & G1 & G2 & G3 & G4 & G5 & G6 & G7) Hrest] & HN & HC). apply in_prod_iff in Hz as [Hx Hb]. split; [exact Hx|]. split; [exact Hb|].
      cbn [fooled_all]. exists lc, ts'. unfold run in HV. cbn [fst snd] in *.
      assert (out h acc (x, bs) = lc) as Eo by (unfold out, run; cbn [fst snd]; rewrite HV; reflexivity). rewrite Eo in *.
      split; [exact HV|]. split; [exact G1|]. split; [exact G2|]. split; [exact G3|]. split; [exact G4|]. split.
      { destruct zs as [|z' zs]; [exact Hrest|]. apply HC. }
      split; [rewrite G7; reflexivity|]. split; [rewrite G6; reflexivity|]. intros (T1 & T2 & T3). apply HN. split; [|split]; [rewrite G5; exact T1|rewrite G6; exact T2|exact T3]. }
    intros [|z zs] [(H1 & H2 & H3) H4]; [destruct (H3 I)|]. split; [exact H1|]. left. split; [exact H2|]. split; [|exact H4]. intros Hc. apply H3. split; auto.
  - eapply few_weaken; [|apply le_n|].
    2: { replace (length U * _)%nat with (length U ^ k * 0 + length U * (k * (length U ^ (k - 1) * step_err S S0)))%nat by lia.
      apply (few_cons draw_dec U k (fun _ _ => False) (fun z zs => good h acc (z :: zs) /\ ~ claims (h ++ [z]) (out h acc z) zs)); [intros zs _; apply few_none; tauto|].
      intros z _. apply few_if. intros zs0 (_ & [(([lc ts'] & HV) & _) _] & _).
      eapply few_weaken; [|apply le_n|apply (IH (h ++ [z]) (out h acc z))].
      - intros zs (H1 & [_ H2] & H3). auto.
      - unfold out. rewrite HV. exact (nifs_out_len _ _ _ _ _ _ _ _ HV). }
    intros [|z zs] [(H1 & H2 & _) H4]; [destruct (H4 I)|]. split; [exact H1|]. right. auto.
Qed.
(** All challenges and all byte strings: a chain of [k] steps that ends with a true accumulator but folded in something false happens with probability at most k 2^-119. *)
Theorem C112_error (S0 : list (list Z)) acc :
  sizes_ok p P cs -> degree_ok cs -> (Z.of_nat (c_d cs + 1) < p)%Z -> (2 * Z.of_nat (dp_b P) < p)%Z -> length (lc_r acc) = c_s cs ->
  (Z.of_nat (c_s cs + c_s cs * (c_d cs + 1) + ((6 * dp_K P - 1 + c_s cs) * Nat.max tau (c_t cs) + c_s cs * (2 * dp_b P))) <= 2 ^ 63)%Z ->
  Forall (bytes need) S0 -> length S0 = (256 ^ need)%nat ->
  let U := list_prod (tuples (n_coins P cs + m) (all_challenges y)) (tuples m S0) in
  forall k L, NoDup L -> Forall (fun zs => In zs (tuples k U) /\ good [] acc zs /\ ~ claims [] acc zs) L ->
    (2 ^ 119 * Z.of_nat (length L) <= Z.of_nat k * Z.of_nat (length U) ^ Z.of_nat k)%Z.
Proof.
  intros Hsz Hd Hcd Hcb Hra HN HB LB U k L H1 H2. destruct (C90_challenges y decode need RR) as (HS & _ & H3 & H4). pose proof (so_K _ _ _ Hsz) as HK.
  assert (2 ^ 120 <= Z.of_nat (length S0))%Z as HB0.
  { rewrite LB, Nat2Z.inj_pow. change (Z.of_nat 256) with 256%Z. exact (real_need y decode need RR). }
  set (er := (c_s cs + c_s cs * (c_d cs + 1) + ((6 * dp_K P - 1 + c_s cs) * Nat.max tau (c_t cs) + c_s cs * (2 * dp_b P)))%nat) in *.
  rewrite <- H3 in H4. set (q := length (all_challenges y)) in *.
  assert (Nat.max tau (c_t cs) < q)%nat as Hq.
  { apply Nat2Z.inj_lt. eapply Z.lt_le_trans; [|exact H4]. apply Z.le_lt_trans with (m := (2 ^ 63)%Z); [|reflexivity]. etransitivity; [|exact HN]. apply Nat2Z.inj_le. unfold er. nia. }
  apply (C112_chain (all_challenges y) S0 Hsz Hd Hcd Hcb HS Hq HB k [] acc Hra) in H2; auto. fold U in H2.
  unfold step_err in H2. fold er q in H2. set (N := (n_coins P cs + m)%nat) in *. set (B := length S0) in *.
  destruct k as [|k]; [cbn [Nat.mul] in H2; lia|]. rewrite Nat.sub_succ, Nat.sub_0_r in H2.
  assert (length U = q ^ N * B ^ m)%nat as EU by (unfold U; rewrite prod_length, !tuples_length; reflexivity).
  apply Nat2Z.inj_le in H2. rewrite !Nat2Z.inj_mul, Nat2Z.inj_add, !Nat2Z.inj_mul, !Nat2Z.inj_pow in H2.
  assert (Z.of_nat (length U) = Z.of_nat q ^ Z.of_nat N * Z.of_nat B ^ Z.of_nat m)%Z as EZ by (rewrite EU, Nat2Z.inj_mul, !Nat2Z.inj_pow; reflexivity).
  assert (Z.of_nat q ^ Z.of_nat N = Z.of_nat q * Z.of_nat q ^ Z.of_nat (N - 1))%Z as EN.
  { replace N with (Datatypes.S (N - 1)) at 1 by (unfold N; lia). rewrite Nat2Z.inj_succ, Z.pow_succ_r by lia. reflexivity. }
  assert (Z.of_nat B ^ Z.of_nat m = Z.of_nat B * Z.of_nat B ^ Z.of_nat (m - 1))%Z as EB.
  { replace m with (Datatypes.S (m - 1)) at 1 by lia. rewrite Nat2Z.inj_succ, Z.pow_succ_r by lia. reflexivity. }
  assert (Z.of_nat (length U) ^ Z.of_nat (Datatypes.S k) = Z.of_nat (length U) * Z.of_nat (length U) ^ Z.of_nat k)%Z as EP by (rewrite Nat2Z.inj_succ, Z.pow_succ_r by lia; reflexivity).
  rewrite EP. set (W := (Z.of_nat (length U) ^ Z.of_nat k)%Z) in *. assert (0 <= W)%Z as HW by (apply Z.pow_nonneg; lia).
  rewrite EZ. rewrite EN, EB in *. set (u := (Z.of_nat q ^ Z.of_nat (N - 1))%Z) in *. set (v := (Z.of_nat B ^ Z.of_nat (m - 1))%Z) in *.
  assert (0 <= u)%Z as Hu by (apply Z.pow_nonneg; lia). assert (0 <= v)%Z as Hv by (apply Z.pow_nonneg; lia).
  set (e := Z.of_nat er) in *. set (qz := Z.of_nat q) in *. set (bz := Z.of_nat B) in *. set (kz := Z.of_nat (Datatypes.S k)) in *.
  assert (2 ^ 119 * (e * u * (bz * v) + qz * u * v) <= qz * u * (bz * v))%Z as Hs.
  { set (a := qz) in *. set (b := bz) in *. clearbody a b e u v. clear - H4 HB0 HN Hu Hv.
    assert (2 ^ 128 * e <= a)%Z as Q1. { etransitivity; [|exact H4]. change (2 ^ 191)%Z with (2 ^ 128 * 2 ^ 63)%Z. apply Z.mul_le_mono_nonneg_l; [lia|exact HN]. }
    assert (2 ^ 128 * (e * u * (b * v)) <= a * u * (b * v))%Z as Q2.
    { transitivity (2 ^ 128 * e * (u * (b * v)))%Z; [apply Z.eq_le_incl; ring|]. rewrite <- (Z.mul_assoc a). apply Z.mul_le_mono_nonneg_r; [|exact Q1].
      apply Z.mul_nonneg_nonneg; [exact Hu|]. apply Z.mul_nonneg_nonneg; [|exact Hv]. eapply Z.le_trans; [|exact HB0]. lia. }
    assert (2 ^ 120 * (a * u * v) <= a * u * (b * v))%Z as Q3.
    { replace (a * u * (b * v))%Z with (b * (a * u * v))%Z by ring. apply Z.mul_le_mono_nonneg_r; [|exact HB0].
      apply Z.mul_nonneg_nonneg; [|exact Hv]. apply Z.mul_nonneg_nonneg; [|exact Hu]. eapply Z.le_trans; [|exact H4]. lia. }
    assert (0 <= a * u * (b * v))%Z as Q4.
    { assert (0 <= a)%Z by lia. assert (0 <= b)%Z by lia. apply Z.mul_nonneg_nonneg; apply Z.mul_nonneg_nonneg; auto. }
    change (2 ^ 128)%Z with (2 ^ 119 * 512)%Z in Q2. change (2 ^ 120)%Z with (2 ^ 119 * 2)%Z in Q3. set (t := (2 ^ 119)%Z) in *.
    clearbody t. set (X := (e * u * (b * v))%Z) in *. set (Y := (a * u * v)%Z) in *. set (W := (a * u * (b * v))%Z) in *. lia. }
  assert (0 <= kz)%Z as Hk by (unfold kz; lia).
  set (t := (2 ^ 119)%Z) in *. assert (0 <= t)%Z as Ht by (unfold t; lia). clearbody t.
  apply Z.le_trans with (m := (t * (kz * (W * (e * u * (bz * v) + qz * u * v))))%Z); [apply Z.mul_le_mono_nonneg_l; [exact Ht|exact H2]|].
  apply Z.le_trans with (m := (kz * W * (t * (e * u * (bz * v) + qz * u * v)))%Z); [apply Z.eq_le_incl; ring|].
  apply Z.le_trans with (m := (kz * W * (qz * u * (bz * v)))%Z); [apply Z.mul_le_mono_nonneg_l; [apply Z.mul_nonneg_nonneg; assumption|exact Hs]|]. apply Z.eq_le_incl. ring.
Qed.
End Chain.

(** The byte strings of length [n]. *)
Definition byte_strings (n : nat) : list (list Z) := tuples n (map Z.of_nat (seq 0 256)).
Lemma byte_strings_ok n : Forall (bytes n) (byte_strings n) /\ length (byte_strings n) = (256 ^ n)%nat /\ NoDup (byte_strings n) /\ forall b, bytes n b -> In b (byte_strings n).
Proof.
  unfold byte_strings. split; [|split; [|split]].
  - apply Forall_forall. intros b Hb. apply in_tuples in Hb as [L H]. split; [exact L|]. eapply Forall_impl; [|exact H]. intros z Hz. cbn beta in Hz.
    apply in_map_iff in Hz as (i & <- & Hi). apply in_seq in Hi. unfold is_byte. lia.
  - rewrite tuples_length, map_length, seq_length. reflexivity.
  - apply tuples_NoDup. apply FinFun.Injective_map_NoDup; [intros a b; apply Nat2Z.inj|apply seq_NoDup].
  - intros b [L H]. apply in_tuples. split; [exact L|]. eapply Forall_impl; [|exact H]. unfold is_byte. intros z Hz. apply in_map_iff. exists (Z.to_nat z). split; [lia|]. apply in_seq. lia.
Qed.
(** The shipped parameter sets, systems with fewer than 2^13 matrices and degree and up to 2^(2^32) rows. *)
Theorem C112_shipped {p K} (y : cyc p K) decode need W G (SH : shipped p K y decode need W G) P : In P (W ++ G) ->
  forall (A : ajtai (pol K (cy_k y))) cs acc (opn : list (pol K (cy_k y)) -> witness (pol (fp p) (cy_d y)) (pol K (cy_k y))) adv,
  ccs_good (p := p) y P cs -> (Z.of_nat (c_d cs) < 2 ^ 13)%Z -> (Z.of_nat (c_t cs) <= 2 ^ 13)%Z -> (Z.of_nat (c_s cs) <= 2 ^ 32)%Z -> length (lc_r acc) = c_s cs ->
  let U := list_prod (tuples (n_coins P cs + (2 * dp_K P - 1)) (all_challenges y)) (tuples (2 * dp_K P - 1) (byte_strings need)) in
  forall k L, NoDup L -> Forall (fun zs => In zs (tuples k U) /\ good y decode P A cs opn adv [] acc zs /\ ~ claims y decode P A cs opn adv [] acc zs) L ->
    (2 ^ 119 * Z.of_nat (length L) <= Z.of_nat k * Z.of_nat (length U) ^ Z.of_nat k)%Z.
Proof.
  intros HP A cs acc opn adv HC Hd Ht Hs Hra. pose proof (shipped_ok y decode need W G SH P cs HP HC) as HO. destruct (byte_strings_ok need) as (B1 & B2 & _).
  assert (Z.of_nat (Nat.max (cy_e y) (2 * dp_b P)) <= 2 ^ 13 /\ Z.of_nat (6 * dp_K P) <= 2 ^ 13)%Z as [Hm HK].
  { assert (forallb (fun P => (Z.of_nat (Nat.max (cy_e y) (2 * dp_b P)) <=? 2 ^ 13)%Z && (Z.of_nat (6 * dp_K P) <=? 2 ^ 13)%Z) (W ++ G) = true) as H by (clear - SH; destruct SH; vm_compute; reflexivity).
    rewrite forallb_forall in H. specialize (H P HP). apply andb_prop in H as [H1 H2]. split; apply Z.leb_le; assumption. }
  pose proof (dg_bp _ _ (shipped_good y decode need W G P SH HP)) as Hbp.
  apply (C112_error y decode need (shipped_real y decode need W G SH) P A cs opn adv (byte_strings need) acc); auto; [apply HO|apply HC|apply HC|].
  change (Z.of_nat (c_s cs + c_s cs * (c_d cs + 1) + ((6 * dp_K P - 1 + c_s cs) * Nat.max (cy_e y) (c_t cs) + c_s cs * (2 * dp_b P))) <= 2 ^ 63)%Z.
  set (t := Nat.max (cy_e y) (c_t cs)) in *. assert (Z.of_nat t <= 2 ^ 13)%Z as Ht' by (unfold t; lia). assert (Z.of_nat (2 * dp_b P) <= 2 ^ 13)%Z as Hb by lia.
  rewrite !Nat2Z.inj_add, !Nat2Z.inj_mul, !Nat2Z.inj_add. rewrite Nat2Z.inj_mul in Hb. set (s := Z.of_nat (c_s cs)) in *. set (d := Z.of_nat (c_d cs)) in *.
  assert (Z.of_nat (6 * dp_K P - 1) <= 2 ^ 13)%Z as HK' by lia. set (kk := Z.of_nat (6 * dp_K P - 1)) in *. set (tt := Z.of_nat t) in *. change (Z.of_nat 1) with 1%Z.
  assert (0 <= s /\ 0 <= d /\ 0 <= kk /\ 0 <= tt)%Z as (P1 & P2 & P3 & P4) by (unfold s, d, kk, tt; lia).
  assert (s * (d + 1) <= 2 ^ 32 * 2 ^ 13)%Z by (apply Z.mul_le_mono_nonneg; lia).
  assert ((kk + s) * tt <= 2 ^ 33 * 2 ^ 13)%Z by (apply Z.mul_le_mono_nonneg; lia).
  assert (s * (Z.of_nat 2 * Z.of_nat (dp_b P)) <= 2 ^ 32 * 2 ^ 13)%Z by (apply Z.mul_le_mono_nonneg; lia). lia.
Qed.
