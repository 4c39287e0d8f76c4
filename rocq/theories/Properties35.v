(** C119: chains of folding steps in the random oracle model when only the last output is assumed to hold. *)
From Coq Require Import String List Arith Lia ZArith Bool Ring.
From Verif Require Import Prelude Alg Poly MLE MLE_Proofs Zippel Counting Transcript Interp Sumcheck Sumcheck_Proofs CombDeg
  Arith Arith_Proofs Balanced Rings Rings_Proofs Linearization Linearization_Proofs Relations LinRel
  Decomposition Decomposition_Proofs Folding Folding_Comb Folding_Proofs Folding_Complete Folding_Sound NIFS NIFS_Proofs
  Challenge Challenge_Proofs PolyInst Primes FieldExt CycInst RealRings ShortDual Sampling Shipped Fork Properties9 Properties12 Properties13
  SoundErr RandomOracle NIFS_RO Extract RhoErr AdaptRO ShortRO Properties16 Properties21 Properties25.
Import ListNotations.
Local Open Scope rs_scope.

(** * C119
    The oracle answers every question with a challenge of [S] and with [m = 2K-1] seeds of [S0], from which [dec] makes the short challenges.  An adversary
    asks [Q] questions.  At most the stated number of vectors of answers admit a chain of accepted steps, of any length, whose last output holds although
    an input of some step does not.  Nothing is assumed about the theta and eta of the proofs, nor about the outputs in between.
    [opn], [opw] and [opf] are the openings of commitments (binding). *)
Theorem C119_chain {F K C R} {SO : SOps F K C R} {p} {SL : SLaws F K C R p} {X} (d0 : X) (eqX : forall a b : X, {a = b} + {a <> b}) (dec : X -> C)
    P (A : ajtai R) (cs : ccs R) (opn : list R -> witness C R) opw opf cont (S : list K) (S0 : list X) Q (qry : list (K * list X) -> list (ev R K)) l0 :
  let m := (2 * dp_K P - 1)%nat in
  sizes_ok p P cs -> degree_ok cs -> char_gt K (c_d cs + 1) -> char_gt K (2 * dp_b P) -> (2 * Z.of_nat (dp_b P) <= p + 1)%Z ->
  NoDup S -> (Nat.max tau (c_t cs) < length S)%nat ->
  (forall a b, In a S0 -> In b S0 -> a <> b -> exists d, d * (dec a - dec b) = 1) ->
  few (fun x => In x (tuples Q (list_prod S (tuples m S0))) /\ fools_last d0 dec P A cs opn opw opf cont qry l0 x)
    (Q * (Nat.max (c_d cs + 1) (Nat.max (Nat.max tau (c_t cs)) (2 * dp_b P)) * length S0 ^ m + length S * length S0 ^ (m - 1)) * (length S * length S0 ^ m) ^ (Q - 1)).
Proof. intros m. apply (chain_last d0 eqX dec). Qed.

Lemma last_bits (L Q e a b m : nat) : (1 <= Q)%nat -> (1 <= m)%nat -> (L <= Q * (e * b ^ m + a * b ^ (m - 1)) * (a * b ^ m) ^ (Q - 1))%nat ->
  (Z.of_nat e <= 2 ^ 63)%Z -> (2 ^ 191 <= Z.of_nat a)%Z -> (2 ^ 120 <= Z.of_nat b)%Z ->
  (2 ^ 119 * Z.of_nat L <= Z.of_nat Q * (Z.of_nat a * Z.of_nat b ^ Z.of_nat m) ^ Z.of_nat Q)%Z.
Proof.
  intros HQ Hm HL He Ha Hb. apply Nat2Z.inj_le in HL. repeat rewrite ?Nat2Z.inj_mul, ?Nat2Z.inj_add, ?Nat2Z.inj_pow in HL.
  assert (Z.of_nat b ^ Z.of_nat m = Z.of_nat b * Z.of_nat b ^ Z.of_nat (m - 1))%Z as EB by (rewrite <- Z.pow_succ_r by lia; f_equal; lia).
  assert (forall z, z ^ Z.of_nat Q = z * z ^ Z.of_nat (Q - 1))%Z as EQ by (intros z; rewrite <- Z.pow_succ_r by lia; f_equal; lia).
  rewrite EQ, EB in *. set (v := (Z.of_nat b ^ Z.of_nat (m - 1))%Z) in *. set (u := ((Z.of_nat a * (Z.of_nat b * v)) ^ Z.of_nat (Q - 1))%Z) in *.
  assert (0 <= v)%Z as Hv by (apply Z.pow_nonneg; lia). assert (0 <= u)%Z as Hu by (apply Z.pow_nonneg; apply Z.mul_nonneg_nonneg; [lia|apply Z.mul_nonneg_nonneg; [lia|exact Hv]]).
  set (A := Z.of_nat a) in *. set (B := Z.of_nat b) in *. set (E := Z.of_nat e) in *. set (l := Z.of_nat L) in *. set (q := Z.of_nat Q) in *.
  assert (0 <= q)%Z as Hq0 by lia. assert (0 <= E)%Z as HE by lia. clearbody A B E l q u v. clear - HL He Ha Hb Hv Hu Hq0 HE.
  assert (2 ^ 119 * (E * (B * v) + A * v) <= A * (B * v))%Z as HH.
  { assert (0 <= B * v)%Z as HBv by (apply Z.mul_nonneg_nonneg; [lia|exact Hv]). assert (0 <= A * v)%Z as HAv by (apply Z.mul_nonneg_nonneg; [lia|exact Hv]).
    assert (2 * 2 ^ 119 * E <= A)%Z as Q1. { etransitivity; [|exact Ha]. change (2 ^ 191)%Z with (2 ^ 128 * 2 ^ 63)%Z. etransitivity; [apply Z.mul_le_mono_nonneg_l; [lia|exact He]|]. apply Z.mul_le_mono_nonneg_r; lia. }
    apply (Z.mul_le_mono_nonneg_r _ _ (B * v) HBv) in Q1. pose proof (Z.mul_le_mono_nonneg_r _ _ (A * v) HAv Hb) as Q2.
    change (2 ^ 120)%Z with (2 * 2 ^ 119)%Z in Q2. replace (B * (A * v))%Z with (A * (B * v))%Z in Q2 by ring.
    set (t := (2 ^ 119)%Z) in *. clearbody t. replace (2 * t * E * (B * v))%Z with (2 * (t * (E * (B * v))))%Z in Q1 by ring. replace (2 * t * (A * v))%Z with (2 * (t * (A * v)))%Z in Q2 by ring.
    rewrite Z.mul_add_distr_l. lia. }
  apply (Z.mul_le_mono_nonneg_l _ _ (2 ^ 119)) in HL; [|lia]. etransitivity; [exact HL|].
  apply (Z.mul_le_mono_nonneg_r _ _ (q * u)) in HH; [|apply Z.mul_nonneg_nonneg; auto].
  set (t := (2 ^ 119)%Z) in *. clearbody t. replace (t * (q * (E * (B * v) + A * v) * u))%Z with (t * (E * (B * v) + A * v) * (q * u))%Z by ring.
  replace (q * (A * (B * v) * u))%Z with (A * (B * v) * (q * u))%Z by ring. exact HH.
Qed.

(** The short challenge that the bytes [b] decode to. *)
Definition short_seed {p K} (y : cyc p K) (decode : list Z -> result (list Z)) (b : list Z) : pol (fp p) (cy_d y) := elt_of p (cy_d y) (match decode b with Ok c => c | _ => [] end).
(** The shipped rings and parameters: with 2^50 questions, probability at most 2^-69, whatever the number of steps.
    [S0] are all strings of [need] bytes, the number that the squeeze of a short challenge asks for. *)
Theorem C119_shipped {p K} (y : cyc p K) decode need W G (SH : shipped p K y decode need W G) P : In P (W ++ G) ->
  forall (A : ajtai (pol K (cy_k y))) cs (opn : list (pol K (cy_k y)) -> witness (pol (fp p) (cy_d y)) (pol K (cy_k y))) opw opf cont Q qry l0 S0,
  let m := (2 * dp_K P - 1)%nat in
  ccs_good (p := p) y P cs -> (Z.of_nat (c_d cs) < 2 ^ 13)%Z -> (Z.of_nat (c_t cs) <= 2 ^ 13)%Z -> (1 <= Q)%nat -> (Z.of_nat Q <= 2 ^ 50)%Z ->
  Forall (bytes need) S0 -> Z.of_nat (length S0) = (256 ^ Z.of_nat need)%Z ->
  forall L, NoDup L -> Forall (fun x => In x (tuples Q (list_prod (all_challenges y) (tuples m S0))) /\
      fools_last (SO := cyc_ops y) [] (short_seed y decode) P A cs opn opw opf cont qry l0 x) L ->
    (2 ^ 69 * Z.of_nat (length L) <= (Z.of_nat (length (all_challenges y)) * Z.of_nat (length S0) ^ Z.of_nat m) ^ Z.of_nat Q)%Z.
Proof.
  intros HP A cs opn opw opf cont Q qry l0 S0 m HC Hd Ht HQ HQ2 HB H0 L HN HL. pose proof (shipped_ok y decode need W G SH P cs HP HC) as HO.
  pose proof (dg_bp _ _ (shipped_good y decode need W G P SH HP)) as Hbp. pose proof (shipped_real y decode need W G SH) as RR.
  destruct (C90_challenges y decode need RR) as (H1 & _ & H3 & H4).
  assert (Z.of_nat (Nat.max (cy_e y) (2 * dp_b P)) <= 2 ^ 13)%Z as Hs.
  { apply Z.leb_le. revert P HP m HC HO Hbp opn opw opf qry L HN HL. clear - SH.
    assert (forallb (fun P => Z.of_nat (Nat.max (cy_e y) (2 * dp_b P)) <=? 2 ^ 13)%Z (W ++ G) = true) as H by (destruct SH; vm_compute; reflexivity).
    rewrite forallb_forall in H. intros P HP _ _ _ _ _ _ _ _ _ _ _. apply H. exact HP. }
  assert (sizes_ok p P cs) as Hsz by apply HO. pose proof (so_K _ _ _ Hsz) as HK.
  refine ((fun F => _) (C119_chain (SL := real_laws y decode need RR) [] (list_eq_dec Z.eq_dec) (short_seed y decode) P A cs opn opw opf cont (all_challenges y) S0 Q qry l0
    Hsz _ _ _ _ H1 _ _ L HN HL)); [|apply HC|apply (real_char y decode need RR); apply HC|apply (real_char y decode need RR); lia|lia|..].
  - pose proof (last_bits _ _ _ _ _ m HQ ltac:(unfold m; lia) F) as Z1. cbv zeta in Z1. clear F.
    assert (2 ^ 119 * Z.of_nat (length L) <= Z.of_nat Q * (Z.of_nat (length (all_challenges y)) * Z.of_nat (length S0) ^ Z.of_nat m) ^ Z.of_nat Q)%Z as Z2.
    { apply Z1.
      - change (Z.of_nat (Nat.max (c_d cs + 1) (Nat.max (Nat.max (cy_e y) (c_t cs)) (2 * dp_b P))) <= 2 ^ 63)%Z. transitivity (2 ^ 13)%Z; [clear - Hd Ht Hs; lia|discriminate].
      - rewrite H3. exact H4.
      - rewrite H0. apply (real_need y decode need RR). }
    set (z := ((Z.of_nat (length (all_challenges y)) * Z.of_nat (length S0) ^ Z.of_nat m) ^ Z.of_nat Q)%Z) in *.
    assert (0 <= z)%Z as Hz by (apply Z.pow_nonneg, Z.mul_nonneg_nonneg; [lia|apply Z.pow_nonneg; lia]).
    set (l := Z.of_nat (length L)) in *. clearbody z l. clear - Z2 Hz HQ2.
    apply (Z.mul_le_mono_nonneg_r _ _ z Hz) in HQ2. change (2 ^ 119)%Z with (2 ^ 50 * 2 ^ 69)%Z in Z2. lia.
  - apply Nat2Z.inj_lt. rewrite H3. eapply Z.lt_le_trans; [|exact H4]. change (Z.of_nat (Nat.max (cy_e y) (c_t cs)) < 2 ^ 191)%Z. apply Z.le_lt_trans with (m := (2 ^ 13)%Z); [lia|reflexivity].
  - destruct (real_facts y decode need RR) as (_ & _ & _ & _ & SS & lo & hi & GD). rewrite Forall_forall in HB.
    intros a b Ia Ib Hab. destruct GD as (_ & GG & _). destruct (GG _ (HB _ Ia)) as (c1 & E1 & _). destruct (GG _ (HB _ Ib)) as (c0 & E0 & _).
    destruct (SS _ _ c1 c0 (HB _ Ia) (HB _ Ib)) as [u Hu]; auto. exists u. unfold short_seed. rewrite E1, E0. exact Hu.
Qed.
