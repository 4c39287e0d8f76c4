(** The decomposition parameters shipped with the repository, in the rings they are used with: which of them leave room for the
    norm growth of folding. *)
From Coq Require Import String List Arith Lia ZArith Bool Ring Znumtheory.
From Verif Require Import Prelude Alg Poly MLE MLE_Proofs Transcript
  Arith Arith_Proofs Balanced Rings Rings_Proofs Relations LinRel
  Decomposition Decomposition_Proofs Folding Folding_Complete Folding_Sound NIFS NIFS_Proofs
  Challenge Challenge_Proofs PolyInst Primes FieldExt CycInst RealRings ShortDual Sampling.
Import ListNotations.
Local Open Scope rs_scope.

(** * Multiplication by powers of X in coefficients *)
Section Rot.
Context {p : Z} {K : Type} (y : cyc p K) (Hp : prime p) (Hp2 : (2 < p)%Z) (XL : ext_laws y) (CK : cyc_check y = true).
Notation F := (fp p).
Notation C := (pol F (cy_d y)).
Notation R := (pol K (cy_k y)).
Local Instance SOr : SOps F K C R := cyc_ops y.
Local Instance SLr : SLaws F K C R p := cyc_laws y Hp Hp2 XL CK.
Add Ring Fring75 : (@rlaws_th F _ (fld_laws (FieldLaws := fp_laws p Hp))).
(** The coefficient of X^t in X^d. *)
Definition psi_at (t : nat) : F := if (t mod cy_e y =? 0)%nat then nth (t / cy_e y) (resize (cy_k y) 0 (cy_psi y)) 0 else 0.
Lemma co_rot (x : C) t : (t < cy_d y)%nat -> co (c_rot y x) t = (match t with O => 0 | S t' => co x t' end) + co x (cy_d y - 1) * psi_at t.
Proof. intros Ht. unfold c_rot. rewrite co_mk by auto. reflexivity. Qed.
Lemma xpow_S i (x : C) : xpow (S i) x = c_rot y (xpow i x).
Proof. reflexivity. Qed.

(** X^d = -1 *)
Definition nega : Prop := forall t, (t < cy_d y)%nat -> psi_at t = if (t =? 0)%nat then - (1) else 0.
Lemma nega_xpow : nega -> forall i (x : C) t, (i <= cy_d y)%nat -> (t < cy_d y)%nat ->
  co (xpow i x) t = if (i <=? t)%nat then co x (t - i) else - co x (cy_d y + t - i).
Proof.
  intros HN. induction i as [|i IH]; intros x t Hi Ht.
  - cbn [Nat.leb]. rewrite Nat.sub_0_r. reflexivity.
  - rewrite xpow_S, co_rot, (IH x (cy_d y - 1)%nat), HN by lia. replace (i <=? cy_d y - 1)%nat with true by (symmetry; apply Nat.leb_le; lia).
    destruct t as [|t].
    + cbn [Nat.eqb Nat.leb]. replace (cy_d y + 0 - S i)%nat with (cy_d y - 1 - i)%nat by lia. ring.
    + rewrite IH by lia. cbn [Nat.eqb Nat.leb]. destruct (Nat.leb_spec i t).
      * replace (S t - S i)%nat with (t - i)%nat by lia. ring.
      * replace (cy_d y + S t - S i)%nat with (cy_d y + t - i)%nat by lia. ring.
Qed.
(** X^d = X^h - 1 with d = 2h *)
Definition trin (h : nat) : Prop := cy_d y = (2 * h)%nat /\ (1 <= h)%nat /\
  forall t, (t < cy_d y)%nat -> psi_at t = if (t =? 0)%nat then - (1) else if (t =? h)%nat then 1 else 0.
Lemma trin_low h : trin h -> forall i (x : C) t, (i <= h)%nat -> (t < cy_d y)%nat ->
  co (xpow i x) t = if (t <? i)%nat then - co x (cy_d y + t - i) else if (t <? h)%nat then co x (t - i)
                    else if (t <? h + i)%nat then co x (t - i) + co x (h + t - i) else co x (t - i).
Proof.
  intros (Hd & Hh & HT). induction i as [|i IH]; intros x t Hi Ht.
  - rewrite !Nat.sub_0_r, Nat.add_0_r. replace (t <? 0)%nat with false by (symmetry; apply Nat.ltb_ge; lia). destruct (t <? h)%nat; reflexivity.
  - rewrite xpow_S, co_rot, (IH x (cy_d y - 1)%nat), HT by lia.
    replace (cy_d y - 1 <? i)%nat with false by (symmetry; apply Nat.ltb_ge; lia). replace (cy_d y - 1 <? h)%nat with false by (symmetry; apply Nat.ltb_ge; lia).
    replace (cy_d y - 1 <? h + i)%nat with false by (symmetry; apply Nat.ltb_ge; lia).
    destruct t as [|t].
    + cbn [Nat.eqb Nat.ltb Nat.leb]. replace (cy_d y + 0 - S i)%nat with (cy_d y - 1 - i)%nat by lia. ring.
    + rewrite IH by lia. change (S t =? 0)%nat with false. cbv iota.
      replace (S t - S i)%nat with (t - i)%nat by lia. replace (cy_d y + S t - S i)%nat with (cy_d y + t - i)%nat by lia. replace (h + S t - S i)%nat with (h + t - i)%nat by lia.
      replace (h + S i)%nat with (S (h + i)) by lia. change (S t <? S i)%nat with (t <? i)%nat. change (S t <? S (h + i))%nat with (t <? h + i)%nat.
      destruct (Nat.eqb_spec (S t) h) as [E|E].
      * replace (t <? i)%nat with false by (symmetry; apply Nat.ltb_ge; lia). replace (t <? h)%nat with true by (symmetry; apply Nat.ltb_lt; lia).
        replace (S t <? h)%nat with false by (symmetry; apply Nat.ltb_ge; lia). replace (t <? h + i)%nat with true by (symmetry; apply Nat.ltb_lt; lia).
        replace (cy_d y - 1 - i)%nat with (h + t - i)%nat by lia. ring.
      * destruct (Nat.ltb_spec t i); [ring|]. replace (S t <? h)%nat with (t <? h)%nat by (apply eq_true_iff_eq; rewrite !Nat.ltb_lt; lia).
        destruct (t <? h)%nat; [ring|]. destruct (t <? h + i)%nat; ring.
Qed.
Lemma xpow_add i j (x : C) : xpow (i + j) x = xpow i (xpow j x).
Proof. induction i as [|i IH]; [reflexivity|]. cbn [Nat.add]. rewrite !xpow_S, IH. reflexivity. Qed.
Lemma trin_high h : trin h -> forall i (x : C) t, (i < h)%nat -> (t < cy_d y)%nat ->
  co (xpow (i + h) x) t = if (t <? i)%nat then - (co x (h + t - i) + co x (cy_d y + t - i)) else if (t <? h)%nat then - co x (h + t - i)
                    else if (t <? h + i)%nat then co x (t - i) else co x (t - i) + co x (t - i - h).
Proof.
  intros HT i x t Hi Ht. pose proof HT as (Hd & Hh & _). rewrite xpow_add, (trin_low h HT i (xpow h x) t) by lia.
  destruct (Nat.ltb_spec t i).
  - rewrite (trin_low h HT h x (cy_d y + t - i)) by lia.
    replace (cy_d y + t - i <? h)%nat with false by (symmetry; apply Nat.ltb_ge; lia).
    replace (cy_d y + t - i <? h + h)%nat with true by (symmetry; apply Nat.ltb_lt; lia).
    replace (cy_d y + t - i - h)%nat with (h + t - i)%nat by lia. replace (h + (cy_d y + t - i) - h)%nat with (cy_d y + t - i)%nat by lia. ring.
  - destruct (Nat.ltb_spec t h).
    + rewrite (trin_low h HT h x (t - i)) by lia. replace (t - i <? h)%nat with true by (symmetry; apply Nat.ltb_lt; lia).
      replace (cy_d y + (t - i) - h)%nat with (h + t - i)%nat by lia. ring.
    + destruct (Nat.ltb_spec t (h + i)).
      * rewrite (trin_low h HT h x (t - i)), (trin_low h HT h x (h + t - i)) by lia. replace (t - i <? h)%nat with true by (symmetry; apply Nat.ltb_lt; lia).
        replace (h + t - i <? h)%nat with false by (symmetry; apply Nat.ltb_ge; lia). replace (h + t - i <? h + h)%nat with true by (symmetry; apply Nat.ltb_lt; lia).
        replace (cy_d y + (t - i) - h)%nat with (h + t - i)%nat by lia. replace (h + t - i - h)%nat with (t - i)%nat by lia. replace (h + (h + t - i) - h)%nat with (h + t - i)%nat by lia. ring.
      * rewrite (trin_low h HT h x (t - i)) by lia. replace (t - i <? h)%nat with false by (symmetry; apply Nat.ltb_ge; lia).
        replace (t - i <? h + h)%nat with true by (symmetry; apply Nat.ltb_lt; lia). replace (h + (t - i) - h)%nat with (t - i)%nat by lia. ring.
Qed.
Lemma cf_co j (c : C) : cf j c = co c j.
Proof. reflexivity. Qed.
Lemma signed_out j (c : C) : (cy_d y <= j)%nat -> signed (co c j) = 0%Z.
Proof. intros H. rewrite <- cf_co, (cf_out (SL := SLr)) by exact H. apply (signed_0 (SL := SLr)). Qed.
Lemma signed_opp_le (a : F) B : (Z.abs (signed a) <= B)%Z -> (Z.abs (signed (- a)%rs) <= B)%Z.
Proof. intros H. change (signed (SOps := SOr)) with (zsigned p) in *. rewrite (psigned_opp_abs p 2 Hp Hp2 (le_n 2) eq_refl). auto. Qed.
Lemma signed_add_le (a b : F) B : (Z.abs (signed a) <= B)%Z -> (Z.abs (signed b) <= B)%Z -> (Z.abs (signed (a + b)%rs) <= 2 * B)%Z.
Proof. intros H1 H2. eapply Z.le_trans; [apply (signed_add (SL := SLr))|]. lia. Qed.
Lemma norm_pos B (c : C) : cnorm_le B c -> (0 <= B)%Z.
Proof. intros H. specialize (H 0%nat). lia. Qed.
Theorem nega_expansion : nega -> expansion (SO := SOr) 1.
Proof.
  intros HN i B a Hi Ha j. rewrite Z.mul_1_l. pose proof (norm_pos B a Ha). change (dimC (SO := SOr)) with (cy_d y) in Hi. rewrite cf_co.
  destruct (Nat.lt_ge_cases j (cy_d y)); [|rewrite signed_out, Z.abs_0 by auto; lia].
  rewrite nega_xpow by (auto; lia). destruct (i <=? j)%nat; [|apply signed_opp_le]; rewrite <- cf_co; apply Ha.
Qed.
Theorem trin_expansion h : trin h -> expansion (SO := SOr) 2.
Proof.
  intros HT i B a Hi Ha j. pose proof (norm_pos B a Ha) as HB. pose proof HT as (Hd & Hh & _). change (dimC (SO := SOr)) with (cy_d y) in Hi. rewrite cf_co.
  destruct (Nat.lt_ge_cases j (cy_d y)); [|rewrite signed_out, Z.abs_0 by auto; lia].
  assert (forall t, Z.abs (signed (co a t)) <= B)%Z as Ha' by (intros t; rewrite <- cf_co; apply Ha).
  assert (forall v : F, Z.abs (signed v) <= B -> Z.abs (signed v) <= 2 * B)%Z as HW by (intros; lia).
  destruct (Nat.le_gt_cases i h) as [Hih|Hih].
  - rewrite (trin_low h HT) by auto. destruct (j <? i)%nat; [apply HW, signed_opp_le; auto|]. destruct (j <? h)%nat; [apply HW; auto|].
    destruct (j <? h + i)%nat; [apply signed_add_le; auto|apply HW; auto].
  - replace i with (i - h + h)%nat by lia. rewrite (trin_high h HT) by lia. destruct (j <? i - h)%nat; [apply signed_opp_le, signed_add_le; auto|].
    destruct (j <? h)%nat; [apply HW, signed_opp_le; auto|]. destruct (j <? h + (i - h))%nat; [apply HW; auto|apply signed_add_le; auto].
Qed.
End Rot.

(** * The four rings *)
Definition psi_table {p K} (y : cyc p K) (f : nat -> fp p) : bool := forallb (fun t => psi_at y t =? f t) (seq 0 (cy_d y)).
Lemma psi_table_ok {p K} (y : cyc p K) (Hp : prime p) f : psi_table y f = true -> forall t, (t < cy_d y)%nat -> psi_at y t = f t.
Proof.
  intros H t Ht. unfold psi_table in H. rewrite forallb_forall in H. specialize (H t ltac:(apply in_seq; lia)).
  apply (@req_true _ _ (fld_laws (FieldLaws := fp_laws p Hp))) in H. exact H.
Qed.
Lemma gold_trin : trin gold_cyc 12.
Proof. split; [reflexivity|]. split; [lia|]. apply (psi_table_ok gold_cyc gold_prime (fun t => if (t =? 0)%nat then - (1) else if (t =? 12)%nat then 1 else 0)). vm_compute. reflexivity. Qed.
Lemma bb_trin : trin bb_cyc 36.
Proof. split; [reflexivity|]. split; [lia|]. apply (psi_table_ok bb_cyc bb_prime (fun t => if (t =? 0)%nat then - (1) else if (t =? 36)%nat then 1 else 0)). vm_compute. reflexivity. Qed.
Lemma frog_nega_ring : nega frog_cyc.
Proof. intros t Ht. revert t Ht. apply (psi_table_ok frog_cyc frog_prime (fun t => if (t =? 0)%nat then - (1) else 0)). vm_compute. reflexivity. Qed.
Lemma stark_nega_ring : nega stark_cyc.
Proof. intros t Ht. revert t Ht. apply (psi_table_ok stark_cyc stark_prime (fun t => if (t =? 0)%nat then - (1) else 0)). vm_compute. reflexivity. Qed.

(** * Shipped parameters *)
(** decomposition_parameters.rs 73-113 [GoldilocksDP], [BabyBearDP], [FrogDP], [StarkDP], [StarkFoldingDP] and benches/config.toml (the
    rows of each ring without repetitions; kappa, n and x_len are no decomposition parameters). *)
Definition gold_tight : list dparams :=
  [DParams (2 ^ 15) 5 2 15; DParams 256 8 2 8; DParams 1024 7 2 10; DParams 2048 6 2 11; DParams 8192 5 2 13].
(** The Goldilocks rows that a fold never exceeds. *)
Definition gold_wide : list dparams := [DParams 65536 4 2 16; DParams 4194304 3 2 22; DParams 4294967296 2 2 32].
(** The BabyBear rows that a fold can exceed. *)
Definition bb_tight : list dparams :=
  [DParams (2 ^ 8) 4 2 8; DParams 16 8 2 4; DParams 32 7 2 5; DParams 64 6 2 6; DParams 128 5 2 7; DParams 2048 3 2 11].
(** The BabyBear rows that a fold never exceeds. *)
Definition bb_wide : list dparams := [DParams 65536 2 2 16].
(** The Frog rows that a fold can exceed. *)
Definition frog_tight : list dparams :=
  [DParams (2 ^ 8) 8 2 10; DParams 256 9 2 8; DParams 512 8 2 9; DParams 1024 7 2 10; DParams 4096 6 2 12; DParams 16384 5 2 14].
(** The Frog rows that a fold never exceeds. *)
Definition frog_wide : list dparams := [DParams 131072 4 2 17; DParams 8388608 3 2 23; DParams 17179869184 2 2 34].
(** The Stark rows; a fold never exceeds them. *)
Definition stark_wide : list dparams :=
  [DParams 10485760000 8 320 4; DParams 3010936384 8 38 6; DParams 268435456 9 2 28; DParams 4294967296 8 2 32; DParams 68719476736 7 2 36;
   DParams 4398046511104 6 2 42; DParams 2251799813685248 5 2 51; DParams 9223372036854775808 4 2 63; DParams 19342813113834066795298816 3 2 84;
   DParams 85070591730234615865843651857942052864 2 2 126].
(** Rings with their parameters: those whose K digits hold every folded witness, and the others. *)
Inductive shipped : forall (p : Z) (K : Type), cyc p K -> (list Z -> result (list Z)) -> nat -> list dparams -> list dparams -> Prop :=
| ship_gold : shipped gold_p cub gold_cyc gold_challenge 18 gold_wide gold_tight
| ship_bb : shipped bb_p cub bb_cyc bb_challenge 18 bb_wide bb_tight
| ship_frog : shipped frog_p quad frog_cyc frog_challenge 16 frog_wide frog_tight
| ship_stark : shipped stark_p (fp stark_p) stark_cyc stark_challenge 16 stark_wide [].
Lemma shipped_real {p K} (y : cyc p K) decode n W G : shipped p K y decode n W G -> real_ring p K y decode n.
Proof. intros []; constructor. Qed.
(** The documented side conditions (decomposition_parameters.rs 12-21) and those of the proofs. *)
Record dp_good (p : Z) (P : dparams) : Prop := {
  dg_B : (2 <= dp_B P)%Z; dg_L : (1 <= dp_L P)%nat; dg_b : (2 <= dp_b P)%nat; dg_K : (1 <= dp_K P)%nat;
  dg_p : (p < dp_B P ^ Z.of_nat (dp_L P))%Z;
  dg_Bb : (dp_B P <= Z.of_nat (dp_b P) ^ Z.of_nat (dp_K P))%Z;
  dg_bp : (2 * Z.of_nat (dp_b P) < p)%Z }.
Definition dp_goodb (p : Z) (P : dparams) : bool :=
  (2 <=? dp_B P)%Z && (1 <=? dp_L P)%nat && (2 <=? dp_b P)%nat && (1 <=? dp_K P)%nat && (p <? dp_B P ^ Z.of_nat (dp_L P))%Z &&
  (dp_B P <=? Z.of_nat (dp_b P) ^ Z.of_nat (dp_K P))%Z && (2 * Z.of_nat (dp_b P) <? p)%Z.
Lemma dp_goodb_ok p P : dp_goodb p P = true -> dp_good p P.
Proof.
  unfold dp_goodb. rewrite !andb_true_iff. intros ((((((H1 & H2) & H3) & H4) & H5) & H6) & H7).
  split; [apply Z.leb_le|apply Nat.leb_le|apply Nat.leb_le|apply Nat.leb_le|apply Z.ltb_lt|apply Z.leb_le|apply Z.ltb_lt]; auto.
Qed.
Theorem shipped_good {p K} (y : cyc p K) decode n W G P : shipped p K y decode n W G -> In P (W ++ G) -> dp_good p P.
Proof.
  intros S HP. apply dp_goodb_ok. revert P HP. apply forallb_forall. destruct S; vm_compute; reflexivity.
Qed.

(** * Norm growth *)
Section Growth.
Context {p : Z} {K : Type} (y : cyc p K) (decode : list Z -> result (list Z)) (need : nat) (RR : real_ring p K y decode need).
Notation F := (fp p).
Notation C := (pol F (cy_d y)).
Notation R := (pol K (cy_k y)).
Local Instance SOg : SOps F K C R := cyc_ops y.
Local Instance SLg : SLaws F K C R p := real_laws y decode need RR.
(** The squeezed strings are byte strings of the required length. *)
Definition squeezer {T} (sq : T -> list Z * T) : Prop := forall ts, bytes need (fst (sq ts)).
Lemma zp_ofZ z : zp p z = (rofZ z : F).
Proof. apply fp_ext. rewrite rofZ_fp. reflexivity. Qed.
Lemma drawn_bound {T} (sq : T -> list Z * T) lo hi B : squeezer sq -> good_decoder decode need p (cy_d y) lo hi -> (- B <= lo)%Z -> (hi <= B + 1)%Z -> (0 <= B)%Z ->
  forall c : C, drawn (HO := short_of y decode sq) c -> cnorm_le B c.
Proof.
  intros HS (_ & G & _) Hlo Hhi HB c [ts ->] j. unfold get_short_challenge, short_of. specialize (HS ts). destruct (sq ts) as [bs ts']. cbn [fst] in *.
  destruct (G bs HS) as (l & -> & (zs & Hl & HF & ->)).
  destruct (Nat.lt_ge_cases j (cy_d y)) as [Hj|Hj].
  - change (Z.abs (signed (co (elt_of p (cy_d y) (map (fun x => (x mod p)%Z) zs)) j)) <= B)%Z. unfold elt_of. rewrite co_mk by auto.
    rewrite (nth_map_lt (fun x => (x mod p)%Z) zs j 0%Z) by lia.
    assert (zp p (nth j zs 0%Z mod p)%Z = (rofZ (nth j zs 0%Z) : F)) as ->.
    { destruct (real_facts y decode need RR) as (_ & H2 & _). apply fp_ext. rewrite rofZ_fp. cbn [zp fpz]. apply Z.mod_mod. lia. }
    pose proof (signed_min (SL := SLg) (nth j zs 0%Z)) as HM. rewrite Forall_forall in HF. specialize (HF (nth j zs 0%Z) ltac:(apply nth_In; lia)).
    eapply Z.le_trans; [exact HM|]. lia.
  - rewrite (cf_out (SL := SLg)) by exact Hj. rewrite (signed_0 (SL := SLg)). cbn. lia.
Qed.

(** Challenges with few coefficients. *)
Lemma sumn_trunc {A} {RO : RingOps A} {RL : RingLaws A} n m (f : nat -> A) : (n <= m)%nat -> (forall i, (n <= i)%nat -> f i = 0) -> sumn m f = sumn n f.
Proof. intros Hn Hz. induction Hn as [|m Hm IH]; [reflexivity|]. cbn [sumn]. rewrite IH, Hz by auto. apply radd_0_r. Qed.
Lemma cnorm_mul_supp gamma n A B (a c : C) : expansion gamma -> (n <= cy_d y)%nat -> (forall i, (n <= i)%nat -> cf i c = 0) ->
  cnorm_le A a -> cnorm_le B c -> cnorm_le (Z.of_nat n * gamma * A * B) (a * c).
Proof.
  intros He Hn Hz Ha Hc j. rewrite (cf_mul (SL := SLg)).
  rewrite (sumn_trunc (RL := fld_laws (FieldLaws := l_F (SLaws := SLg))) n dimC) by (try exact Hn; intros i Hi; rewrite Hz by exact Hi; apply (@rmul_0_l _ _ (fld_laws (FieldLaws := l_F (SLaws := SLg))))).
  replace (Z.of_nat n * gamma * A * B)%Z with (Z.of_nat n * (B * (gamma * A)))%Z by ring.
  rewrite <- zsum_const. apply (signed_sumn (SL := SLg)). intros i Hi.
  pose proof (signed_mul (SL := SLg) (cf i c) (cf j (xpow i a))). pose proof (Hc i). pose proof (He i A a ltac:(change dimC with (cy_d y); lia) Ha j).
  eapply Z.le_trans; [eassumption|]. apply Z.mul_le_mono_nonneg; lia.
Qed.
Lemma drawn_supp {T} (sq : T -> list Z * T) n : squeezer sq -> (forall bs c i, bytes need bs -> decode bs = Ok c -> (n <= i)%nat -> nth i c 0%Z = 0%Z) ->
  forall c : C, drawn (HO := short_of y decode sq) c -> forall i, (n <= i)%nat -> cf i c = 0.
Proof.
  intros HS Hz c [ts ->] i Hi. unfold get_short_challenge, short_of. specialize (HS ts). destruct (sq ts) as [bs ts']. cbn [fst] in *.
  destruct (Nat.lt_ge_cases i (cy_d y)) as [Hd|Hd]; [|apply (cf_out (SL := SLg)); exact Hd].
  destruct (decode bs) as [l| |] eqn:E.
  - change (co (elt_of p (cy_d y) l) i = 0). unfold elt_of. rewrite co_mk by auto. rewrite (Hz bs l i HS E Hi). reflexivity.
  - change (co (elt_of p (cy_d y) []) i = 0). unfold elt_of. rewrite co_mk by auto. destruct i; reflexivity.
  - change (co (elt_of p (cy_d y) []) i = 0). unfold elt_of. rewrite co_mk by auto. destruct i; reflexivity.
Qed.
Lemma supp_in_range {T} (sq : T -> list Z * T) P gamma n S : (1 <= dp_K P)%nat -> expansion gamma -> (n <= cy_d y)%nat -> (1 <= dp_b P)%nat ->
  (forall c : C, drawn (HO := short_of y decode sq) c -> cnorm_le S c /\ forall i, (n <= i)%nat -> cf i c = 0) ->
  ((2 * Z.of_nat (dp_K P) - 1) * (Z.of_nat n * gamma * (Z.of_nat (dp_b P) / 2) * S) + Z.of_nat (dp_b P) / 2 <= reach (dp_K P) (Z.of_nat (dp_b P)))%Z ->
  folds_in_range (HO := short_of y decode sq) P.
Proof.
  intros HK He Hn Hb Hc Hcap. apply (opnorm_in_range (SL := SLg) P (Z.of_nat n * gamma * (Z.of_nat (dp_b P) / 2) * S)); auto.
  intros c x Hd Hx. destruct (Hc c Hd) as [H1 H2]. rewrite (Rmul_comm (@rlaws_th _ _ (l_C (SLaws := SLg)))). apply cnorm_mul_supp; auto.
Qed.

(** The element with all coefficients -1, and the challenge of the zero bytes. *)
Definition all_minus : C := mk (fun _ => - (1)).
Definition low_challenge : C := elt_of p (cy_d y) (match decode (repeat 0%Z need) with Ok c => c | _ => [] end).
Definition zero_bytes (ts : unit) : list Z * unit := (repeat 0%Z need, ts).
Lemma zero_bytes_ok : squeezer zero_bytes.
Proof. intros ts. split; [apply repeat_length|]. apply Forall_forall. intros x Hx. apply repeat_spec in Hx. subst x. unfold is_byte. lia. Qed.
Lemma sumn_const n (a : F) z : a = rofZ z -> sumn n (fun _ => a) = rofZ (Z.of_nat n * z).
Proof.
  intros ->. induction n as [|n IH]; [symmetry; apply rofZ_0|]. cbn [sumn]. rewrite IH, <- rofZ_add. f_equal. lia.
Qed.
Lemma nth_repeat_lt {A} (a d : A) n i : (i < n)%nat -> nth i (repeat a n) d = a.
Proof. intros H. rewrite (nth_indep _ d a) by (rewrite repeat_length; auto). apply nth_repeat. Qed.
(** Some drawn challenges and some witnesses with small digits fold to a witness that K digits cannot represent. *)
Definition leaves_range {T} (sq : T -> list Z * T) (P : dparams) : Prop :=
  exists (rho : list C) (ws : list (witness C R)) (v : list C),
    length rho = (2 * dp_K P - 1)%nat /\ Forall (drawn (HO := short_of y decode sq)) rho /\
    length ws = (2 * dp_K P)%nat /\ Forall (wit_norm (Z.of_nat (dp_b P) / 2)) ws /\
    is_lin (2 * dp_K P) (fun i => nth i (rho ++ [1]) 0) (fun i => w_fc (nth i ws (Witness [] [] [] []))) v /\
    ~ Forall (in_range P) v.
Theorem overflow P pos V : (2 <= dp_b P)%nat -> (1 <= dp_K P)%nat -> (pos < cy_d y)%nat ->
  co (low_challenge * all_minus) pos = rofZ V -> (1 <= V)%Z -> (2 * ((2 * Z.of_nat (dp_K P) - 1) * V) < p)%Z ->
  (reach (dp_K P) (Z.of_nat (dp_b P)) < (2 * Z.of_nat (dp_K P) - 1) * V - 1)%Z ->
  leaves_range zero_bytes P.
Proof.
  intros Hb HK Hpos HV HV1 Hp Hbig. set (m := (2 * dp_K P - 1)%nat) in *. assert (2 * dp_K P = S m)%nat as Em by (unfold m; lia).
  set (w := Witness [] [] [all_minus] [] : witness C R).
  set (v := sumn (2 * dp_K P) (fun i => nth i (repeat low_challenge m ++ [1]) 0 * all_minus)).
  assert (Z.abs (signed (- (1) : F)%rs) <= 1)%Z as H1.
  { apply signed_opp_le with (y := y) (1 := proj1 (real_facts y decode need RR)) (2 := proj1 (proj2 (real_facts y decode need RR))).
    pose proof (signed_min (SL := SLg) 1) as H1. rewrite rofZ_1 in H1. exact H1. }
  exists (repeat low_challenge m), (repeat w (2 * dp_K P)), [v]. repeat apply conj.
    - apply repeat_length.
    - apply Forall_forall. intros c Hc. apply repeat_spec in Hc. subst c. exists tt. reflexivity.
    - apply repeat_length.
    - apply Forall_forall. intros w' Hw. apply repeat_spec in Hw. subst w'. unfold wit_norm, w. cbn [w_fc]. apply Forall_cons; [|apply Forall_nil].
      pose proof (Z.div_le_lower_bound (Z.of_nat (dp_b P)) 2 1 ltac:(lia) ltac:(lia)). intros j. destruct (Nat.lt_ge_cases j (cy_d y)).
      + change (Z.abs (signed (co all_minus j)) <= Z.of_nat (dp_b P) / 2)%Z. unfold all_minus. rewrite co_mk by auto. lia.
      + rewrite (cf_out (SL := SLg)) by assumption. rewrite (signed_0 (SL := SLg)). cbn. lia.
    - intros i Hi. rewrite nth_repeat_lt by auto. reflexivity.
    - intros [|j]; cbn [nth].
        * apply sumn_ext. intros i Hi. rewrite nth_repeat_lt by auto. reflexivity.
        * symmetry. transitivity (0 : C); [|destruct j; reflexivity]. apply sumn_0. intros i Hi. rewrite nth_repeat_lt by auto. cbn [w w_fc nth].
          destruct j; apply (@rmul_0_r _ _ (l_C (SLaws := SLg))).
    - intros HR.
  apply Forall_inv in HR. specialize (HR pos).
  assert (cf pos v = rofZ (Z.of_nat m * V + - (1))) as E.
  { unfold v. rewrite (cf_sumn (SL := SLg)), Em. cbn [sumn].
    rewrite (sumn_ext m _ (fun _ => cf pos (low_challenge * all_minus))).
    - rewrite (sumn_const m _ V) by exact HV. rewrite app_nth2, repeat_length, Nat.sub_diag by (rewrite repeat_length; lia). cbn [nth].
      rewrite (@rmul_1_l _ _ (l_C (SLaws := SLg))). rewrite rofZ_add, rofZ_opp, rofZ_1.
      change (cf pos all_minus) with (co all_minus pos). unfold all_minus. rewrite co_mk by auto. reflexivity.
    - intros i Hi. rewrite app_nth1, nth_repeat_lt by (rewrite ?repeat_length; auto). reflexivity. }
  rewrite E, (signed_small (SLaws := SLg)) in HR by lia. lia.
Qed.
End Growth.

Lemma gold_low : co (@rmul _ (c_ops gold_cyc) (low_challenge gold_cyc gold_challenge 18) (all_minus gold_cyc)) 12 = rofZ 1152.
Proof. vm_compute. apply fp_ext. reflexivity. Qed.
Lemma bb_low : co (@rmul _ (c_ops bb_cyc) (low_challenge bb_cyc bb_challenge 18) (all_minus bb_cyc)) 36 = rofZ 1504.
Proof. vm_compute. apply fp_ext. reflexivity. Qed.
Lemma frog_low : co (@rmul _ (c_ops frog_cyc) (low_challenge frog_cyc frog_challenge 16) (all_minus frog_cyc)) 15 = rofZ 2048.
Proof. vm_compute. apply fp_ext. reflexivity. Qed.
Definition overflows (p : Z) (V : Z) (P : dparams) : bool :=
  (2 <=? dp_b P)%nat && (1 <=? dp_K P)%nat && (2 * ((2 * Z.of_nat (dp_K P) - 1) * V) <? p)%Z &&
  (reach (dp_K P) (Z.of_nat (dp_b P)) <? (2 * Z.of_nat (dp_K P) - 1) * V - 1)%Z.
Lemma overflow_b {p K} (y : cyc p K) decode need (RR : real_ring p K y decode need) pos V Ps P : (pos < cy_d y)%nat ->
  co (@rmul _ (c_ops y) (low_challenge y decode need) (all_minus y)) pos = rofZ V -> (1 <= V)%Z -> forallb (overflows p V) Ps = true -> In P Ps ->
  leaves_range y decode (zero_bytes need) P.
Proof.
  intros Hpos HV HV1 HF HP. rewrite forallb_forall in HF. specialize (HF P HP). unfold overflows in HF. rewrite !andb_true_iff in HF.
  destruct HF as (((H1 & H2) & H3) & H4). apply Nat.leb_le in H1, H2. apply Z.ltb_lt in H3, H4. exact (overflow y decode need RR P pos V H1 H2 Hpos HV HV1 H3 H4).
Qed.
(** For the tight parameters folding can leave the range of K digits. *)
Theorem tight_overflow {p K} (y : cyc p K) decode need W G P : shipped p K y decode need W G -> In P G ->
  squeezer need (zero_bytes need) /\ leaves_range y decode (zero_bytes need) P.
Proof.
  intros S HP. split; [apply zero_bytes_ok|]. destruct S.
  - refine (overflow_b gold_cyc gold_challenge 18 ring_gold 12 1152 gold_tight P _ gold_low _ _ HP); [apply Nat.ltb_lt; reflexivity|lia|reflexivity].
  - refine (overflow_b bb_cyc bb_challenge 18 ring_bb 36 1504 bb_tight P _ bb_low _ _ HP); [apply Nat.ltb_lt; reflexivity|lia|reflexivity].
  - refine (overflow_b frog_cyc frog_challenge 16 ring_frog 15 2048 frog_tight P _ frog_low _ _ HP); [apply Nat.ltb_lt; reflexivity|lia|reflexivity].
  - destruct HP.
Qed.
Definition capb (d gamma S : Z) (P : dparams) : bool :=
  (2 * Z.of_nat (dp_K P) * (d * gamma * S * (Z.of_nat (dp_b P) / 2)) <=? reach (dp_K P) (Z.of_nat (dp_b P)))%Z.
(** For the wide parameters it never does. *)
Theorem wide_in_range {p K} (y : cyc p K) decode need W G P : shipped p K y decode need W G -> In P W ->
  forall T (sq : T -> list Z * T), squeezer need sq -> folds_in_range (SO := cyc_ops y) (HO := short_of y decode sq) P.
Proof.
  intros S HP T sq HS. pose proof (shipped_good y decode need W G P S ltac:(apply in_or_app; auto)) as [_ _ _ HK _ _ _].
  destruct S.
  - apply (capacity_in_range (SL := real_laws gold_cyc gold_challenge 18 ring_gold) P 2 32); auto; try lia.
    + apply (trin_expansion gold_cyc gold_prime eq_refl gold_xl gold_check 12 gold_trin).
    + apply (drawn_bound gold_cyc gold_challenge 18 ring_gold sq (-32) 32 32 HS gold_good); lia.
    + apply Z.leb_le. change (capb 24 2 32 P = true). revert P HP HK. intros P HP _. revert P HP. apply forallb_forall. vm_compute. reflexivity.
  - destruct HP as [<-|[]]. apply (supp_in_range bb_cyc bb_challenge 18 ring_bb sq (DParams 65536 2 2 16) 2 24 32); [exact HK| |apply Nat.leb_le; reflexivity|cbn; lia| |].
    + apply (trin_expansion bb_cyc bb_prime eq_refl bb_xl bb_check 36 bb_trin).
    + intros c Hc. split.
      * apply (drawn_bound bb_cyc bb_challenge 18 ring_bb sq (-32) 32 32 HS bb_good); auto; lia.
      * apply (drawn_supp bb_cyc bb_challenge 18 ring_bb sq 24 HS bb_tail_zero c Hc).
    + apply Z.leb_le. reflexivity.
  - apply (capacity_in_range (SL := real_laws frog_cyc frog_challenge 16 ring_frog) P 1 128); auto; try lia.
    + apply (nega_expansion frog_cyc frog_prime eq_refl frog_xl frog_check frog_nega_ring).
    + apply (drawn_bound frog_cyc frog_challenge 16 ring_frog sq (-128) 128 128 HS frog_good); lia.
    + apply Z.leb_le. change (capb 16 1 128 P = true). revert P HP HK. intros P HP _. revert P HP. apply forallb_forall. vm_compute. reflexivity.
  - apply (capacity_in_range (SL := real_laws stark_cyc stark_challenge 16 ring_stark) P 1 255); auto; try lia.
    + apply (nega_expansion stark_cyc stark_prime eq_refl stark_xl stark_check stark_nega_ring).
    + apply (drawn_bound stark_cyc stark_challenge 16 ring_stark sq 0 256 255 HS stark_good); lia.
    + apply Z.leb_le. change (capb 16 1 255 P = true). revert P HP HK. intros P HP _. revert P HP. apply forallb_forall. vm_compute. reflexivity.
Qed.
