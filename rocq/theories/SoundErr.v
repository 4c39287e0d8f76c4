(** The soundness error of the public-coin protocols, by counting challenge vectors.

    The protocols are run on a transcript whose challenges are read off a tape of independent coins and
    whose absorptions do nothing; the prover is an arbitrary strategy, every message being a function of
    the coins that the verifier has revealed before it.  This is the interactive protocol that the code
    makes non-interactive; see [RandomOracle] for the non-interactive one. *)
From Coq Require Import String List Arith Lia ZArith Bool Ring.
From Verif Require Import Prelude Alg Poly MLE MLE_Proofs Zippel Counting Transcript Interp Sumcheck Sumcheck_Proofs CombDeg
  Arith Arith_Proofs Balanced Rings Rings_Proofs Linearization Linearization_Proofs Relations LinRel
  Decomposition Decomposition_Proofs Folding Folding_Comb Folding_Proofs Folding_Complete Folding_Sound NIFS NIFS_Proofs.
Import ListNotations.
Local Open Scope rs_scope.

(** The tape of coins as a transcript. *)
Definition coin_trans {R K : Type} {KO : FieldOps K} : TransOps (list K) R K := {|
  absorb := fun ts _ => ts;
  get_challenge := fun ts => (hd 0 ts, tl ts);
  squeeze_bytes := fun ts _ => ([], ts) |}.

Section SC.
Context {R K : Type} {RO : RingOps R} {KO : FieldOps K} {E : Embed K R} {LR : RingLaws R} {LK : FieldLaws K} {EL : EmbedLaws K R}.
#[local] Existing Instance coin_trans.

Lemma coin_absorb_slice (l : list R) (ts : list K) : absorb_slice ts l = ts.
Proof. induction l; cbn; auto. Qed.
Lemma coin_challenges n : forall ts : list K, (n <= length ts)%nat ->
  get_challenges (R := R) ts n = (firstn n ts, skipn n ts).
Proof.
  induction n as [|n IH]; intros ts H; cbn [get_challenges firstn skipn]; auto.
  destruct ts as [|c ts]; [cbn in H; lia|]. cbn [length] in H. cbn [get_challenge coin_trans hd tl]. rewrite IH by lia. auto.
Qed.
Lemma coin_verify_loop k : forall (ts : list K) (proof : list (list R)) ms cs ts', (k <= length ts)%nat ->
  verify_loop k ts proof = Ok (ms, cs, ts') -> cs = firstn k ts /\ ts' = skipn k ts.
Proof.
  induction k as [|k IH]; intros ts proof ms cs ts' Hk H; cbn [verify_loop] in H; [apply ok_inj in H; injection H as <- <- <-; auto|].
  destruct proof as [|m proof]; [discriminate|]. rewrite coin_absorb_slice in H. destruct ts as [|c ts]; [cbn in Hk; lia|]. cbn [length] in Hk.
  cbn [get_challenge coin_trans hd tl absorb] in H. apply bind_ok_inv in H as ([[ms' cs'] ts2] & H & H').
  apply ok_inj in H'. injection H' as <- <- <-. apply IH in H as [-> ->]; [|lia]. auto.
Qed.
Lemma coin_sc_verify n d claimed (ts : list K) (proof : list (list R)) r e ts' : (n <= length ts)%nat ->
  sc_verify ts n d claimed proof = Ok (r, e, ts') -> r = firstn n ts /\ ts' = skipn n ts.
Proof.
  unfold sc_verify. cbv zeta. cbn [absorb coin_trans]. intros Hn H. apply bind_ok_inv in H as ([[ms cs] ts2] & H1 & H2).
  destruct (n =? 0)%nat; [discriminate|]. apply bind_ok_inv in H2 as (e' & _ & H2). apply ok_inj in H2. injection H2 as <- <- <-.
  eapply coin_verify_loop; eauto.
Qed.

(** The messages of a sumcheck whose first coin is coin number [a]: message [i] may depend on all coins
    before coin [a + i]. *)
Definition sc_messages (P : list K -> list R) (a n : nat) (x : list K) : list (list R) :=
  map (fun i => P (firstn (a + i) x)) (seq 0 n).

Lemma few_sc_bad n d P a N (S : list K) (g : list K -> list R -> R) :
  (a + n <= N)%nat ->
  few (fun x => In x (tuples N S) /\
         sc_bad n d (g (firstn a x)) (skipn a x) (sc_messages P a n x) (firstn n (skipn a x)))
      (n * d * length S ^ (N - 1)).
Proof.
  intros HN.
  eapply few_weaken; [|apply le_n|
    apply (few_block S N a n (fun i pre c =>
      let h := true_round (g (firstn a pre)) (map emb (skipn a pre)) (n - 1 - i) in
      bad_challenge (P pre) h c /\
      forall bad : list K, NoDup bad -> (forall c, In c bad -> bad_challenge (P pre) h c) -> (length bad <= d)%nat) d)]; auto.
  - intros x [Hx (i & Hi & _ & _ & Hb & _ & Hall)]. split; auto. exists i. split; auto. cbv zeta.
    assert (nth i (sc_messages P a n x) [] = P (firstn (a + i) x)) as Em.
    { unfold sc_messages. rewrite (nth_map_lt _ _ _ 0%nat) by (rewrite seq_length; lia). rewrite seq_nth by lia. auto. }
    assert (firstn a (firstn (a + i) x) = firstn a x) as -> by (rewrite firstn_firstn; f_equal; lia).
    assert (skipn a (firstn (a + i) x) = firstn i (firstn n (skipn a x))) as ->.
    { rewrite firstn_firstn, skipn_firstn_comm. f_equal; lia. }
    assert (nth (a + i) x 0 = nth i (firstn n (skipn a x)) 0) as ->.
    { rewrite <- (firstn_skipn a x) at 1. apply in_tuples in Hx as [Hx _].
      rewrite app_nth2; rewrite firstn_length, Nat.min_l by lia; [|lia]. replace (a + i - a)%nat with i by lia.
      rewrite <- (firstn_skipn n (skipn a x)) at 1. rewrite app_nth1; auto. rewrite firstn_length, skipn_length. lia. }
    rewrite Em in Hb, Hall. auto.
  - intros i pre Hi Hpre. apply few_if. intros c0 (_ & _ & Hall) L HL HF. apply Hall; auto.
    rewrite Forall_forall in HF. intros c Hc. apply HF in Hc as (_ & Hc & _). auto.
Qed.

(** ** C88: the sumcheck verifier *)
Theorem sumcheck_error n d (g : list R -> R) (claimed : R) (P : list K -> list R) (S : list K) :
  (1 <= d)%nat -> char_gt K d -> var_deg n d g -> claimed <> cube_sum n g ->
  few (fun x => In x (tuples n S) /\
         exists r e ts', sc_verify x n d claimed (sc_messages P 0 n x) = Ok (r, e, ts') /\ e = g (map emb r))
      (n * d * length S ^ (n - 1)).
Proof.
  intros Hd Hc Hg Hne. eapply few_weaken; [|apply le_n|apply (few_sc_bad n d P 0 n S (fun _ => g)); lia].
  intros x [Hx (r & e & ts' & HV & He)]. split; auto. cbn [skipn].
  destruct (sumcheck_sound n d g x claimed _ r e ts' Hd Hc Hg HV He Hne) as [_ Hb].
  apply in_tuples in Hx as [Hx _]. apply coin_sc_verify in HV as [-> _]; [|lia]. exact Hb.
Qed.
End SC.

Section N.
Context {F K C R : Type} {SO : SOps F K C R} {p : Z} {SL : SLaws F K C R p}.
Add Ring Rring83 : (@rlaws_th R _ _).
#[local] Existing Instance coin_trans.

Lemma coin_tag (ts : list K) s : absorb_tag (R := R) ts s = ts.
Proof. reflexivity. Qed.
Lemma coin_slices (l : list (list R)) (ts : list K) : absorb_slices ts l = ts.
Proof. unfold absorb_slices. induction l as [|a l IH]; cbn [fold_left]; auto. rewrite coin_absorb_slice. auto. Qed.
Lemma coin_public (acc : lcccs R) cm_i (ts : list K) : absorb_public_input acc cm_i ts = ts.
Proof. unfold absorb_public_input. cbv zeta. rewrite ?coin_tag, ?coin_absorb_slice. reflexivity. Qed.
Lemma coin_dec_absorb (r : list R) l : forall (ts : list K) res, dec_absorb r ts l = Ok res -> snd res = ts.
Proof.
  induction l as [|[[[x y] u] v] l IH]; intros ts res H; cbn [dec_absorb] in H; [apply ok_inj in H; subst; auto|].
  apply bind_ok_inv in H as (h & _ & H). apply bind_ok_inv in H as (res' & H & H'). apply ok_inj in H'. subst res. cbn [snd].
  apply IH in H. rewrite !coin_absorb_slice in H. auto.
Qed.
(** The component instances that a decomposition proof announces. *)
Definition dec_parts (r : list R) (pf : dec_proof R) : list (lcccs R) :=
  map (fun '(x, y, u, v) => Lcccs r v y u (removelast x) (last x 0)) (zip4 (dp_xs pf) (dp_ys pf) (dp_us pf) (dp_vs pf)).
Lemma dec_verify_parts {T} {TO : TransOps T R K} P (lc : lcccs R) pf (ts : T) lcs ts' : dec_verify P lc pf ts = Ok (lcs, ts') ->
  dec_absorb (lc_r lc) ts (zip4 (dp_xs pf) (dp_ys pf) (dp_us pf) (dp_vs pf)) = Ok (lcs, ts') /\ lcs = dec_parts (lc_r lc) pf.
Proof.
  unfold dec_verify. intros HV. apply bind_ok_inv in HV as ([lcs0 ts0] & EA & HV).
  assert (lcs0 = lcs /\ ts0 = ts') as [-> ->].
  { repeat match type of HV with
    | bind ?x _ = Ok _ => destruct x; cbn [bind] in HV; try discriminate
    | (if ?x then _ else _) = Ok _ => destruct x; try discriminate
    end. apply ok_inj in HV. injection HV as <- <-. auto. }
  split; auto. apply dec_absorb_inv in EA as [-> _]. auto.
Qed.
Lemma skipn_skipn' {A} a b (l : list A) : skipn a (skipn b l) = skipn (a + b) l.
Proof. revert a l; induction b as [|b IH]; intros a l; [rewrite Nat.add_0_r; auto|]. rewrite Nat.add_succ_r. destruct l; [rewrite !skipn_nil; auto|]. cbn [skipn]. apply IH. Qed.
Lemma coin_fold_chal P (ts : list K) s : (6 * dp_K P - 1 + s <= length ts)%nat -> (1 <= dp_K P)%nat ->
  fold_chal P ts s = (firstn (6 * dp_K P - 1 + s) ts, skipn (6 * dp_K P - 1 + s) ts).
Proof.
  intros H HK. unfold fold_chal.
  do 4 (rewrite coin_tag, coin_challenges by (rewrite ?skipn_length; lia); cbv beta iota).
  rewrite !skipn_skipn'. f_equal; [|f_equal; lia].
  assert (forall a b (l : list K), firstn (a + b) l = firstn a l ++ firstn b (skipn a l)) as Hsp.
  { clear. intros a. induction a as [|a IH]; intros b [|c l]; cbn; auto; [rewrite firstn_nil; auto|]. f_equal. apply IH. }
  replace (6 * dp_K P - 1 + s)%nat with (2 * dp_K P + (2 * dp_K P + ((2 * dp_K P - 1) + s)))%nat by lia.
  rewrite Hsp. f_equal. rewrite Hsp. f_equal. rewrite skipn_skipn'. rewrite Hsp. f_equal.
  rewrite skipn_skipn'. f_equal.
Qed.
Lemma few_bad_coord N (S : list K) (t : nat -> R) s : (s <= N)%nat ->
  few (fun x => In x (tuples N S) /\ bad_coord t (firstn s x)) (s * 1 * length S ^ (N - 1)).
Proof.
  intros HN. eapply few_weaken; [|apply le_n|
    apply (few_block S N 0 s (fun i pre c => vanishes_at t (map emb pre) (s - 1 - i) (emb c) /\
      forall bad : list K, NoDup bad -> (forall c, In c bad -> vanishes_at t (map emb pre) (s - 1 - i) (emb c)) -> (length bad <= 1)%nat) 1); lia || auto].
  - intros x [Hx (i & Hi & Hb)]. split; auto. apply in_tuples in Hx as [Hl _]. rewrite firstn_length, Nat.min_l in Hi, Hb by lia.
    exists i. split; auto. cbn [Nat.add]. cbv zeta in Hb. rewrite firstn_firstn, Nat.min_l in Hb by lia.
    assert (nth i (firstn s x) 0 = nth i x 0) as E.
    { rewrite <- (firstn_skipn s x) at 2. rewrite app_nth1; auto. rewrite firstn_length. lia. }
    rewrite E in Hb. tauto.
  - intros i pre Hi _. apply few_if. intros c0 (_ & _ & Hall) L HL HF. apply Hall; auto.
    rewrite Forall_forall in HF. intros c Hc. apply HF in Hc as (_ & Hc & _). auto.
Qed.
Lemma few_bad_batch N (S : list K) D (G : list R -> R) (ref : list K) n : (n <= N)%nat ->
  few (fun x => In x (tuples N S) /\ bad_batch D G ref (firstn n x)) (n * D * length S ^ (N - 1)).
Proof.
  intros HN. eapply few_weaken; [|apply le_n|
    apply (few_block S N 0 n (fun t pre c =>
      G (map emb pre ++ emb c :: map emb (skipn (Datatypes.S t) ref)) = 0 /\
      forall bad : list K, NoDup bad -> (forall y, In y bad -> G (map emb pre ++ emb y :: map emb (skipn (Datatypes.S t) ref)) = 0) -> (length bad <= D)%nat) D); lia || auto].
  - intros x [Hx (t & Ht & _ & Hb)]. split; auto. apply in_tuples in Hx as [Hl _]. rewrite firstn_length, Nat.min_l in Ht by lia.
    exists t. split; auto. cbn [Nat.add]. rewrite firstn_firstn, Nat.min_l in Hb by lia.
    assert (nth t (firstn n x) 0 = nth t x 0) as Ex.
    { rewrite <- (firstn_skipn n x) at 2. rewrite app_nth1; auto. rewrite firstn_length. lia. }
    rewrite Ex in Hb. tauto.
  - intros i pre Hi _. apply few_if. intros c0 (_ & _ & Hall) L HL HF. apply Hall; auto.
    rewrite Forall_forall in HF. intros c Hc. apply HF in Hc as (_ & Hc & _). auto.
Qed.

Lemma firstn_skipn_firstn {A} a k n (l : list A) : (a + k <= n)%nat -> firstn k (skipn a (firstn n l)) = firstn k (skipn a l).
Proof. intros H. rewrite skipn_firstn_comm, firstn_firstn. f_equal. lia. Qed.
Lemma firstn_add {A} a b (l : list A) : firstn (a + b) l = firstn a l ++ firstn b (skipn a l).
Proof. revert b l; induction a as [|a IH]; intros b [|c l]; cbn; auto; [rewrite firstn_nil; auto|]. f_equal. apply IH. Qed.

(** The challenges of the folding step as blocks of the tape. *)
Definition tape_abzm (P : dparams) (s : nat) (c : list K) : list R * list R * list R * list R :=
  let k := (2 * dp_K P)%nat in
  (map emb (firstn k c), map emb (firstn s (skipn (3 * k - 1) c)), map emb (firstn k (skipn k c)),
   map emb (firstn (k - 1) (skipn (k + k) c)) ++ [1]).
Lemma coin_squeeze P (ts : list K) s : (6 * dp_K P - 1 + s <= length ts)%nat -> (1 <= dp_K P)%nat ->
  squeeze_abzm P ts s = (tape_abzm P s ts, skipn (6 * dp_K P - 1 + s) ts).
Proof.
  intros H HK. destruct (squeeze_fold_chal P ts s) as (a & b & z & m & E1 & E2 & La & Lb & Lz & Lm). cbv zeta in E1.
  rewrite coin_fold_chal in E1, E2 by auto. cbn [fst snd] in E1, E2. rewrite E1. f_equal. unfold tape_abzm. cbv zeta.
  set (k := (2 * dp_K P)%nat) in *. assert (6 * dp_K P - 1 + s = k + (k + ((k - 1) + s)))%nat as Em by (unfold k; lia).
  assert (forall j, (j <= 6 * dp_K P - 1 + s)%nat -> skipn j (firstn (6 * dp_K P - 1 + s) ts) = firstn (6 * dp_K P - 1 + s - j) (skipn j ts)) as Hs by (intros; apply skipn_firstn_comm).
  rewrite Em in E2. rewrite firstn_add in E2. apply app_split_len in E2 as [<- E2]; [|rewrite firstn_length; lia].
  rewrite firstn_add in E2. apply app_split_len in E2 as [<- E2]; [|rewrite firstn_length, skipn_length; lia].
  rewrite skipn_skipn', firstn_add in E2. apply app_split_len in E2 as [<- E2]; [|rewrite firstn_length, skipn_length; lia].
  rewrite skipn_skipn' in E2. subst b. replace (3 * k - 1)%nat with (k - 1 + (k + k))%nat by lia. auto.
Qed.
Lemma tape_abzm_firstn P s (c : list K) : (1 <= dp_K P)%nat -> tape_abzm P s (firstn (6 * dp_K P - 1 + s) c) = tape_abzm P s c.
Proof.
  intros HK. unfold tape_abzm. cbv zeta. set (k := (2 * dp_K P)%nat). rewrite !firstn_skipn_firstn by (unfold k; lia).
  rewrite firstn_firstn, Nat.min_l by (unfold k; lia). auto.
Qed.

(** A prover of the whole folding step: every message is a function of the coins seen before it. *)
Record strategy := Strategy {
  st_lin : list K -> list R;                        (* sumcheck messages of the linearization *)
  st_v : list K -> list R; st_u : list K -> list R; (* its claimed evaluations *)
  st_l : list K -> dec_proof R; st_r : list K -> dec_proof R;
  st_fold : list K -> list R;                       (* sumcheck messages of the folding *)
  st_theta : list K -> list (list R); st_eta : list K -> list (list R) }.

(** The number of coins drawn before the short challenges. *)
Definition n_coins (P : dparams) (cs : ccs R) : nat := (2 * c_s cs + (6 * dp_K P - 1 + c_s cs) + c_s cs)%nat.

(** The proof that the strategy sends when the coins are [x]. *)
Definition play (P : dparams) (cs : ccs R) (st : strategy) (x : list K) : lf_proof R :=
  let s := c_s cs in
  let y := firstn (2 * s) x in
  let z := firstn (n_coins P cs) x in
  LFProof (LinProof (sc_messages (st_lin st) s s x) (st_v st y) (st_u st y)) (st_l st y) (st_r st y)
    (FoldProof (sc_messages (st_fold st) (2 * s + (6 * dp_K P - 1 + s)) s x) (st_theta st z) (st_eta st z)).

(** A bad sumcheck challenge exists in no trivial ring, so the point is determined by its embedding. *)
Lemma sc_bad_point {T} {TO : TransOps T R K} n d g (ts : T) proof (rs rs' : list K) : sc_bad n d g ts proof rs ->
  map (emb : K -> R) rs' = map emb rs -> rs' = rs.
Proof.
  intros (i & _ & _ & _ & ((y & Hy) & _) & _) E.
  assert ((1 : R) <> 0) as H1.
  { intros H1. apply Hy. assert (forall a : R, a = 0) as Ha by (intros a; transitivity ((1 : R) * a); [ring|rewrite H1; ring]).
    etransitivity; [apply Ha|symmetry; apply Ha]. }
  revert rs' E. clear - H1 SL. induction rs as [|a rs IH]; intros [|b rs'] E; try discriminate; auto. cbn [map] in E. injection E as E1 E2. f_equal; auto.
  apply (emb_inj (R := R) (emb : K -> R) emb_hom H1). auto.
Qed.

Section Fooled.
Context {HO : ShortOps (list K) C}.
Variables (P : dparams) (A : ajtai R) (cs : ccs R) (acc : lcccs R) (cm_i : cccs R).
(** [opn] gives the opening of a commitment (unique, up to breaking the commitment scheme) and [w0] is
    the witness behind the commitment of the incoming instance. *)
Variables (opn : list R -> witness C R) (w0 : list R) (st : strategy).

(** The coins [x] fool the verifier: it accepts the proof of the strategy, the openings are consistent
    with everything sent, and nevertheless one of the instances that went in does not hold. *)
Definition fooled (x : list K) : Prop :=
  let s := c_s cs in
  let y := firstn (2 * s) x in
  let pf := play P cs st x in
  let lcs_l := dec_parts (lc_r acc) (lf_dec_l pf) in
  let lcs_r := dec_parts (map emb (skipn s y)) (lf_dec_r pf) in
  let ws_l := map (fun c => opn (lc_cm c)) lcs_l in
  let ws_r := map (fun c => opn (lc_cm c)) lcs_r in
  let n := ((c_n cs - c_l cs - 1) * dp_L P)%nat in
  exists lc ts',
    nifs_verify P acc cm_i pf x cs = Ok (lc, ts') /\
    dec_shape P cs (lf_dec_l pf) /\ dec_shape P cs (lf_dec_r pf) /\
    Forall (fun c => opens P A cs (lc_cm c) (opn (lc_cm c))) (lcs_l ++ lcs_r) /\
    fp_theta (lf_fold pf) = evs (map w_fhat (ws_l ++ ws_r)) (lc_r lc) /\
    fp_eta (lf_fold pf) = evs (zipw (fun c w => map (Mz_mle s (lcccs_z c (w_ccs w))) (c_M cs)) (lcs_l ++ lcs_r) (ws_l ++ ws_r)) (lc_r lc) /\
    w_ccs (wsum P n ws_r) = w0 /\
    ~ (lcccs_rel P A cs acc (wsum P n ws_l) /\ cccs_rel P A cs cm_i (wsum P n ws_r) /\
       forall i w, nth_error (ws_l ++ ws_r) i = Some w -> (i < 2 * dp_K P - 1)%nat \/ tau = 1%nat -> wit_norm (Z.of_nat (dp_b P) - 1) w).

Lemma few_lin_bad N (S : list K) (z : list R) : (2 * c_s cs <= N)%nat ->
  few (fun x => In x (tuples N S) /\ forall v u lc, lc_r lc = map emb (firstn (c_s cs) (skipn (c_s cs) x)) ->
         lin_bad cs z x (LinProof (sc_messages (st_lin st) (c_s cs) (c_s cs) x) v u) lc)
    ((c_s cs + c_s cs * (c_d cs + 1)) * length S ^ (N - 1)).
Proof.
  intros HN. set (g := fun (pre : list K) x => ccs_poly cs (map (fun M => mle_spec (mz M z) x) (c_M cs)) * eqp x (map emb pre)).
  eapply few_weaken; [|apply Nat.eq_le_incl; symmetry; apply Nat.mul_add_distr_r|
    apply few_or; [apply (few_weaken _ _ _ _ (fun x H => H)) with (2 := few_bad_coord N S (ccs_row cs z) (c_s cs) ltac:(lia)); lia
                  |apply (few_sc_bad (c_s cs) (c_d cs + 1) (st_lin st) (c_s cs) N S g); lia]].
  intros x [Hx Hb]. pose proof Hx as Hx'. apply in_tuples in Hx' as [Hl _].
  destruct (Hb [] [] (Lcccs (map emb (firstn (c_s cs) (skipn (c_s cs) x))) [] [] [] [] 0) eq_refl) as [H|(rs & E & H)].
  - left. split; auto. rewrite coin_tag, coin_challenges in H by lia. exact H.
  - right. split; auto. rewrite coin_tag, coin_challenges in H by lia. cbn [fst snd lp_sc] in H. cbn [lc_r] in E.
    rewrite (sc_bad_point _ _ _ _ _ _ _ H E). exact H.
Qed.

(** For fixed coins of the linearization, few of the remaining coins are bad for the folding. *)
Lemma few_fold_bad M (S : list K) (lcs : list (lcccs R)) fhs mzs r1 r2 D ref (Q : list K -> list R) : (1 <= dp_K P)%nat ->
  (6 * dp_K P - 1 + c_s cs + c_s cs <= M)%nat ->
  let m := (6 * dp_K P - 1 + c_s cs)%nat in
  few (fun z => In z (tuples M S) /\ forall th et lc, lc_r lc = map emb (firstn (c_s cs) (skipn m z)) ->
         fold_bad P cs lcs fhs mzs r1 r2 D ref z (FoldProof (sc_messages Q m (c_s cs) z) th et) lc)
    ((m * D + c_s cs * (2 * dp_b P)) * length S ^ (M - 1)).
Proof.
  intros HK HM m.
  set (g := fun (pre : list K) => let '(al, be, ze, mu) := tape_abzm P (c_s cs) pre in gfold P al be ze mu r1 r2 fhs mzs).
  eapply few_weaken; [|apply Nat.eq_le_incl; symmetry; apply Nat.mul_add_distr_r|
    apply few_or; [apply (few_bad_batch M S D (gbatch P (map lc_v lcs) (map lc_u lcs) fhs mzs r1 r2) ref m); lia
                  |apply (few_sc_bad (c_s cs) (2 * dp_b P) Q m M S g); lia]].
  intros z [Hz Hb]. pose proof Hz as Hz'. apply in_tuples in Hz' as [Hl _].
  specialize (Hb [] [] (Lcccs (map emb (firstn (c_s cs) (skipn m z))) [] [] [] [] 0) eq_refl).
  unfold fold_bad in Hb. rewrite coin_fold_chal in Hb by lia. fold m in Hb.
  destruct Hb as [H|(rs & al & be & ze & mu & E & Esq & H)]; [left; auto|]. right. split; auto. cbn [fp_sc lc_r] in *.
  rewrite (sc_bad_point _ _ _ _ _ _ _ H E). rewrite coin_squeeze in Esq by lia. fold m in Esq. assert (tape_abzm P (c_s cs) z = (al, be, ze, mu)) as Et by congruence.
  unfold g. unfold m at 1. rewrite tape_abzm_firstn by auto. rewrite Et. exact H.
Qed.

Lemma play_fold x : sc_messages (st_fold st) (2 * c_s cs + (6 * dp_K P - 1 + c_s cs)) (c_s cs) x =
  sc_messages (fun pre => st_fold st (firstn (2 * c_s cs) x ++ pre)) (6 * dp_K P - 1 + c_s cs) (c_s cs) (skipn (2 * c_s cs) x).
Proof.
  unfold sc_messages. apply map_ext. intros i. rewrite <- firstn_add. f_equal. f_equal. lia.
Qed.

(** ** C89: the folding step *)
Theorem nifs_error e (S : list K) :
  sizes_ok p P cs -> degree_ok cs -> char_gt K (c_d cs + 1) -> char_gt K (2 * dp_b P) -> (2 * Z.of_nat (dp_b P) <= p + 1)%Z ->
  NoDup S -> (Nat.max tau (c_t cs) < length S)%nat -> length (lc_r acc) = c_s cs ->
  few (fun x => In x (tuples (n_coins P cs + e) S) /\ fooled x)
    ((c_s cs + c_s cs * (c_d cs + 1) + ((6 * dp_K P - 1 + c_s cs) * Nat.max tau (c_t cs) + c_s cs * (2 * dp_b P)))
     * length S ^ (n_coins P cs + e - 1)).
Proof.
  intros Hsz Hd Hcd Hcb Hbp HS Hq Hra. set (s := c_s cs). set (m := (6 * dp_K P - 1 + s)%nat). set (D := Nat.max tau (c_t cs)).
  set (N := (n_coins P cs + e)%nat). assert (N = 2 * s + (m + s + e))%nat as EN by (unfold N, n_coins, m, s; lia).
  pose proof (so_K _ _ _ Hsz) as HK.
  set (zz := i_x cm_i ++ 1 :: w0).
  set (Lin := fun x => In x (tuples N S) /\ forall v u lc, lc_r lc = map emb (firstn s (skipn s x)) ->
         lin_bad cs zz x (LinProof (sc_messages (st_lin st) s s x) v u) lc).
  set (lcs_of := fun y : list K => (dec_parts (lc_r acc) (st_l st y), dec_parts (map emb (skipn s y)) (st_r st y))).
  set (ws_of := fun l : list (lcccs R) => map (fun c => opn (lc_cm c)) l).
  set (Fold := fun x => In x (tuples N S) /\ fooled x /\ ~ Lin x).
  (* the three ways out of the deterministic theorem *)
  assert (forall y, few (fun x => Fold x /\ firstn (2 * s) x = y) ((m * D + s * (2 * dp_b P)) * length S ^ (m + s + e - 1))) as HF.
  { intros y. apply few_if. intros x0 [(Hx0 & Hf0 & _) Ey0].
    set (lcs_l := fst (lcs_of y)). set (lcs_r := snd (lcs_of y)).
    set (lin := Lcccs (map emb (skipn s y)) (st_v st y) (i_cm cm_i) (st_u st y) (i_x cm_i) 1).
    assert (Forall2 (fun c w => opens P A cs (lc_cm c) w) lcs_l (ws_of lcs_l) /\ Forall2 (fun c w => opens P A cs (lc_cm c) w) lcs_r (ws_of lcs_r)) as [Hol Hor].
    { destruct Hf0 as (lc & ts' & _ & _ & _ & Ho & _). fold s in Ho. unfold play in Ho. cbn [lf_dec_l lf_dec_r] in Ho. fold s in Ho. rewrite Ey0 in Ho.
      apply Forall_app in Ho as [Ho1 Ho2]. fold (ws_of lcs_l) in *.
      split; [revert Ho1; change (dec_parts (lc_r acc) (st_l st y)) with lcs_l|revert Ho2; change (dec_parts (map emb (skipn s y)) (st_r st y)) with lcs_r];
        [generalize lcs_l|generalize lcs_r]; intros l Ho; unfold ws_of; induction Ho; cbn [map]; auto. }
    destruct (nifs_sound P A cs acc cm_i lin lcs_l lcs_r (ws_of lcs_l) (ws_of lcs_r) S Hsz Hd Hcd Hcb Hbp HS Hq Hra Hol Hor) as (ref & Href).
    eapply few_weaken; [|apply le_n|].
    2:{ apply (few_inj (fun x => skipn (2 * s) x) (fun x => In x (tuples N S) /\ firstn (2 * s) x = y /\
          (forall th et lc, lc_r lc = map emb (firstn s (skipn m (skipn (2 * s) x))) ->
             fold_bad P cs (lcs_l ++ lcs_r) (map w_fhat (ws_of lcs_l ++ ws_of lcs_r))
               (zipw (fun c w => map (Mz_mle s (lcccs_z c (w_ccs w))) (c_M cs)) (lcs_l ++ lcs_r) (ws_of lcs_l ++ ws_of lcs_r))
               (lc_r acc) (lc_r lin) D ref (skipn (2 * s) x)
               (FoldProof (sc_messages (fun pre => st_fold st (y ++ pre)) m s (skipn (2 * s) x)) th et) lc))
          (fun z => In z (tuples (m + s + e) S) /\ forall th et lc, lc_r lc = map emb (firstn s (skipn m z)) ->
             fold_bad P cs (lcs_l ++ lcs_r) (map w_fhat (ws_of lcs_l ++ ws_of lcs_r))
               (zipw (fun c w => map (Mz_mle s (lcccs_z c (w_ccs w))) (c_M cs)) (lcs_l ++ lcs_r) (ws_of lcs_l ++ ws_of lcs_r))
               (lc_r acc) (lc_r lin) D ref z
               (FoldProof (sc_messages (fun pre => st_fold st (y ++ pre)) m s z) th et) lc)).
        - intros x (Hx & Hy & Hb). split; auto. replace (m + s + e)%nat with (N - 2 * s)%nat by lia. apply tuples_skipn; auto.
        - intros x x' (_ & Hy & _) (_ & Hy' & _) Ex. rewrite <- (firstn_skipn (2 * s) x), <- (firstn_skipn (2 * s) x'). congruence.
        - apply few_fold_bad; auto. fold s. fold m. lia. }
    intros x ((Hx & Hf & Hnl) & Ey). split; auto. split; auto.
    pose proof Hx as Hx'. apply in_tuples in Hx' as [Hl _].
    destruct Hf as (lc & ts' & HV & Hs1 & Hs2 & _ & Hth & Het & Hw0 & Hno).
    fold s in HV, Hs1, Hs2, Hth, Het, Hw0, Hno. set (pf := play P cs st x) in *.
    assert (lf_dec_l pf = st_l st y) as E1 by (unfold pf, play; cbn [lf_dec_l]; fold s; rewrite Ey; auto).
    assert (lf_dec_r pf = st_r st y) as E2 by (unfold pf, play; cbn [lf_dec_r]; fold s; rewrite Ey; auto).
    rewrite Ey, E1, E2 in *.
    change (dec_parts (lc_r acc) (st_l st y)) with lcs_l in *. change (dec_parts (map emb (skipn s y)) (st_r st y)) with lcs_r in *.
    fold (ws_of lcs_l) (ws_of lcs_r) in *.
    (* the run *)
    pose proof HV as HV'. unfold nifs_verify in HV'. apply bind_ok_inv in HV' as (u0 & _ & HV'). rewrite coin_public in HV'.
    apply bind_ok_inv in HV' as ([lin' ts1] & HL & HV'). apply bind_ok_inv in HV' as ([l1 ts2] & HDl & HV').
    apply bind_ok_inv in HV' as ([l2 ts3] & HDr & HV').
    destruct (lin_verify_inv _ _ _ _ _ _ (so_wf _ _ _ Hsz) HL) as (rs & e0 & tsx & Hsc & Hrs & El & _ & Ets1).
    fold s in Hsc, Hrs, Ets1. rewrite coin_tag, coin_challenges in Hsc by lia. cbn [snd] in Hsc.
    apply coin_sc_verify in Hsc as [Ers Etsx]; [|rewrite skipn_length; lia].
    assert (skipn s y = rs) as Eys. { rewrite <- Ey, Ers, skipn_firstn_comm. f_equal. lia. }
    assert (lin' = lin) as ->.
    { rewrite El. unfold lin. rewrite Eys. unfold pf, play. cbn [lf_lin lp_v lp_u]. fold s. rewrite Ey. auto. }
    assert (ts1 = skipn (2 * s) x) as ->.
    { rewrite Ets1, !coin_absorb_slice, Etsx, skipn_skipn'. f_equal. lia. }
    rewrite E1 in HDl. rewrite E2 in HDr.
    destruct (dec_verify_parts _ _ _ _ _ _ HDl) as [Ha1 EL1]. destruct (dec_verify_parts _ _ _ _ _ _ HDr) as [Ha2 EL2].
    apply coin_dec_absorb in Ha1. apply coin_dec_absorb in Ha2. cbn [snd] in Ha1, Ha2. subst ts2 ts3.
    assert (l1 = lcs_l) as -> by exact EL1. assert (l2 = lcs_r) as -> by exact EL2.
    destruct (Href pf x lc ts' (skipn (2 * s) x) (skipn (2 * s) x) (skipn (2 * s) x)) as [Hok|[Hfb|Hlb]]; auto; try (rewrite ?coin_public, ?E1, ?E2; assumption).
    - destruct (Hno Hok).
    - intros th et lc' Elc'. fold s D in Hfb.
      assert (lc_r lc = map emb (firstn s (skipn m (skipn (2 * s) x)))) as Elc.
      { clear - HV' Hl EN HK. unfold fold_verify in HV'. apply bind_ok_inv in HV' as (u1 & _ & HV'). fold s in HV'.
        rewrite coin_squeeze in HV' by (auto; rewrite skipn_length; fold m; lia). fold m in HV'.
        destruct (tape_abzm P s (skipn (2 * s) x)) as [[[al be] ze] mu].
        apply bind_ok_inv in HV' as ([[pt sv] ts4] & Hsc & HV'). apply bind_ok_inv in HV' as (u2 & _ & HV').
        destruct (get_rhos P _) as [[rho_c rho] ts5]. apply bind_ok_inv in HV' as ([[[v0 cm0] u3] x0] & _ & HV').
        apply bind_ok_inv in HV' as (lc' & Hout & HV'). apply ok_inj in HV'. injection HV' as -> ->.
        apply coin_sc_verify in Hsc as [-> _]; [|rewrite !skipn_length; lia].
        unfold public_output in Hout. destruct (last_opt x0); [|discriminate]. apply ok_inj in Hout. subst lc. reflexivity. }
      unfold fold_bad in Hfb |- *. rewrite Elc', <- Elc. cbn [fp_sc].
      assert (fp_sc (lf_fold pf) = sc_messages (fun pre => st_fold st (y ++ pre)) m s (skipn (2 * s) x)) as Efp.
      { unfold pf, play. cbn [lf_fold fp_sc]. rewrite play_fold. fold s. rewrite Ey. auto. }
      rewrite Efp in Hfb. exact Hfb.
    - destruct Hnl. split; auto. intros v u lc' Elc'. rewrite coin_public, Hw0 in Hlb. fold zz in Hlb.
      unfold lin_bad in Hlb |- *. fold s in Hlb |- *. cbn [lp_sc]. rewrite Elc'. unfold lin in Hlb at 1. cbn [lc_r] in Hlb. rewrite Eys, Ers in Hlb. exact Hlb. }
  rewrite Nat.mul_add_distr_r. apply (few_em _ Lin).
  - eapply few_weaken; [|apply le_n|apply (few_lin_bad N S zz); fold s; lia]. intros x [_ HL]. exact HL.
  - eapply few_weaken with (P := Fold); [intros x [[Hx Hf] Hn]; repeat split; auto| |
      apply (few_fibre kl_dec (fun x => firstn (2 * s) x) (tuples (2 * s) S))].
    2:{ intros x [Hx _]. apply (tuples_firstn _ N); auto. lia. }
    2:{ intros y _. apply HF. }
    apply Nat.eq_le_incl. rewrite tuples_length. replace (N - 1)%nat with (2 * s + (m + s + e - 1))%nat by lia.
    rewrite Nat.pow_add_r. ring.
Qed.
End Fooled.
End N.
