(** Soundness error of the commitment transformation of LatticeFold+ (cm.rs), by counting challenge vectors.

    The verifier runs on a tape of field challenges and a tape of bytes.  The bytes (from which the short challenges are made) are fixed and
    arbitrary; the field challenges are counted.  The prover's messages are arbitrary functions of the challenges drawn before them. *)
From Coq Require Import String List Arith Lia ZArith Bool Ring.
From Verif Require Import Prelude Alg Poly MLE MLE_Proofs Zippel Counting Transcript Interp Interp_Proofs Sumcheck Sumcheck_Proofs CombDeg Arith Arith_Proofs
  Balanced Linearization_Proofs Folding_Sound Rings Rings_Proofs PlusRing PlusUtils_Proofs SetCheck SetCheck_Proofs SetCheck_Sound
  RangeCheck RangeCheck_Proofs RangeCheck_Sound Cm Cm_Proofs Plus Plus_Sound Decomposition_Proofs SoundErr PlusErr.
Import ListNotations.
Local Open Scope rs_scope.

(** ** Counting pairs of events *)
Lemma few_pair {A B : Type} (eqB : forall a b : B, {a = b} + {a <> b}) (key : A -> B) (P : B -> Prop) (Q : A -> Prop) n m :
  few P n -> (forall b, P b -> few (fun x => Q x /\ key x = b) m) -> few (fun x => P (key x) /\ Q x) (n * m).
Proof.
  intros HP HQ L HL HF. rewrite Forall_forall in HF.
  assert (length (nodup eqB (map key L)) <= n)%nat as HG.
  { apply HP; [apply NoDup_nodup|]. apply Forall_forall. intros b Hb. apply nodup_In in Hb. apply in_map_iff in Hb as (x & <- & Hx). apply HF. auto. }
  transitivity (length (nodup eqB (map key L)) * m)%nat; [|apply Nat.mul_le_mono_r; auto].
  apply (few_fibre eqB key (nodup eqB (map key L)) (fun x => In x L) m); auto.
  - intros x Hx. apply nodup_In. apply in_map. auto.
  - intros b Hb. apply nodup_In in Hb. apply in_map_iff in Hb as (x & <- & Hx). eapply few_weaken; [|apply le_n|apply (HQ (key x)); apply HF; auto].
    cbn beta. intros y [Hy E]. split; [apply HF; auto|auto].
  - apply Forall_forall. auto.
Qed.

Section C.
Context {K : Type} {KO : FieldOps K} {KL : FieldLaws K}.
(** An event of the first [a] coins and one of the [b] after them. *)
Lemma few_then (S : list K) a b (P : list K -> Prop) (Q : list K -> list K -> Prop) n m :
  few (fun u => In u (tuples a S) /\ P u) n ->
  (forall u, In u (tuples a S) -> few (fun v => In v (tuples b S) /\ Q u v) m) ->
  few (fun x => In x (tuples (a + b) S) /\ P (firstn a x) /\ Q (firstn a x) (skipn a x)) (n * m).
Proof.
  intros HP HQ.
  eapply few_weaken; [|apply le_n|apply (few_pair kl_dec (firstn a) _ (fun x => In x (tuples (a + b) S) /\ Q (firstn a x) (skipn a x)) n m HP)].
  - cbn beta. intros x (Hx & H1 & H2). repeat split; auto. apply (tuples_firstn a (a + b)); auto. lia.
  - intros u [Hu _]. apply (few_inj (skipn a) _ (fun v => In v (tuples b S) /\ Q u v)); [| |apply HQ; auto].
    + intros x [[Hx H] E]. rewrite E in H. split; auto. replace b with (a + b - a)%nat by lia. apply tuples_skipn. auto.
    + intros x y [_ Ex] [_ Ey] E. rewrite <- (firstn_skipn a x), <- (firstn_skipn a y). congruence.
Qed.
Lemma few_all (S : list K) a : few (fun u => In u (tuples a S)) (length S ^ a).
Proof. rewrite <- (tuples_length a S). apply few_in. auto. Qed.
End C.

Section T.
Context {K R : Type} {PO : POps K R} {p : Z} {PL : PLaws K R p}.
Add Ring Rring102 : (@rlaws_th R _ (pl_R (p := p))).
Add Ring Kring102 : (@rlaws_th K _ (fld_laws (FieldLaws := pl_K (p := p)))).
(** The two tapes as a transcript. *)
Definition tape_trans : TransOps (list K * list Z) R K := {|
  absorb := fun ts _ => ts;
  get_challenge := fun ts => (hd 0 (fst ts), (tl (fst ts), snd ts));
  squeeze_bytes := fun ts n => (firstn n (snd ts), (fst ts, skipn n (snd ts))) |}.
#[local] Existing Instance tape_trans.

Lemma tape_slice (l : list R) (ts : list K * list Z) : absorb_slice ts l = ts.
Proof. induction l; cbn; auto. Qed.
Lemma tape_challenges n : forall (x : list K) (by_ : list Z), (n <= length x)%nat -> get_challenges (R := R) (x, by_) n = (firstn n x, (skipn n x, by_)).
Proof.
  induction n as [|n IH]; intros x by_ H; cbn [get_challenges firstn skipn]; auto.
  destruct x as [|c x]; [cbn in H; lia|]. cbn [length] in H. cbn [get_challenge tape_trans hd tl fst snd]. rewrite IH by lia. auto.
Qed.
Lemma tape_verify_loop k : forall (x : list K) (by_ : list Z) (proof : list (list R)) ms cs ts', (k <= length x)%nat ->
  verify_loop k (x, by_) proof = Ok (ms, cs, ts') -> cs = firstn k x /\ ts' = (skipn k x, by_).
Proof.
  induction k as [|k IH]; intros x by_ proof ms cs ts' Hk H; cbn [verify_loop] in H; [apply ok_inj in H; injection H as <- <- <-; auto|].
  destruct proof as [|m proof]; [discriminate|]. rewrite tape_slice in H. destruct x as [|c x]; [cbn in Hk; lia|]. cbn [length] in Hk.
  cbn [get_challenge tape_trans hd tl absorb fst snd] in H. apply bind_ok_inv in H as ([[ms' cs'] ts2] & H & H').
  apply ok_inj in H'. injection H' as <- <- <-. apply IH in H as [-> ->]; [|lia]. auto.
Qed.
Lemma tape_sc_verify n d claimed (x : list K) (by_ : list Z) (proof : list (list R)) r e ts' : (n <= length x)%nat ->
  sc_verify (x, by_) n d claimed proof = Ok (r, e, ts') -> r = firstn n x /\ ts' = (skipn n x, by_).
Proof.
  unfold sc_verify. cbv zeta. cbn [absorb tape_trans]. intros Hn H. apply bind_ok_inv in H as ([[ms cs] ts2] & H1 & H2).
  destruct (n =? 0)%nat; [discriminate|]. apply bind_ok_inv in H2 as (e' & _ & H2). apply ok_inj in H2. injection H2 as <- <- <-.
  eapply tape_verify_loop; eauto.
Qed.
(** Short challenges take bytes only. *)
Lemma tape_short lam m (x : list K) (by_ : list Z) s ts' : short_challenges lam m (x, by_) = Ok (s, ts') -> fst ts' = x.
Proof.
  unfold short_challenges. generalize 0%nat as a. revert by_ s ts'. induction m as [|m IH]; intros by_ s ts' a H; cbn [seq mapT] in H; [injection H as <- <-; auto|].
  apply bind_ok_inv in H as ([c ts1] & H1 & H). unfold short_challenge in H1. destruct (64 <=? lam / pdim)%nat; [discriminate|].
  cbn [squeeze_bytes tape_trans fst snd] in H1. injection H1 as <- <-. apply bind_ok_inv in H as ([l ts2] & H2 & H). injection H as <- <-. eapply IH; eauto.
Qed.
Lemma tape_short_any lam m (x x' : list K) (by_ : list Z) s ts' : short_challenges lam m (x, by_) = Ok (s, ts') -> short_challenges lam m (x', by_) = Ok (s, (x', snd ts')).
Proof.
  unfold short_challenges. generalize 0%nat as a. revert by_ s ts'. induction m as [|m IH]; intros by_ s ts' a H; cbn [seq mapT] in *; [injection H as <- <-; auto|].
  apply bind_ok_inv in H as ([c ts1] & H1 & H). unfold short_challenge in *. destruct (64 <=? lam / pdim)%nat; [discriminate|].
  cbn [squeeze_bytes tape_trans fst snd] in *. injection H1 as <- <-. cbn [bind]. apply bind_ok_inv in H as ([l ts2] & H2 & H). injection H as <- <-.
  rewrite (IH _ _ _ _ H2). auto.
Qed.
Lemma tape_cm_challenges k (x : list K) (by_ : list Z) s s' ts' : cm_challenges k (x, by_) = Ok (s, s', ts') ->
  fst ts' = x /\ forall x', cm_challenges k (x', by_) = Ok (s, s', (x', snd ts')).
Proof.
  unfold cm_challenges. intros H. apply bind_ok_inv in H as ([s0 ts1] & H1 & H). apply bind_ok_inv in H as ([s0' ts2] & H2 & H). injection H as <- <- <-.
  pose proof (tape_short _ _ _ _ _ _ H1) as E1.
  assert (forall a (y : list K) (b : list Z) s1 ts1, mapT (fun _ ts => short_challenges 128 pdim ts) (seq a k) (y, b) = Ok (s1, ts1) ->
    fst ts1 = y /\ forall x', mapT (fun _ ts => short_challenges 128 pdim ts) (seq a k) (x', b) = Ok (s1, (x', snd ts1))) as HL.
  { clear. induction k as [|k IH]; intros a y b s1 ts1 H; cbn [seq mapT] in *; [injection H as <- <-; auto|].
    apply bind_ok_inv in H as ([c [y2 b2]] & H1 & H). pose proof (tape_short _ _ _ _ _ _ H1) as E. cbn [fst] in E. subst y2.
    apply bind_ok_inv in H as ([l ts2] & H2 & H). injection H as <- <-. destruct (IH _ _ _ _ _ H2) as [E2 H2']. split; auto.
    intros x'. rewrite (tape_short_any _ _ _ x' _ _ _ H1). cbn [bind snd]. rewrite H2'. auto. }
  destruct ts1 as [y b]. cbn [fst] in E1. subst y. destruct (HL _ _ _ _ _ H2) as [E2 H2']. split; auto.
  intros x'. rewrite (tape_short_any _ _ _ x' _ _ _ H1). cbn [bind snd]. rewrite H2'. auto.
Qed.
Lemma tape_comh (c : list (list R)) (ts : list K * list Z) : absorb_comh c ts = ts.
Proof. unfold absorb_comh. revert ts; induction c as [|v c IH]; intros ts; auto. cbn [fold_left]. rewrite tape_slice. auto. Qed.
Lemma tape_evals (ev : list (list (ev4 R))) (ts : list K * list Z) : absorb_evals ev ts = ts.
Proof.
  unfold absorb_evals. revert ts; induction ev as [|v ev IH]; intros ts; auto. cbn [fold_left]. rewrite IH.
  clear. revert ts; induction v as [|a v IH]; intros ts; auto. cbn [fold_left]. rewrite tape_slice. auto.
Qed.
(** What the range check draws. *)
Lemma tape_rg_verify n m w (dc : dcom K R) (x : list K) (by_ : list Z) ts' : so_nvars (dc_out dc) = n -> length (nth 0 (so_e (dc_out dc)) []) = w ->
  (length (nth 0 (so_e (dc_out dc)) []) + length (so_b (dc_out dc)))%nat = m -> (n_batch m n w + n <= length x)%nat ->
  rg_verify dc (x, by_) = Ok ts' -> ts' = (skipn (n_batch m n w + n) x, by_).
Proof.
  intros En Ew Em Hx H. unfold rg_verify in H. apply bind_ok_inv in H as (ts1 & H1 & H). apply bind_ok_inv in H as (? & _ & H). injection H as <-.
  assert (forall (l : list (dcom_evals K R)) (ts : list K * list Z), rg_absorb l ts = ts) as HA.
  { clear. intros l. unfold rg_absorb. induction l as [|a l IH]; intros ts; auto. cbn [fold_left]. rewrite IH. rewrite ?tape_slice. auto. }
  rewrite HA. destruct (set_verify (dc_out dc) (x, by_)) as [y| |] eqn:E; try discriminate H1. cbn [unwrap] in H1. injection H1 as ->.
  unfold set_verify in E. apply bind_ok_inv in E as (e0 & He & E).
  assert (e0 = nth 0 (so_e (dc_out dc)) []) as -> by (symmetry; apply nth_error_nth; unfold index in He; destruct (nth_error (so_e (dc_out dc)) 0); [injection He as ->; auto|discriminate]).
  rewrite Em, En, Ew in E. destruct (cba_loop m n (x, by_)) as [cba tsa] eqn:E1. destruct (opt_challenge w tsa) as [rc tsb] eqn:E2.
  destruct (cba_cvec m n w (x, by_) cba tsa rc tsb E1 E2) as (G & _). rewrite tape_challenges in G by lia. injection G as _ <-.
  apply bind_ok_inv in E as ([[point v] ts2] & Hsc & E). apply tape_sc_verify in Hsc as [_ ->]; [|rewrite skipn_length; lia].
  apply bind_ok_inv in E as (? & _ & E). destruct (_ =? _); [|discriminate]. injection E as <-.
  assert (forall e b (ts : list K * list Z), sc_absorb (R := R) e b ts = ts) as HS.
  { clear. intros e b ts. unfold sc_absorb.
    assert (forall (l : list (list R)) ts, fold_left absorb_slice l ts = ts) as H1 by (induction l as [|v l IH]; intros t; auto; cbn [fold_left]; rewrite tape_slice; auto).
    assert (forall (l : list (list (list R))) ts, fold_left (fun ts v => fold_left absorb_slice v ts) l ts = ts) as H2 by (induction l as [|v l IH]; intros t; auto; cbn [fold_left]; rewrite H1; auto).
    rewrite ?H1, ?H2, ?tape_slice. auto. }
  rewrite HS. f_equal. rewrite skipn_skipn'. f_equal. lia.
Qed.

(** ** Counting the bad challenges of one half *)
(** [sc_bad] without its clause about the transcript. *)
Definition scb (n d : nat) (g : list R -> R) (msgs : list (list R)) (r : list K) : Prop :=
  exists i, (i < n)%nat /\
    let msg := nth i msgs [] in let h := true_round g (map emb (firstn i r)) (n - 1 - i) in
    bad_challenge msg h (nth i r 0) /\ forall bad : list K, NoDup bad -> (forall c, In c bad -> bad_challenge msg h c) -> (length bad <= d)%nat.
Lemma scb_of {T} {TO : TransOps T R K} n d g (ts : T) msgs r : sc_bad n d g ts msgs r -> scb n d g msgs r.
Proof. intros (i & Hi & _ & _ & H1 & _ & H2). exists i. auto. Qed.
Lemma few_scb n d Pm a N (S : list K) (g : list K -> list R -> R) : (a + n <= N)%nat ->
  few (fun x => In x (tuples N S) /\ scb n d (g (firstn a x)) (sc_messages Pm a n x) (firstn n (skipn a x))) (n * d * length S ^ (N - 1)).
Proof.
  intros HN.
  eapply few_weaken; [|apply le_n|
    apply (few_block S N a n (fun i pre c =>
      let h := true_round (g (firstn a pre)) (map emb (skipn a pre)) (n - 1 - i) in
      bad_challenge (Pm pre) h c /\
      forall bad : list K, NoDup bad -> (forall c, In c bad -> bad_challenge (Pm pre) h c) -> (length bad <= d)%nat) d)]; auto.
  - intros x [Hx (i & Hi & Hb & Hall)]. split; auto. exists i. split; auto. cbv zeta.
    assert (nth i (sc_messages Pm a n x) [] = Pm (firstn (a + i) x)) as Em.
    { unfold sc_messages. rewrite (nth_map_lt _ _ _ 0%nat) by (rewrite seq_length; lia). rewrite seq_nth by lia. auto. }
    rewrite firstn_add_firstn, skipn_firstn_add.
    assert (firstn i (skipn a x) = firstn i (firstn n (skipn a x))) as -> by (rewrite firstn_firstn; f_equal; lia).
    rewrite <- (nth_skipn_firstn a i n x 0 Hi). rewrite Em in Hb, Hall. auto.
  - intros i pre Hi Hpre. apply few_if. intros c0 (_ & _ & Hall) L HL HF. apply Hall; auto.
    rewrite Forall_forall in HF. intros c Hc. apply HF in Hc as (_ & Hc & _). auto.
Qed.
(** Coin [a] is the batching challenge, the next [nv] those of the sumcheck. *)
Definition half_event (nv : nat) (gap : list R) (val : K -> list R -> R) (msgs : list (list R)) (v : list K) : Prop :=
  bad_root gap (nth 0 v 0) \/ scb nv 2 (val (nth 0 v 0)) msgs (firstn nv (skipn 1 v)).
Lemma few_half nv D a N (S : list K) (gap : list K -> list R) (val : list K -> K -> list R -> R) msg : (a + (1 + nv) <= N)%nat -> (forall pre, length (gap pre) = (D + 1)%nat) ->
  few (fun x => In x (tuples N S) /\ half_event nv (gap (firstn a x)) (val (firstn a x)) (sc_messages msg (a + 1) nv x) (skipn a x)) ((D + nv * 2) * length S ^ (N - 1)).
Proof.
  intros HN HD.
  eapply few_weaken; [|apply Nat.eq_le_incl|apply few_or;
    [apply (few_coord S N a (fun pre c => bad_root (gap pre) c) D); [lia|]
    |apply (few_scb nv 2 msg (a + 1) N S (fun pre => val (firstn a pre) (nth a pre 0))); lia]].
  - intros x [Hx H]. pose proof Hx as Hx'. apply in_tuples in Hx' as [Lx _].
    assert (nth 0 (skipn a x) 0 = nth a x 0) as E0.
    { pose proof (nth_skipn_firstn a 0 1 x 0 ltac:(lia)) as Q. rewrite Nat.add_0_r in Q. rewrite <- Q. destruct (skipn a x); auto. }
    destruct H as [H|H]; rewrite E0 in H; [left|right]; split; auto.
    rewrite skipn_skipn', (Nat.add_comm 1 a) in H. rewrite firstn_add_firstn.
    assert (nth a (firstn (a + 1) x) 0 = nth a x 0) as ->; auto. 
    rewrite <- (firstn_skipn (a + 1) x) at 2. rewrite app_nth1; auto. rewrite firstn_length. lia.
  - lia.
  - intros pre _. apply few_if. intros c0 (_ & _ & _ & Hall) Lb HL HF. specialize (HD pre).
    rewrite Forall_forall in HF. specialize (Hall Lb HL (fun y Hy => proj1 (proj2 (proj2 (HF y Hy))))). lia.
Qed.
Lemma few_rev n (S : list K) (t : nat -> R) : few (fun v => In v (tuples n S) /\ bad_coord t (rev v)) (n * length S ^ (n - 1)).
Proof.
  apply (few_inj (@rev K) _ (fun v => In v (tuples n S) /\ bad_coord t (firstn n (skipn 0 v)))).
  - intros v [Hv Hb]. apply in_tuples in Hv as [Lv Fv]. split; [apply in_tuples; split; [rewrite rev_length; auto|apply Forall_rev; auto]|].
    cbn [skipn]. rewrite <- Lv, <- rev_length, firstn_all. auto.
  - intros u v _ _ E. rewrite <- (rev_involutive u), <- (rev_involutive v). congruence.
  - apply (few_coord_at n 0 n S (fun _ => t)). lia.
Qed.

(** ** C116 *)
(** The prover: what it sends up to the end of the range check, the commitments of [h], and the messages and evaluations of the two halves.
    [a] coins belong to the range check, then come two vectors of [lk] coins and for each half one batching challenge and [nv] coins.  The
    messages of the range check and the evaluations may even depend on later coins of the same stage. *)
Record cm_strategy := CmStrategy {
  cs_dc : list K -> dcom K R; cs_comh : list K -> list (list R);
  cs_msg0 : list K -> list R; cs_ev0 : list K -> list (list (ev4 R));
  cs_msg1 : list K -> list R; cs_ev1 : list K -> list (list (ev4 R)) }.
Definition cm_play (a lk nv : nat) (st : cm_strategy) (x : list K) : cm_proof K R :=
  CmProof (cs_dc st (firstn a x)) (cs_comh st (firstn a x))
    (sc_messages (cs_msg0 st) (a + 2 * lk + 1) nv x, sc_messages (cs_msg1 st) (a + 2 * lk + (1 + nv) + 1) nv x) (cs_ev0 st x, cs_ev1 st x).
(** Sizes of a proof for [L] instances. *)
Definition cm_shape (nv kap m w L : nat) (pf : cm_proof K R) : Prop :=
  let dc := cp_dcom pf in
  so_nvars (dc_out dc) = nv /\ length (so_r (dc_out dc)) = nv /\ length (nth 0 (so_e (dc_out dc)) []) = w /\ (w + length (so_b (dc_out dc)))%nat = m /\
  length (dc_evals dc) = L /\ length (fst (cp_evals pf)) = L /\ length (cp_comh pf) = L /\ Forall (fun ch => length ch = kap) (cp_comh pf) /\
  (1 <= rp_k (dc_params dc))%nat /\ (1 <= rp_l (dc_params dc))%nat.
(** The verifier accepts; the evaluations are those of the vectors at the points of the two sumchecks; yet the claims that the proof makes at the
    point of the range check are not all true. *)
Definition cm_fooled (n nv kap m w : nat) (by_ : list Z) (M : list (smat R)) (insts : list (rg_inst K R)) (hs : list (list R)) (pf : cm_proof K R) (x : list K) : Prop :=
  cm_shape nv kap m w (length insts) pf /\ Forall (x_ok n) (combine insts hs) /\ length hs = length insts /\
  exists X ts' ts1 s s' ts2 point0 point1,
    cm_verify pf M (x, by_) = Ok (X, ts') /\ rg_verify (cp_dcom pf) (x, by_) = Ok ts1 /\ cm_challenges (rp_k (dc_params (cp_dcom pf))) ts1 = Ok (s, s', ts2) /\
    cx_ro X = combine (map emb point0) (map emb point1) /\ length point0 = nv /\ length point1 = nv /\
    fst (cp_evals pf) = map (true_ev4 M point0) (combine insts hs) /\ snd (cp_evals pf) = map (true_ev4 M point1) (combine insts hs) /\
    ~ cm_true M pf s' insts hs.

Lemma combine_inj {A B} (a a' : list A) (b b' : list B) : length a = length b -> length a' = length b' -> combine a b = combine a' b' -> a = a' /\ b = b'.
Proof.
  revert a' b b'; induction a as [|x a IH]; intros [|x' a'] [|y b] [|y' b'] H1 H2 E; cbn in *; try discriminate; auto.
  injection E as -> -> E. destruct (IH a' b b') as [-> ->]; auto.
Qed.
Lemma map_emb_inj (a b : list K) : map (emb : K -> R) a = map emb b -> a = b.
Proof.
  revert b; induction a as [|x a IH]; intros [|y b] E; try discriminate; auto. cbn [map] in E. injection E as E1 E2. f_equal; auto.
  rewrite <- (pct_emb (p := p) x), <- (pct_emb (p := p) y). congruence.
Qed.
Lemma cm_gap_length nv L w evals u tc0 tc1 VS r t0 t1 : length (cm_gap nv L w evals u tc0 tc1 VS r t0 t1 : list R) = (L * w + 1 + 1)%nat.
Proof. unfold cm_gap. rewrite app_length, map_length, seq_length. cbn [length]. lia. Qed.
Lemma messages_shift msg b nv (x : list K) : (b <= length x)%nat ->
  sc_messages (R := R) msg (b + 1) nv x = sc_messages (fun pre => msg (firstn b x ++ pre)) 1 nv (skipn b x).
Proof.
  intros Hb. unfold sc_messages. apply map_ext. intros i. f_equal. rewrite <- Nat.add_assoc. apply firstn_add.
Qed.

Theorem cm_error n nv kap m w by_ (M : list (smat R)) insts (hs : list K -> list (list R)) (st : cm_strategy) (S : list K) :
  let L := length insts in let lk := ark_log2 kap in let a := (n_batch m nv w + nv)%nat in let N := (a + 2 * lk + (1 + nv) + (1 + nv))%nat in
  char_gt K 2 -> (128 / pdim < 64)%nat -> (n <= 2 ^ nv)%nat -> (1 <= L)%nat -> Forall (m_ok n nv) M ->
  few (fun x => In x (tuples N S) /\ cm_fooled n nv kap m w by_ M insts (hs (firstn a x)) (cm_play a lk nv st x) x)
    (((L * (4 + 4 * length M) + 1 + 2 * nv) ^ 2 + lk ^ 2) * length S ^ (N - 2)).
Proof.
  intros L lk a N Hc Hlam Hn HL HM.
  set (b := (a + 2 * lk)%nat).
  set (P := fun u => dc_params (cs_dc st u)).
  set (sp := fun u => match cm_challenges (rp_k (P u)) (([], by_) : list K * list Z) with Ok (_, s', _) => concat s' | _ => [] end : list R).
  set (cz := fun (i : nat) (x : list K) => firstn lk (skipn (a + i * lk) x)).
  set (tz := fun i x => calculate_t_z (map emb (cz i x)) (sp (firstn a x)) (dp_pows (rp_l (P (firstn a x)))) x_pows : list R).
  set (uu := fun x => map (fun l => cm_u (rp_k (P x)) l (sp x) (so_e (dc_out (cs_dc st x)))) (seq 0 L)).
  set (tc := fun i x => cm_tcch (map emb (cz i x)) (cs_comh st (firstn a x))).
  set (VS := fun x => VSof M (combine insts (hs (firstn a x)))).
  set (rr := fun x => so_r (dc_out (cs_dc st (firstn a x)))).
  set (gap := fun x => cm_gap nv L (4 + 4 * length M) (dc_evals (cs_dc st (firstn a x))) (uu (firstn a x)) (tc 0%nat x) (tc 1%nat x) (VS x) (rr x) (tz 0%nat x) (tz 1%nat x)).
  set (val := fun x rc => cm_val L (4 + 4 * length M) rc (VS x) (rr x) (tz 0%nat x) (tz 1%nat x)).
  set (gc := fun u => com_gap (rp_l (P u)) (rp_k (P u) * pdim) insts (cs_comh st u) (sp u)).
  set (B := (L * (4 + 4 * length M) + 1 + 2 * nv)%nat).
  (* both halves bad *)
  assert (few (fun x => In x (tuples N S) /\ half_event nv (gap (firstn b (firstn (b + (1 + nv)) x))) (val (firstn b (firstn (b + (1 + nv)) x))) (sc_messages (cs_msg0 st) (b + 1) nv (firstn (b + (1 + nv)) x)) (skipn b (firstn (b + (1 + nv)) x)) /\
      half_event nv (gap (firstn b (firstn (b + (1 + nv)) x))) (val (firstn b (firstn (b + (1 + nv)) x))) (sc_messages (fun pre => cs_msg1 st (firstn (b + (1 + nv)) x ++ pre)) 1 nv (skipn (b + (1 + nv)) x)) (skipn (b + (1 + nv)) x))
    ((B * length S ^ (b + nv)) * (B * length S ^ nv))) as F1.
  { replace N with ((b + (1 + nv)) + (1 + nv))%nat by (unfold N, b; lia).
    apply (few_then S (b + (1 + nv)) (1 + nv)
      (fun u => half_event nv (gap (firstn b u)) (val (firstn b u)) (sc_messages (cs_msg0 st) (b + 1) nv u) (skipn b u))
      (fun u v => half_event nv (gap (firstn b u)) (val (firstn b u)) (sc_messages (fun pre => cs_msg1 st (u ++ pre)) 1 nv v) v)).
    - eapply few_weaken; [|apply Nat.eq_le_incl|apply (few_half nv (L * (4 + 4 * length M) + 1) b (b + (1 + nv)) S gap val (cs_msg0 st)); [lia|]].
      + intros u H. exact H.
      + unfold B. replace (b + (1 + nv) - 1)%nat with (b + nv)%nat by lia. lia.
      + intros pre. apply cm_gap_length.
    - intros u Hu. eapply few_weaken; [|apply Nat.eq_le_incl|apply (few_half nv (L * (4 + 4 * length M) + 1) 0 (1 + nv) S (fun _ => gap (firstn b u)) (fun _ => val (firstn b u)) (fun pre => cs_msg1 st (u ++ pre))); [lia|]].
      + intros v H. exact H.
      + unfold B. replace (1 + nv - 1)%nat with nv by lia. lia.
      + intros pre. apply cm_gap_length. }
  (* both vectors for the commitments bad *)
  assert (few (fun x => In x (tuples N S) /\ bad_coord (gc (firstn a x)) (rev (cz 0%nat x)) /\ bad_coord (gc (firstn a x)) (rev (cz 1%nat x)))
     (((length S ^ a * (lk * length S ^ (lk - 1))) * (lk * length S ^ (lk - 1))) * length S ^ (1 + nv + (1 + nv)))) as F2.
  { eapply few_weaken; [|apply le_n|].
    2:{ apply (few_then S (a + lk + lk) (1 + nv + (1 + nv)) (fun u => bad_coord (gc (firstn a u)) (rev (cz 0%nat u)) /\ bad_coord (gc (firstn a u)) (rev (cz 1%nat u))) (fun _ _ => True)).
      2:{ intros u _. eapply few_weaken; [|apply le_n|apply (few_all S (1 + nv + (1 + nv)))]. intros v [Hv _]. auto. }
      eapply few_weaken; [|apply le_n|].
      2:{ apply (few_then S (a + lk) lk (fun u => bad_coord (gc (firstn a u)) (rev (cz 0%nat u))) (fun u v => bad_coord (gc (firstn a u)) (rev v))).
        2:{ intros u _. apply few_rev. }
        eapply few_weaken; [|apply le_n|].
        2:{ apply (few_then S a lk (fun _ => True) (fun u v => bad_coord (gc u) (rev v))).
          - eapply few_weaken; [|apply le_n|apply (few_all S a)]. intros v [Hv _]. auto.
          - intros u _. apply few_rev. }
        intros x [Hx H]. split; auto. split; auto. unfold cz in H. rewrite Nat.add_0_r in H. apply in_tuples in Hx as [Lx _].
        rewrite (firstn_all2 (skipn a x)) in H by (rewrite skipn_length; lia). auto. }
      intros x [Hx [H0 H1]]. split; auto. pose proof Hx as Hx'. apply in_tuples in Hx' as [Lx _]. rewrite firstn_add_firstn. split.
      - unfold cz in *. rewrite Nat.add_0_r in *. rewrite skipn_firstn_add. rewrite firstn_firstn, Nat.min_id. auto.
      - unfold cz in H1. rewrite Nat.mul_1_l in H1. rewrite (firstn_all2 (skipn (a + lk) x)) in H1 by (rewrite skipn_length; lia). auto. }
    intros x [Hx [H0 H1]]. split; [replace (a + lk + lk + (1 + nv + (1 + nv)))%nat with N by (unfold N; lia); auto|]. split; auto.
    rewrite <- Nat.add_assoc, firstn_add_firstn. unfold cz in *. split.
    + rewrite Nat.add_0_r in *. rewrite skipn_firstn_add, firstn_firstn, Nat.min_l by lia. auto.
    + rewrite Nat.mul_1_l in *. rewrite (Nat.add_assoc a lk lk), skipn_firstn_add, firstn_firstn, Nat.min_id. auto. }
  eapply few_weaken; [|apply Nat.eq_le_incl|apply (few_or _ _ _ _ F1 F2)].
  - intros x [Hx (HSh & HX & Lh & X & ts' & ts1 & s & s' & ts2 & point0 & point1 & HV & Hrg & Hch & Ero & Lp0 & Lp1 & E0 & E1 & Hno)].
    pose proof Hx as Hx'. apply in_tuples in Hx' as [Lx _].
    set (pf := cm_play a lk nv st x) in *.
    destruct HSh as (Z1 & Z2 & Z3 & Z4 & Z5 & Z6 & Z7 & Z8 & Z9 & Z10).
    pose proof (cm_sound (p := p) n nv kap insts (hs (firstn a x)) M pf (x, by_) ts' X) as HS. cbv zeta in HS.
    specialize (HS Hc Hlam Z1 Z2 Hn HL Lh Z5 Z6 Z7 Z8 Z9 Z10 HM HX HV).
    destruct HS as (ts1' & s0 & s0' & ts2' & c0 & c1 & ts3 & q0 & q1 & ts4 & G1 & G2 & G3 & G4 & G5 & G6 & G7 & HS).
    rewrite Hrg in G1. apply ok_inj in G1. subst ts1'. rewrite Hch in G2. apply ok_inj in G2. injection G2 as <- <- <-.
    rewrite Ero in G5. apply combine_inj in G5 as [G5 G5']; [|rewrite !map_length; congruence..]. apply map_emb_inj in G5, G5'. subst q0 q1.
    specialize (HS E0 E1). destruct HS as [HS|HS]; [destruct (Hno HS)|].
    (* the transcripts *)
    rewrite <- Z3 in Z4. apply (tape_rg_verify nv m w) in Hrg; auto; [|fold a; unfold N in Lx; lia]. fold a in Hrg. subst ts1.
    assert (concat s' = sp (firstn a x)) as Esp.
    { unfold sp. apply tape_cm_challenges in Hch as [_ Hch]. specialize (Hch []). unfold pf in Hch. cbn [cm_play cp_dcom] in Hch. unfold P. rewrite Hch. auto. }
    apply tape_cm_challenges in Hch as [Ets2 _]. destruct ts2 as [y2 b2]. cbn [fst] in Ets2. subst y2.
    rewrite tape_comh in G3. unfold c_challenges in G3. rewrite (index_ok _ _ []) in G3 by lia. cbn [bind] in G3.
    assert (length (nth 0 (cp_comh pf) []) = kap) as Lk by (rewrite Forall_forall in Z8; apply Z8, nth_In; lia). rewrite Lk in G3. fold lk in G3.
    rewrite tape_challenges in G3 by (rewrite skipn_length; unfold N in Lx; lia).
    rewrite tape_challenges in G3 by (rewrite !skipn_length; unfold N in Lx; lia). apply ok_inj in G3. injection G3 as Ec0 Ec1 Ets3.
    apply map_emb_inj in Ec0, Ec1. rewrite !skipn_skipn' in *. subst ts3.
    assert (c0 = cz 0%nat x) as Ez0 by (unfold cz; rewrite Nat.add_0_r; auto).
    assert (c1 = cz 1%nat x) as Ez1 by (unfold cz; rewrite <- Ec1; f_equal; f_equal; lia).
    replace (lk + lk + a)%nat with b in * by (unfold b; lia).
    (* parts that depend on the first coins only *)
    assert (forall i, (i < 2)%nat -> cz i (firstn b x) = cz i x) as Ecz.
    { intros i Hi. unfold cz. replace b with (a + i * lk + (b - (a + i * lk)))%nat by (unfold b; nia). rewrite skipn_firstn_add, firstn_firstn. f_equal. unfold b. nia. }
    assert (firstn a (firstn b x) = firstn a x) as Ea by (unfold b; apply firstn_add_firstn).
    assert (gap (firstn b x) = gap x /\ forall rc, val (firstn b x) rc = val x rc) as [Egap Eval].
    { unfold gap, val, tz, tc, VS, rr. rewrite Ea, !Ecz by lia. auto. }
    assert (firstn b (firstn (b + (1 + nv)) x) = firstn b x) as Eb by apply firstn_add_firstn.
    destruct HS as [[HB0 HB1]|[HB0 HB1]].
    + left. split; auto. rewrite Eb.
      assert (ts4 = (skipn (b + (1 + nv)) x, b2) /\ point0 = firstn nv (skipn (b + 1) x)) as [-> Ep0].
      { destruct G4 as [G4 _]. unfold cm_verify_sc in G4. rewrite Z1 in G4. cbn [get_challenge tape_trans fst snd] in G4.
        apply bind_ok_inv in G4 as (cl & _ & G4). apply bind_ok_inv in G4 as ([[pt e] ts5] & Hsc & G4).
        match type of Hsc with unwrap ?sv = _ => destruct sv as [y| |] eqn:Esc; try discriminate Hsc end. cbn [unwrap] in Hsc. apply ok_inj in Hsc. subst y.
        assert (tl (skipn b x) = skipn (b + 1) x) as Et by (rewrite (Nat.add_comm b), <- skipn_skipn'; destruct (skipn b x); auto). rewrite Et in Esc.
        apply tape_sc_verify in Esc as [-> ->]; [|rewrite skipn_length; unfold N, b in *; lia]. rewrite skipn_skipn' in G4.
        apply bind_ok_inv in G4 as (? & _ & G4). apply bind_ok_inv in G4 as (? & _ & G4). apply bind_ok_inv in G4 as (? & _ & G4). apply bind_ok_inv in G4 as (? & _ & G4).
        rewrite tape_evals in G4. destruct (_ =? _); [|discriminate]. apply ok_inj in G4. injection G4 as G4 <-. apply map_emb_inj in G4. split; [f_equal; f_equal; lia|auto]. }
      assert (point1 = firstn nv (skipn (b + (1 + nv) + 1) x)) as Ep1.
      { destruct G4 as [_ G4]. unfold cm_verify_sc in G4. rewrite Z1 in G4. cbn [get_challenge tape_trans fst snd] in G4.
        apply bind_ok_inv in G4 as (cl & _ & G4). apply bind_ok_inv in G4 as ([[pt e] ts5] & Hsc & G4).
        match type of Hsc with unwrap ?sv = _ => destruct sv as [y| |] eqn:Esc; try discriminate Hsc end. cbn [unwrap] in Hsc. apply ok_inj in Hsc. subst y.
        assert (tl (skipn (b + (1 + nv)) x) = skipn (b + (1 + nv) + 1) x) as Et by (generalize (b + (1 + nv))%nat; intros q; rewrite (Nat.add_comm q), <- skipn_skipn'; destruct (skipn q x); auto). rewrite Et in Esc.
        apply tape_sc_verify in Esc as [-> ->]; [|rewrite skipn_length; unfold N, b in *; lia].
        apply bind_ok_inv in G4 as (? & _ & G4). apply bind_ok_inv in G4 as (? & _ & G4). apply bind_ok_inv in G4 as (? & _ & G4). apply bind_ok_inv in G4 as (? & _ & G4).
        destruct (_ =? _); [|discriminate]. apply ok_inj in G4. injection G4 as G4 _. apply map_emb_inj in G4. auto. }
      cbv zeta in HB0, HB1. unfold half_bad in HB0, HB1. cbn [get_challenge tape_trans fst snd] in HB0, HB1.
      assert (forall i (l : list K), hd (0 : K) (skipn i l) = nth 0 (skipn i l) 0) as Ehd by (intros i l; destruct (skipn i l); auto). rewrite Ehd in HB0, HB1.
      rewrite Ez0, Ez1, Esp in HB0, HB1. unfold half_event. rewrite Egap, !Eval. split.
      * assert (forall i, (i < 1 + nv)%nat -> nth i (skipn b (firstn (b + (1 + nv)) x)) 0 = nth i (skipn b x) 0) as Ei.
        { intros i Hi. rewrite skipn_firstn_add. pose proof (nth_skipn_firstn 0 i (1 + nv) (skipn b x) 0 Hi) as Q. cbn [skipn Nat.add] in Q. exact Q. }
        rewrite Ei by lia. rewrite skipn_skipn', (Nat.add_comm 1 b).
        assert (firstn nv (skipn (b + 1) (firstn (b + (1 + nv)) x)) = point0) as ->.
        { rewrite Ep0. replace (b + (1 + nv))%nat with ((b + 1) + nv)%nat by lia. rewrite skipn_firstn_add, firstn_firstn, Nat.min_id. auto. }
        destruct HB0 as [HB0|HB0]; [left; exact HB0|right]. apply scb_of in HB0. 
        assert (sc_messages (cs_msg0 st) (b + 1) nv (firstn (b + (1 + nv)) x) = fst (cp_sc pf)) as ->; [|exact HB0].
        unfold pf, cm_play, sc_messages. cbn [cp_sc fst]. apply map_ext_in. intros i Hi. apply in_seq in Hi. f_equal. rewrite firstn_firstn. f_equal. unfold b. lia.
      * rewrite skipn_skipn', (Nat.add_comm 1 (b + (1 + nv))), <- Ep1.
        destruct HB1 as [HB1|HB1]; [left; exact HB1|right]. apply scb_of in HB1.
        rewrite <- messages_shift by (unfold N, b in *; lia). exact HB1.
    + right. split; auto. rewrite <- Ez0, <- Ez1. unfold gc. rewrite <- Esp. split; [exact HB0|exact HB1].
  - rewrite Nat.mul_add_distr_r. f_equal.
    + replace (B * length S ^ (b + nv) * (B * length S ^ nv))%nat with (B * B * (length S ^ (b + nv) * length S ^ nv))%nat by lia. rewrite <- Nat.pow_add_r.
      replace (N - 2)%nat with (b + nv + nv)%nat by (unfold N, b; lia). rewrite Nat.pow_2_r. fold B. auto.
    + destruct (Nat.eq_dec lk 0) as [E|Hlk].
      { clearbody lk. rewrite E. rewrite ?Nat.mul_0_l, ?Nat.mul_0_r, ?Nat.mul_0_l, ?Nat.pow_2_r, ?Nat.mul_0_l. reflexivity. }
      replace (length S ^ a * (lk * length S ^ (lk - 1)) * (lk * length S ^ (lk - 1)) * length S ^ (1 + nv + (1 + nv)))%nat
        with (lk * lk * (length S ^ a * length S ^ (lk - 1) * length S ^ (lk - 1) * length S ^ (1 + nv + (1 + nv))))%nat by lia.
      rewrite <- !Nat.pow_add_r, Nat.pow_2_r. f_equal. f_equal. unfold N. lia.
Qed.
End T.
