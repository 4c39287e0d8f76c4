(** The order in which the verifiers talk to the transcript: every message of the prover is absorbed before the challenges
    that have to depend on it are drawn. *)
From Coq Require Import String List Arith Lia ZArith Bool Ring.
From Verif Require Import Prelude Alg MLE Transcript Interp Sumcheck Arith Balanced Rings Linearization Decomposition Folding NIFS NIFS_Proofs.
Import ListNotations.
Local Open Scope rs_scope.

(** One call on the transcript, with what was passed in or came back. *)
Inductive fs_ev (R K C : Type) := FAbs (x : R) | FChal (c : K) | FBytes (n : nat) (b : list Z) | FShort (c : C).
Arguments FAbs {R K C}. Arguments FChal {R K C}. Arguments FBytes {R K C}. Arguments FShort {R K C}.

Section Log.
Context {R K C T : Type} {TO : TransOps T R K} {HO : ShortOps T C}.
(** Any transcript, together with the list of the calls made on it. *)
#[global] Instance fs_trans : TransOps (T * list (fs_ev R K C)) R K :=
  {| absorb := fun s x => (absorb (fst s) x, snd s ++ [FAbs x]);
     get_challenge := fun s => let '(c, t) := get_challenge (fst s) in (c, (t, snd s ++ [FChal c]));
     squeeze_bytes := fun s n => let '(b, t) := squeeze_bytes (fst s) n in (b, (t, snd s ++ [FBytes n b])) |}.
#[global] Instance fs_short : ShortOps (T * list (fs_ev R K C)) C :=
  fun s => let '(c, t) := get_short_challenge (fst s) in (c, (t, snd s ++ [FShort c])).
End Log.

(** ** Schedules *)
Section Sched.
Context {R K C : Type} {RO : RingOps R} {E : Embed K R}.
Notation evs := (list (fs_ev R K C)).
Definition says (l : list R) : evs := map FAbs l.
Definition draws (l : list K) : evs := map FChal l.
(** A sumcheck: the two sizes, then message, challenge and the challenge again, round by round. *)
Fixpoint sc_rounds (msgs : list (list R)) (cs : list K) : evs :=
  match msgs, cs with
  | m :: msgs', c :: cs' => says m ++ FChal c :: FAbs (emb c) :: sc_rounds msgs' cs'
  | _, _ => []
  end.
Definition sc_sched (nv deg : nat) (msgs : list (list R)) (cs : list K) : evs :=
  says [rofn nv; rofn deg] ++ sc_rounds (firstn nv msgs) cs.

Lemma says_inj l l' (a b : evs) : length l = length l' -> says l ++ a = says l' ++ b -> l = l' /\ a = b.
Proof.
  revert l'. induction l as [|x l IH]; intros [|y l'] Hl H; try discriminate Hl; [auto|].
  cbn [says map app] in H. injection H as -> H. cbn [length] in Hl. apply IH in H as [-> ->]; [auto|lia].
Qed.
Lemma draws_inj l l' (a b : evs) : length l = length l' -> draws l ++ a = draws l' ++ b -> l = l' /\ a = b.
Proof.
  revert l'. induction l as [|x l IH]; intros [|y l'] Hl H; try discriminate Hl; [auto|].
  cbn [draws map app] in H. injection H as -> H. cbn [length] in Hl. apply IH in H as [-> ->]; [auto|lia].
Qed.
Lemma cons_inj {A} (x y : A) a b : x :: a = y :: b -> x = y /\ a = b.
Proof. intros H. injection H. auto. Qed.
Lemma sc_rounds_inj msgs msgs' cs cs' (a b : evs) : length msgs = length cs -> length msgs' = length cs' -> length cs = length cs' ->
  map (@length R) msgs = map (@length R) msgs' ->
  sc_rounds msgs cs ++ a = sc_rounds msgs' cs' ++ b -> msgs = msgs' /\ cs = cs' /\ a = b.
Proof.
  revert msgs' cs cs'. induction msgs as [|m ms IH]; intros [|m' ms'] [|c cs] [|c' cs'] H1 H2 H3 H4 H; try discriminate; [auto|].
  cbn [map] in H4. injection H4 as H4 H5. cbn [sc_rounds] in H. rewrite <- !app_assoc in H.
  apply says_inj in H as [-> H]; [|auto]. cbn [app] in H. injection H as -> _ H. cbn [length] in H1, H2, H3.
  apply IH in H as (-> & -> & ->); auto; lia.
Qed.
(** The calls before a challenge fix the message before it: the first [i+1] messages. *)
Definition upto (nv deg : nat) (msgs : list (list R)) (cs : list K) (i : nat) : evs :=
  says [rofn nv; rofn deg] ++ sc_rounds (firstn i msgs) (firstn i cs) ++ says (nth i msgs []).
Lemma sc_sched_upto nv deg msgs cs i : (nv <= length msgs)%nat -> length cs = nv -> (i < nv)%nat -> exists rest d,
  sc_sched nv deg msgs cs = upto nv deg msgs cs i ++ FChal (nth i cs d) :: rest.
Proof.
  intros Hm Hc Hi. unfold sc_sched, upto. revert nv cs Hm Hc Hi.
  assert (forall msgs (cs : list K) nv i, (nv <= length msgs)%nat -> length cs = nv -> (i < nv)%nat -> exists rest d,
    sc_rounds (firstn nv msgs) cs = (sc_rounds (firstn i msgs) (firstn i cs) ++ says (nth i msgs [])) ++ FChal (nth i cs d) :: rest) as G.
  { clear. induction msgs as [|m ms IH]; intros cs nv i Hm Hc Hi; [cbn [length] in Hm; lia|].
    destruct cs as [|c cs]; [cbn [length] in Hc; lia|]. destruct nv as [|nv]; [lia|]. cbn [length] in Hm, Hc.
    destruct i as [|i].
    - exists (FAbs (emb c) :: sc_rounds (firstn nv ms) cs), c. reflexivity.
    - destruct (IH cs nv i) as (rest & d & Eq); [lia|lia|lia|]. exists rest, d. cbn [firstn sc_rounds nth]. rewrite Eq.
      repeat (rewrite <- ?app_assoc; cbn [app]). reflexivity. }
  intros nv cs Hm Hc Hi. destruct (G msgs cs nv i Hm Hc Hi) as (rest & d & Eq). exists rest, d. rewrite Eq, <- !app_assoc. reflexivity.
Qed.
Lemma upto_inj nv deg deg' msgs msgs' cs cs' i (a b : evs) :
  length cs = nv -> length cs' = nv -> (nv <= length msgs)%nat -> (nv <= length msgs')%nat -> (i < nv)%nat ->
  map (@length R) (firstn (S i) msgs) = map (@length R) (firstn (S i) msgs') ->
  upto nv deg msgs cs i ++ a = upto nv deg' msgs' cs' i ++ b -> firstn (S i) msgs = firstn (S i) msgs' /\ firstn i cs = firstn i cs' /\ a = b.
Proof.
  intros H1 H2 H3 H4 Hi H5 H. unfold upto in H. rewrite <- !app_assoc in H. apply says_inj in H as [_ H]; [|auto].
  assert (forall A (d : A) (l : list A), (S i <= length l)%nat -> firstn (S i) l = firstn i l ++ [nth i l d]) as FS.
  { clear. intros A d. induction i; intros [|x l] Hl; cbn [length] in Hl; try lia; [reflexivity|].
    change (firstn (S (S i)) (x :: l)) with (x :: firstn (S i) l). rewrite IHi by lia. reflexivity. }
  rewrite !(FS _ []) in H5 by lia. rewrite !map_app in H5. apply app_inj_tail in H5 as [H5 H6].
  apply sc_rounds_inj in H as (Em & Ec & H); auto.
  - apply says_inj in H as [En ->]; [|auto]. rewrite !(FS _ []) by lia. rewrite Em, En. auto.
  - rewrite !firstn_length. lia.
  - rewrite !firstn_length. lia.
  - rewrite !firstn_length. lia.
Qed.
End Sched.

(** ** The sumcheck verifier *)
Section Sc.
Context {R K C T : Type} {RO : RingOps R} {KO : FieldOps K} {E : Embed K R} {TO : TransOps T R K} {HO : ShortOps T C}.
Notation S := (T * list (fs_ev R K C))%type.
Lemma log_slice (s : S) l : snd (absorb_slice s l) = snd s ++ says l.
Proof.
  revert s. induction l as [|x l IH]; intros s; [cbn [absorb_slice fold_left says map]; rewrite app_nil_r; auto|].
  change (absorb_slice s (x :: l)) with (absorb_slice (absorb s x) l). rewrite IH. cbn [absorb fs_trans snd says map]. rewrite <- app_assoc. reflexivity.
Qed.
Lemma log_challenges (s s' : S) n cs : get_challenges s n = (cs, s') -> length cs = n /\ snd s' = snd s ++ draws cs.
Proof.
  revert s s' cs. induction n as [|n IH]; intros s s' cs H; cbn [get_challenges] in H.
  - injection H as <- <-. cbn [draws map length]. rewrite app_nil_r. auto.
  - cbn [get_challenge fs_trans] in H. destruct (get_challenge (fst s)) as [c t]. destruct (get_challenges (t, snd s ++ [FChal c]) n) as [cs1 s1] eqn:E1.
    injection H as <- <-. apply IH in E1 as [L1 E1]. cbn [snd] in E1. rewrite E1. cbn [length draws map]. rewrite <- app_assoc. auto.
Qed.
Lemma log_verify_loop k (s s' : S) proof msgs cs : verify_loop k s proof = Ok (msgs, cs, s') ->
  msgs = firstn k proof /\ length msgs = k /\ length cs = k /\ snd s' = snd s ++ sc_rounds msgs cs.
Proof.
  revert s proof msgs cs. induction k as [|k IH]; intros s proof msgs cs H; cbn [verify_loop] in H.
  - injection H as <- <- <-. cbn [firstn sc_rounds length]. rewrite app_nil_r. auto.
  - destruct proof as [|m proof]; [discriminate|]. cbn [get_challenge fs_trans] in H.
    destruct (get_challenge (fst (absorb_slice s m))) as [c t]. apply bind_ok_inv in H as ([[ms cs1] s1] & E1 & H).
    injection H as <- <- <-. apply IH in E1 as (-> & L1 & L2 & E1). cbn [firstn length sc_rounds]. split; [auto|]. split; [lia|]. split; [lia|].
    rewrite E1. cbn [absorb fs_trans fst snd]. rewrite log_slice, <- !app_assoc. reflexivity.
Qed.
Theorem log_sc_verify (s s' : S) nv deg claim proof cs e : sc_verify s nv deg claim proof = Ok (cs, e, s') ->
  (nv <= length proof)%nat /\ length cs = nv /\ snd s' = snd s ++ sc_sched nv deg proof cs.
Proof.
  unfold sc_verify. intros H. apply bind_ok_inv in H as ([[ms cs1] s1] & E1 & H). destruct (Nat.eqb_spec nv 0); [discriminate|].
  apply bind_ok_inv in H as (e1 & _ & H). injection H as <- <- <-. apply log_verify_loop in E1 as (-> & L1 & L2 & E1).
  rewrite firstn_length in L1. split; [lia|]. split; [auto|]. rewrite E1. cbn [absorb fs_trans fst snd]. unfold sc_sched. rewrite <- !app_assoc. reflexivity.
Qed.
(** With a proof of another length of messages, [check_loop] panics, so the lengths are known. *)
Lemma check_loop_lengths deg msgs (cs : list K) claim e : length msgs = length cs -> check_loop deg msgs cs claim = Ok e -> Forall (fun m => length m = deg + 1)%nat msgs.
Proof.
  revert cs claim. induction msgs as [|m ms IH]; intros [|c cs] claim HL H; try discriminate; [apply Forall_nil|]. cbn [check_loop] in H.
  destruct (Nat.eqb_spec (length m) (deg + 1)) as [Hm|]; [|discriminate]. cbn [negb] in H. destruct m as [|p0 [|p1 m]]; try discriminate.
  destruct (negb _); [discriminate|]. apply bind_ok_inv in H as (e1 & _ & H). cbn [length] in HL. apply Forall_cons; [auto|]. eapply IH; [|exact H]. lia.
Qed.
Lemma sc_verify_lengths (s s' : S) nv deg claim proof cs e : sc_verify s nv deg claim proof = Ok (cs, e, s') -> Forall (fun m => length m = deg + 1)%nat (firstn nv proof).
Proof.
  unfold sc_verify. intros H. apply bind_ok_inv in H as ([[ms cs1] s1] & E1 & H). destruct (Nat.eqb_spec nv 0); [discriminate|].
  apply bind_ok_inv in H as (e1 & E2 & H). apply log_verify_loop in E1 as (-> & L1 & L2 & _). eapply check_loop_lengths; [|exact E2]. lia.
Qed.
Lemma Forall_lengths {A} n (l l' : list (list A)) : Forall (fun m => length m = n) l -> Forall (fun m => length m = n) l' -> length l = length l' -> map (@length A) l = map (@length A) l'.
Proof.
  intros H. revert l'. induction H as [|m l Hm _ IH]; intros [|m' l'] H' HL; try discriminate; [auto|]. inversion H'; subst. cbn [map length] in *. f_equal; [congruence|]. apply IH; auto.
Qed.

(** Each challenge of an accepted sumcheck comes from a state in which exactly the sizes, the earlier rounds and the
    message of this round have been absorbed, and that state determines those messages. *)
Theorem sc_challenge_binds (s s1 s2 : S) nv deg claim claim' proof proof' cs cs' e e' i :
  sc_verify s nv deg claim proof = Ok (cs, e, s1) -> sc_verify s nv deg claim' proof' = Ok (cs', e', s2) -> (i < nv)%nat ->
  (exists d rest, snd s1 = (snd s ++ upto nv deg proof cs i) ++ FChal (nth i cs d) :: rest) /\
  (snd s ++ upto nv deg proof cs i = snd s ++ upto nv deg proof' cs' i -> firstn (i + 1) proof = firstn (i + 1) proof').
Proof.
  intros H H' Hi. destruct (log_sc_verify _ _ _ _ _ _ _ _ H) as (L1 & L2 & EQ). destruct (log_sc_verify _ _ _ _ _ _ _ _ H') as (L1' & L2' & _). split.
  - destruct (sc_sched_upto (C := C) nv deg proof cs i L1 L2 Hi) as (rest & d & Es). exists d, rest. rewrite EQ, Es, app_assoc. reflexivity.
  - intros Eu. apply app_inv_head in Eu. rewrite Nat.add_1_r.
    assert (map (@length R) (firstn (Datatypes.S i) proof) = map (@length R) (firstn (Datatypes.S i) proof')) as El.
    { pose proof (sc_verify_lengths _ _ _ _ _ _ _ _ H) as F1. pose proof (sc_verify_lengths _ _ _ _ _ _ _ _ H') as F2.
      apply (Forall_lengths (deg + 1)).
      - replace (firstn (Datatypes.S i) proof) with (firstn (Datatypes.S i) (firstn nv proof)); [|rewrite firstn_firstn; f_equal; lia].
        rewrite <- (firstn_skipn (Datatypes.S i) (firstn nv proof)) in F1. apply Forall_app in F1 as [F1 _]. exact F1.
      - replace (firstn (Datatypes.S i) proof') with (firstn (Datatypes.S i) (firstn nv proof')); [|rewrite firstn_firstn; f_equal; lia].
        rewrite <- (firstn_skipn (Datatypes.S i) (firstn nv proof')) in F2. apply Forall_app in F2 as [F2 _]. exact F2.
      - rewrite !firstn_length. lia. }
    apply (upto_inj (C := C) nv deg deg proof proof' cs cs' i [] []); auto. rewrite !app_nil_r. exact Eu.
Qed.
End Sc.

(** ** The folding scheme *)
Section Nifs.
Context {F K C R T : Type} {SO : SOps F K C R} {TO : TransOps T R K} {HO : ShortOps T C}.
Notation S := (T * list (fs_ev R K C))%type.
Notation evs := (list (fs_ev R K C)).

(** The four vectors of every component of a decomposition proof. *)
Definition dec_sched (pf : dec_proof R) : evs :=
  flat_map (fun c => let '(x, y, u, v) := c in says x ++ says y ++ says u ++ says v) (zip4 (dp_xs pf) (dp_ys pf) (dp_us pf) (dp_vs pf)).
(** Linearization: tag, [beta], sumcheck at [r], the evaluations. *)
Definition lin_sched (cs : ccs R) (pf : lin_proof R) (beta r : list K) : evs :=
  says [tag_elt "beta_s"] ++ draws beta ++ sc_sched (c_s cs) (c_d cs + 1) (lp_sc pf) r ++ says (lp_v pf) ++ says (lp_u pf).
(** Folding up to the point where the first short challenge is drawn. *)
Definition fold_sched (P : dparams) (cs : ccs R) (pf : fold_proof R) (alpha zeta mu beta r : list K) : evs :=
  says [tag_elt "alpha_s"] ++ draws alpha ++ says [tag_elt "zeta_s"] ++ draws zeta ++ says [tag_elt "mu_s"] ++ draws mu ++
  says [tag_elt "beta_s"] ++ draws beta ++ sc_sched (c_s cs) (2 * dp_b P) (fp_sc pf) r ++
  says (concat (fp_theta pf)) ++ says (concat (fp_eta pf)) ++ says [tag_elt "rho_s"].
(** All calls before the first short challenge [rho]. *)
Record nifs_draws := NDraws { nd_b : list K; nd_r : list K; nd_alpha : list K; nd_zeta : list K; nd_mu : list K; nd_beta : list K; nd_r0 : list K }.
Definition nifs_sched (P : dparams) (cs : ccs R) (acc : lcccs R) (cm_i : cccs R) (pf : lf_proof R) (d : nifs_draws) : evs :=
  says (absorbed acc cm_i) ++ lin_sched cs (lf_lin pf) (nd_b d) (nd_r d) ++ dec_sched (lf_dec_l pf) ++ dec_sched (lf_dec_r pf) ++
  fold_sched P cs (lf_fold pf) (nd_alpha d) (nd_zeta d) (nd_mu d) (nd_beta d) (nd_r0 d).
Definition draws_ok (P : dparams) (cs : ccs R) (d : nifs_draws) : Prop :=
  length (nd_b d) = c_s cs /\ length (nd_r d) = c_s cs /\ length (nd_alpha d) = (2 * dp_K P)%nat /\ length (nd_zeta d) = (2 * dp_K P)%nat /\
  length (nd_mu d) = (2 * dp_K P - 1)%nat /\ length (nd_beta d) = c_s cs /\ length (nd_r0 d) = c_s cs.

Lemma log_tag (s : S) t : snd (absorb_tag s t) = snd s ++ says [tag_elt t].
Proof. reflexivity. Qed.
Lemma log_slices (s : S) ls : snd (absorb_slices s ls) = snd s ++ says (concat ls).
Proof.
  revert s. induction ls as [|l ls IH]; intros s; [cbn [concat says map]; rewrite app_nil_r; auto|].
  change (absorb_slices s (l :: ls)) with (absorb_slices (absorb_slice s l) ls). rewrite IH, log_slice. cbn [concat]. unfold says. rewrite map_app, app_assoc. auto.
Qed.
Lemma log_small (s s' : S) n (cs : list C) : get_small_challenges s n = (cs, s') -> length cs = n /\ snd s' = snd s ++ map FShort cs.
Proof.
  revert s s' cs. induction n as [|n IH]; intros s s' cs H; cbn [get_small_challenges] in H.
  - injection H as <- <-. cbn [map length]. rewrite app_nil_r. auto.
  - change (get_short_challenge s) with (let '(c, t) := get_short_challenge (fst s) in (c, (t, snd s ++ [FShort c])) : C * S) in H.
    destruct (get_short_challenge (fst s)) as [c t].
    destruct (get_small_challenges (t, snd s ++ [FShort c]) n) as [cs1 s1] eqn:E1.
    injection H as <- <-. apply IH in E1 as [L1 E1]. cbn [snd] in E1. rewrite E1. cbn [length map]. rewrite <- app_assoc. auto.
Qed.
Lemma log_lin (s s' : S) cm_i pf cs lc : lin_verify cm_i pf s cs = Ok (lc, s') -> exists beta r,
  length beta = c_s cs /\ length r = c_s cs /\ (c_s cs <= length (lp_sc pf))%nat /\ Forall (fun m => length m = c_d cs + 1 + 1)%nat (firstn (c_s cs) (lp_sc pf)) /\
  snd s' = snd s ++ lin_sched cs pf beta r.
Proof.
  unfold lin_verify, squeeze_beta. intros H. destruct (get_challenges (absorb_tag s "beta_s") (c_s cs)) as [b s1] eqn:E1.
  apply log_challenges in E1 as [L1 E1]. apply bind_ok_inv in H as ([[pt e] s2] & E2 & H). apply bind_ok_inv in H as (_ & _ & H).
  pose proof (sc_verify_lengths _ _ _ _ _ _ _ _ E2) as F2. apply log_sc_verify in E2 as (L2 & L3 & E2). injection H as _ <-. exists b, pt. split; [auto|]. split; [auto|]. split; [auto|]. split; [auto|].
  rewrite !log_slice, E2, E1, log_tag. unfold lin_sched. rewrite <- !app_assoc. reflexivity.
Qed.
Lemma log_dec_absorb (s s' : S) r l lcs : dec_absorb r s l = Ok (lcs, s') ->
  snd s' = snd s ++ flat_map (fun c => let '(x, y, u, v) := c in says x ++ says y ++ says u ++ says v) l.
Proof.
  revert s lcs. induction l as [|[[[x y] u] v] l IH]; intros s lcs H; cbn [dec_absorb] in H.
  - injection H as _ <-. cbn [flat_map]. rewrite app_nil_r. auto.
  - apply bind_ok_inv in H as (h & _ & H). apply bind_ok_inv in H as ([l1 s1] & E1 & H). cbn [fst snd] in H. injection H as _ <-.
    apply IH in E1. rewrite E1, !log_slice. cbn [flat_map]. rewrite <- !app_assoc. reflexivity.
Qed.
Lemma log_dec (s s' : S) P lc pf lcs : dec_verify P lc pf s = Ok (lcs, s') -> snd s' = snd s ++ dec_sched pf.
Proof.
  unfold dec_verify. intros H. apply bind_ok_inv in H as ([l1 s1] & E1 & H). apply log_dec_absorb in E1. fold (dec_sched pf) in E1.
  repeat match type of H with
  | bind ?x _ = Ok _ => destruct x; cbn [bind] in H; try discriminate
  | (if ?b then _ else _) = Ok _ => destruct b; try discriminate
  end. injection H as _ <-. exact E1.
Qed.
Lemma log_fold (s s' : S) P cms pf cs lc : fold_verify P cms pf s cs = Ok (lc, s') -> exists alpha zeta mu beta r rho,
  length alpha = (2 * dp_K P)%nat /\ length zeta = (2 * dp_K P)%nat /\ length mu = (2 * dp_K P - 1)%nat /\ length beta = c_s cs /\ length r = c_s cs /\
  length rho = (2 * dp_K P - 1)%nat /\ (c_s cs <= length (fp_sc pf))%nat /\ Forall (fun m => length m = 2 * dp_b P + 1)%nat (firstn (c_s cs) (fp_sc pf)) /\
  snd s' = snd s ++ fold_sched P cs pf alpha zeta mu beta r ++ map FShort rho.
Proof.
  unfold fold_verify, squeeze_abzm. intros H. apply bind_ok_inv in H as (_ & _ & H).
  destruct (get_challenges (absorb_tag s "alpha_s") (2 * dp_K P)) as [al s1] eqn:E1. apply log_challenges in E1 as [L1 E1].
  destruct (get_challenges (absorb_tag s1 "zeta_s") (2 * dp_K P)) as [ze s2] eqn:E2. apply log_challenges in E2 as [L2 E2].
  destruct (get_challenges (absorb_tag s2 "mu_s") (2 * dp_K P - 1)) as [mu s3] eqn:E3. apply log_challenges in E3 as [L3 E3].
  destruct (get_challenges (absorb_tag s3 "beta_s") (c_s cs)) as [be s4] eqn:E4. apply log_challenges in E4 as [L4 E4].
  apply bind_ok_inv in H as ([[pt e] s5] & E5 & H). pose proof (sc_verify_lengths _ _ _ _ _ _ _ _ E5) as F5. apply log_sc_verify in E5 as (L5 & L6 & E5).
  apply bind_ok_inv in H as (_ & _ & H). unfold get_rhos in H.
  destruct (get_small_challenges _ _) as [rho s6] eqn:E6. apply log_small in E6 as [L7 E6].
  apply bind_ok_inv in H as ([[[v0 cm0] u0] x0] & _ & H). apply bind_ok_inv in H as (lc1 & _ & H). injection H as _ <-.
  exists al, ze, mu, be, pt, rho. repeat (split; [auto; fail|]). rewrite E6, log_tag, !log_slices, E5, E4, log_tag, E3, log_tag, E2, log_tag, E1, log_tag.
  unfold fold_sched. rewrite <- !app_assoc. reflexivity.
Qed.

(** Every call the verifier makes, in order; the short challenges [rho] are drawn at the very end. *)
Theorem log_nifs (s s' : S) P cs acc cm_i pf lc : nifs_verify P acc cm_i pf s cs = Ok (lc, s') -> exists d rho,
  draws_ok P cs d /\ length rho = (2 * dp_K P - 1)%nat /\ snd s' = (snd s ++ nifs_sched P cs acc cm_i pf d) ++ map FShort rho.
Proof.
  unfold nifs_verify. intros H. apply bind_ok_inv in H as (_ & _ & H). apply bind_ok_inv in H as ([lin s1] & E1 & H). apply bind_ok_inv in H as ([ll s2] & E2 & H).
  apply bind_ok_inv in H as ([lr s3] & E3 & H). apply log_lin in E1 as (b & r & L1 & L2 & _ & _ & E1). apply log_dec in E2. apply log_dec in E3.
  apply log_fold in H as (al & ze & mu & be & r0 & rho & L3 & L4 & L5 & L6 & L7 & L8 & _ & _ & H).
  exists (NDraws b r al ze mu be r0), rho. split; [unfold draws_ok; cbn [nd_b nd_r nd_alpha nd_zeta nd_mu nd_beta nd_r0]; repeat split; auto|]. split; [auto|].
  rewrite H, E3, E2, E1, absorb_public_input_spec, log_slice. unfold nifs_sched. cbn [nd_b nd_r nd_alpha nd_zeta nd_mu nd_beta nd_r0]. rewrite <- !app_assoc. reflexivity.
Qed.

(** ** What the state before [rho] determines *)
Definition same_len (a b : list (list R)) : Prop := map (@length R) a = map (@length R) b.
Definition dec_full (pf : dec_proof R) : Prop :=
  length (dp_ys pf) = length (dp_xs pf) /\ length (dp_us pf) = length (dp_xs pf) /\ length (dp_vs pf) = length (dp_xs pf).
Definition dec_same (pf pf' : dec_proof R) : Prop :=
  same_len (dp_xs pf) (dp_xs pf') /\ same_len (dp_ys pf) (dp_ys pf') /\ same_len (dp_us pf) (dp_us pf') /\ same_len (dp_vs pf) (dp_vs pf').
(** Statements and proofs whose vectors have equal lengths; the number of sumcheck messages is the number of rounds. *)
Record nifs_same (cs : ccs R) (acc acc' : lcccs R) (cm_i cm_i' : cccs R) (pf pf' : lf_proof R) : Prop := {
  nf_r : length (lc_r acc) = length (lc_r acc'); nf_v : length (lc_v acc) = length (lc_v acc'); nf_cm : length (lc_cm acc) = length (lc_cm acc');
  nf_u : length (lc_u acc) = length (lc_u acc'); nf_x : length (lc_x acc) = length (lc_x acc'); nf_icm : length (i_cm cm_i) = length (i_cm cm_i');
  nf_ix : length (i_x cm_i) = length (i_x cm_i');
  nf_lv : length (lp_v (lf_lin pf)) = length (lp_v (lf_lin pf')); nf_lu : length (lp_u (lf_lin pf)) = length (lp_u (lf_lin pf'));
  nf_lsc : length (lp_sc (lf_lin pf)) = c_s cs /\ length (lp_sc (lf_lin pf')) = c_s cs;
  nf_fsc : length (fp_sc (lf_fold pf)) = c_s cs /\ length (fp_sc (lf_fold pf')) = c_s cs;
  nf_l : dec_full (lf_dec_l pf) /\ dec_full (lf_dec_l pf') /\ dec_same (lf_dec_l pf) (lf_dec_l pf');
  nf_d : dec_full (lf_dec_r pf) /\ dec_full (lf_dec_r pf') /\ dec_same (lf_dec_r pf) (lf_dec_r pf');
  nf_theta : same_len (fp_theta (lf_fold pf)) (fp_theta (lf_fold pf')); nf_eta : same_len (fp_eta (lf_fold pf)) (fp_eta (lf_fold pf')) }.

Lemma same_len_length a b : same_len a b -> length a = length b.
Proof. unfold same_len. intros H. rewrite <- (map_length (@length R) a), H, map_length. auto. Qed.
Lemma same_len_concat a b : same_len a b -> length (concat a) = length (concat b).
Proof.
  revert b. induction a as [|x a IH]; intros [|y b] H; try discriminate; [auto|]. cbn [map] in H. unfold same_len in H. cbn [map] in H. injection H as H1 H2.
  cbn [concat]. rewrite !app_length, H1. f_equal. apply IH. exact H2.
Qed.
Lemma concat_inj (a b : list (list R)) : same_len a b -> concat a = concat b -> a = b.
Proof.
  revert b. induction a as [|x a IH]; intros [|y b] H E; try discriminate; [auto|]. unfold same_len in H. cbn [map] in H. injection H as H1 H2. cbn [concat] in E.
  apply app_inj_len in E as [-> E]; [|auto]. f_equal. apply IH; auto.
Qed.
Lemma dec_sched_inj pf pf' (a b : evs) : dec_full pf -> dec_full pf' -> dec_same pf pf' -> dec_sched pf ++ a = dec_sched pf' ++ b -> pf = pf' /\ a = b.
Proof.
  destruct pf as [us vs xs ys], pf' as [us' vs' xs' ys']. unfold dec_full, dec_same, dec_sched, same_len. cbn [dp_us dp_vs dp_xs dp_ys].
  revert us vs ys us' vs' xs' ys'. induction xs as [|x xs IH]; intros us vs ys us' vs' xs' ys' (A1 & A2 & A3) (B1 & B2 & B3) (C1 & C2 & C3 & C4) H.
  - destruct xs'; [|discriminate]. destruct ys, us, vs; try discriminate. destruct ys', us', vs'; try discriminate. auto.
  - destruct xs' as [|x' xs']; [discriminate|]. destruct ys as [|y ys], us as [|u us], vs as [|v vs]; try discriminate.
    destruct ys' as [|y' ys'], us' as [|u' us'], vs' as [|v' vs']; try discriminate. cbn [map] in C1, C2, C3, C4.
    injection C1 as C1 C1'. injection C2 as C2 C2'. injection C3 as C3 C3'. injection C4 as C4 C4'.
    unfold zip4 in H. cbn [combine flat_map] in H. rewrite <- !app_assoc in H.
    apply says_inj in H as [-> H]; [|auto]. apply says_inj in H as [-> H]; [|auto]. apply says_inj in H as [-> H]; [|auto]. apply says_inj in H as [-> H]; [|auto].
    cbn [length] in *. apply IH in H as [H ->]; [|auto|auto|auto]. injection H as -> -> -> ->. auto.
Qed.
Lemma sc_sched_inj nv deg msgs msgs' (cs cs' : list K) (a b : evs) : length msgs = nv -> length msgs' = nv -> length cs = nv -> length cs' = nv ->
  Forall (fun m => length m = deg + 1)%nat msgs -> Forall (fun m => length m = deg + 1)%nat msgs' ->
  sc_sched nv deg msgs cs ++ a = sc_sched nv deg msgs' cs' ++ b -> msgs = msgs' /\ cs = cs' /\ a = b.
Proof.
  intros H1 H2 H3 H4 H5 H6 H. unfold sc_sched in H. rewrite <- !app_assoc in H. apply says_inj in H as [_ H]; [|auto].
  rewrite !firstn_all2 in H by lia. apply sc_rounds_inj in H; auto; try lia. apply (Forall_lengths (deg + 1)); auto. lia.
Qed.

(** Two accepted runs from one state which have the same calls up to the first [rho] are about the same statement and
    the same proof. *)
Theorem nifs_rho_binds (s s1 s2 : S) P cs acc acc' cm_i cm_i' pf pf' lc lc' :
  nifs_verify P acc cm_i pf s cs = Ok (lc, s1) -> nifs_verify P acc' cm_i' pf' s cs = Ok (lc', s2) -> nifs_same cs acc acc' cm_i cm_i' pf pf' ->
  exists pre1 pre2 rho1 rho2, snd s1 = pre1 ++ map FShort rho1 /\ snd s2 = pre2 ++ map FShort rho2 /\
    length rho1 = (2 * dp_K P - 1)%nat /\ length rho2 = (2 * dp_K P - 1)%nat /\
    (pre1 = pre2 -> acc = acc' /\ cm_i = cm_i' /\ pf = pf').
Proof.
  intros H H' N. 
  assert (forall acc cm_i pf lc s1, nifs_verify P acc cm_i pf s cs = Ok (lc, s1) -> (length (lp_sc (lf_lin pf)) = c_s cs) -> length (fp_sc (lf_fold pf)) = c_s cs ->
    Forall (fun m => length m = c_d cs + 1 + 1)%nat (lp_sc (lf_lin pf)) /\ Forall (fun m => length m = 2 * dp_b P + 1)%nat (fp_sc (lf_fold pf))) as Q.
  { clear. intros acc cm_i pf lc s1 H L1 L2. unfold nifs_verify in H. apply bind_ok_inv in H as (_ & _ & H). apply bind_ok_inv in H as ([lin t1] & E1 & H).
    apply bind_ok_inv in H as ([ll t2] & E2 & H). apply bind_ok_inv in H as ([lr t3] & E3 & H).
    apply log_lin in E1 as (b & r & _ & _ & _ & F1 & _). apply log_fold in H as (al & ze & mu & be & r0 & rho & _ & _ & _ & _ & _ & _ & _ & F2 & _).
    rewrite firstn_all2 in F1 by lia. rewrite firstn_all2 in F2 by lia. auto. }
  destruct N as [N1 N2 N3 N4 N5 N6 N6' N7 N8 [N9 N10] [N11 N12] (N13 & N14 & N15) (N16 & N17 & N18) N19 N20].
  destruct (Q _ _ _ _ _ H N9 N11) as [Q1 Q2]. destruct (Q _ _ _ _ _ H' N10 N12) as [Q1' Q2']. clear Q.
  apply log_nifs in H as (d & rho & D & L & H). apply log_nifs in H' as (d' & rho' & D' & L' & H').
  exists (snd s ++ nifs_sched P cs acc cm_i pf d), (snd s ++ nifs_sched P cs acc' cm_i' pf' d'), rho, rho'. split; [exact H|]. split; [exact H'|]. split; [auto|]. split; [auto|].
  clear H H'. intros E. apply app_inv_head in E. unfold nifs_sched in E.
  destruct D as (D1 & D2 & D3 & D4 & D5 & D6 & D7), D' as (D1' & D2' & D3' & D4' & D5' & D6' & D7').
  apply says_inj in E as [Ea E].
  2: { unfold absorbed. repeat (cbn [length]; rewrite ?app_length). lia. }
  apply absorbed_inj in Ea as [-> ->]; auto.
  unfold lin_sched in E. rewrite <- !app_assoc in E. apply says_inj in E as [_ E]; [|auto]. apply draws_inj in E as [_ E]; [|congruence].
  apply sc_sched_inj in E as (X1 & _ & E); auto. apply says_inj in E as [X2 E]; [|auto]. apply says_inj in E as [X3 E]; [|auto].
  apply dec_sched_inj in E as [X4 E]; auto. apply dec_sched_inj in E as [X5 E]; auto.
  unfold fold_sched in E. rewrite <- ?app_assoc in E.
  apply says_inj in E as [_ E]; [|auto]. apply draws_inj in E as [_ E]; [|congruence].
  apply says_inj in E as [_ E]; [|auto]. apply draws_inj in E as [_ E]; [|congruence].
  apply says_inj in E as [_ E]; [|auto]. apply draws_inj in E as [_ E]; [|congruence].
  apply says_inj in E as [_ E]; [|auto]. apply draws_inj in E as [_ E]; [|congruence].
  apply sc_sched_inj in E as (X6 & _ & E); auto. apply says_inj in E as [X7 E]; [|apply same_len_concat; auto]. apply concat_inj in X7; [|auto].
  apply says_inj in E as [X8 _]; [|apply same_len_concat; auto]. apply concat_inj in X8; [|auto].
  split; [auto|]. split; [auto|]. destruct pf as [[sc v u] dl dr [fsc th et]], pf' as [[sc' v' u'] dl' dr' [fsc' th' et']].
  cbn [lf_lin lf_dec_l lf_dec_r lf_fold lp_sc lp_v lp_u fp_sc fp_theta fp_eta] in *. congruence.
Qed.
End Nifs.
