(** The folding verifier over the Poseidon transcript: the sponge from which the folding challenges are drawn determines the statement and the proof. *)
From Coq Require Import String List Arith Lia ZArith Bool Znumtheory.
From Verif Require Import Prelude Alg Poly Transcript Interp Sumcheck Rings Rings_Proofs Arith Balanced Challenge PolyInst Primes FieldExt CycInst RealRings Linearization Decomposition Folding NIFS NIFS_Proofs
  Poseidon PoseidonParams PoseidonCert Poseidon_Proofs Sponge_Proofs PTrans_Proofs SpongeBind PChecks PShipped Shipped Sampling FSLog FSSim.
Import ListNotations.
Local Open Scope rs_scope.

Section Real.
Context {p : Z} {K : Type} (y : cyc p K) (decode : list Z -> result (list Z)) (need : nat) (c : poseidon_cfg) (RC : real_cfg p K y decode need c).
Notation R := (pol K (cy_k y)).
Notation C := (pol (fp p) (cy_d y)).
Notation W := (wsponge (p := p) c).
Notation evs := (list (fs_ev R K C)).
Instance tr : TransOps W R K := pw_trans y decode need c RC.
Instance sh : ShortOps W C := short_of y decode (pw_bytes y decode need c RC).
Instance so : SOps (fp p) K C R := cyc_ops y.

(** The operations in a log, forgetting the answers. *)
Definition ops (l : evs) : list (op y) :=
  flat_map (fun e => match e with FAbs v => [OAbsorb y v] | FChal _ => [OChallenge y] | FShort _ => [OShort y] | FBytes _ _ => [] end) l.
(** The answers in the log are those of the sponge. *)
Fixpoint answered (l : evs) (sp : sponge p) : Prop :=
  match l with
  | [] => True
  | FAbs v :: l' => answered l' (pt_absorb y c sp v)
  | FChal k :: l' => exists sp', pt_challenge y c sp = Ok (k, sp') /\ answered l' sp'
  | FShort d :: l' => exists sp', pt_short y c decode need sp = Ok (d, sp') /\ answered l' sp'
  | FBytes _ _ :: _ => False
  end.
Lemma ops_app a b : ops (a ++ b) = ops a ++ ops b.
Proof. apply flat_map_app. Qed.
Lemma answered_app a : forall b sp, answered (a ++ b) sp <-> answered a sp /\ answered b (op_run y decode need c (ops a) sp).
Proof.
  induction a as [|e a IH]; intros b sp; [cbn [app answered ops flat_map op_run fold_left]; tauto|].
  destruct e as [v|k|n l|d]; cbn [app answered ops flat_map]; fold (ops a); cbn [app op_run fold_left op_step].
  - apply IH.
  - split.
    + intros (sp' & E & H). apply IH in H as [H1 H2]. rewrite E. cbn [snd]. split; [eauto|exact H2].
    + intros [(sp' & E & H1) H2]. exists sp'. split; [auto|]. rewrite E in H2. cbn [snd] in H2. apply IH. auto.
  - tauto.
  - split.
    + intros (sp' & E & H). apply IH in H as [H1 H2]. rewrite E. cbn [snd]. split; [eauto|exact H2].
    + intros [(sp' & E & H1) H2]. exists sp'. split; [auto|]. rewrite E in H2. cbn [snd] in H2. apply IH. auto.
Qed.
(** The operations determine the log. *)
Lemma answered_det l : forall l' sp, answered l sp -> answered l' sp -> ops l = ops l' -> l = l'.
Proof.
  induction l as [|e l IH]; intros [|e' l'] sp H H' E; auto.
  - destruct e'; cbn [ops flat_map app answered] in *; try discriminate; contradiction.
  - destruct e; cbn [ops flat_map app answered] in *; try discriminate; contradiction.
  - destruct e as [v|k|n b|d], e' as [v'|k'|n' b'|d']; cbn [answered] in H, H'; try contradiction; cbn [ops flat_map app] in E; fold (ops l) (ops l') in E; try discriminate.
    + injection E as <- E. f_equal. eapply IH; eauto.
    + injection E as E. destruct H as (s1 & E1 & H), H' as (s2 & E2 & H'). rewrite E1 in E2. injection E2 as <- <-. f_equal. eapply IH; eauto.
    + injection E as E. destruct H as (s1 & E1 & H), H' as (s2 & E2 & H'). rewrite E1 in E2. injection E2 as <- <-. f_equal. eapply IH; eauto.
Qed.

Section From.
Variable ws0 : W.
(** A logged run that started at [ws0] is now at [ws]. *)
Definition at_ (ws : W) (s : W * evs) : Prop :=
  fst s = ws /\ answered (snd s) (proj1_sig ws0) /\ proj1_sig ws = op_run y decode need c (ops (snd s)) (proj1_sig ws0).
Lemma at_absorb ws s x : at_ ws s -> at_ (absorb ws x) (absorb s x).
Proof.
  intros (E1 & A & E2). unfold at_. cbn [absorb fs_trans fst snd]. rewrite E1. split; [auto|]. rewrite answered_app, ops_app. split; [split; [auto|exact I]|].
  change (proj1_sig (absorb ws x)) with (pt_absorb y c (proj1_sig ws) x). rewrite E2. unfold op_run. rewrite fold_left_app. reflexivity.
Qed.
Lemma at_challenge ws s : at_ ws s -> fst (get_challenge ws) = fst (get_challenge s) /\ at_ (snd (get_challenge ws)) (snd (get_challenge s)).
Proof.
  intros (E1 & A & E2). unfold at_. destruct (pt_challenge_ok y decode need c RC ws) as (k & ws' & G & G').
  change (get_challenge ws = (k, ws')) in G. cbn [get_challenge fs_trans]. rewrite E1. rewrite G. cbn [fst snd]. split; [auto|]. split; [auto|].
  rewrite answered_app, ops_app, <- E2. split; [split; [auto|cbn [answered]; eauto]|]. unfold op_run in *. rewrite fold_left_app, <- E2. cbn [ops flat_map app fold_left op_step]. rewrite G'. auto.
Qed.
Lemma at_short ws s : at_ ws s -> fst (get_short_challenge ws) = fst (get_short_challenge s) /\ at_ (snd (get_short_challenge ws)) (snd (get_short_challenge s)).
Proof.
  intros (E1 & A & E2). unfold at_. pose proof (pt_short_ok y decode need c RC ws) as G'.
  assert (forall s : W * evs, get_short_challenge s = let '(d, t) := get_short_challenge (fst s) in (d, (t, snd s ++ [FShort d])) :> C * (W * evs)) as Q by reflexivity. rewrite Q, E1. clear Q.
  change (short_of y decode (pw_bytes y decode need c RC) ws) with (get_short_challenge ws : C * W) in G'. destruct (get_short_challenge ws) as [d ws']. cbn [fst snd] in *. split; [auto|]. split; [auto|].
  rewrite answered_app, ops_app, <- E2. split; [split; [auto|cbn [answered]; eauto]|]. unfold op_run in *. rewrite fold_left_app, <- E2. cbn [ops flat_map app fold_left op_step]. rewrite G'. auto.
Qed.
Lemma at_start : at_ ws0 (ws0, []).
Proof. repeat split. Qed.
Lemma logged P acc cm_i pf cs lc ws : nifs_verify P acc cm_i pf ws0 cs = Ok (lc, ws) -> exists s, nifs_verify P acc cm_i pf (ws0, [] : evs) cs = Ok (lc, s) /\ at_ ws s.
Proof.
  intros H. pose proof (sim_nifs at_ at_absorb at_challenge at_short ws0 (ws0, []) P acc cm_i pf cs at_start) as S. rewrite H in S. cbn [rsim] in S.
  destruct (nifs_verify P acc cm_i pf (ws0, [] : evs) cs) as [[lc' s]|e|]; try contradiction. destruct S as [<- S]. eauto.
Qed.

(** Schedules of the same shape consist of the same kinds of operations. *)
Definition kinds (l l' : evs) : Prop := Forall2 (op_kind y) (ops l) (ops l').
Lemma kinds_app a b a' b' : kinds a a' -> kinds b b' -> kinds (a ++ b) (a' ++ b').
Proof. unfold kinds. rewrite !ops_app. apply Forall2_app. Qed.
Lemma kinds_says l : forall l', length l = length l' -> kinds (says l) (says l').
Proof. induction l as [|x l IH]; intros [|x' l'] H; try discriminate; [constructor|]. constructor; [exact I|]. apply IH. cbn [length] in H. lia. Qed.
Lemma kinds_draws l : forall l', length l = length l' -> kinds (FSLog.draws l) (FSLog.draws l').
Proof. induction l as [|x l IH]; intros [|x' l'] H; try discriminate; [constructor|]. constructor; [exact I|]. apply IH. cbn [length] in H. lia. Qed.
Lemma kinds_rounds ms : forall ms' cs cs', length ms = length cs -> length ms' = length cs' -> length cs = length cs' -> map (@length R) ms = map (@length R) ms' ->
  kinds (sc_rounds ms cs) (sc_rounds ms' cs').
Proof.
  induction ms as [|m ms IH]; intros [|m' ms'] [|k cs] [|k' cs'] H1 H2 H3 H4; try discriminate; [constructor|]. cbn [sc_rounds]. cbn [map] in H4. injection H4 as H4 H5.
  apply kinds_app; [apply kinds_says; auto|]. constructor; [exact I|]. constructor; [exact I|]. cbn [length] in *. apply IH; auto; lia.
Qed.
Lemma kinds_sc nv deg ms ms' cs cs' : length ms = nv -> length ms' = nv -> length cs = nv -> length cs' = nv ->
  Forall (fun m => length m = deg + 1)%nat ms -> Forall (fun m => length m = deg + 1)%nat ms' -> kinds (sc_sched nv deg ms cs) (sc_sched nv deg ms' cs').
Proof.
  intros H1 H2 H3 H4 H5 H6. unfold sc_sched. apply kinds_app; [apply kinds_says; auto|]. rewrite !firstn_all2 by lia. apply kinds_rounds; try lia. apply (Forall_lengths (deg + 1)); auto. lia.
Qed.
Lemma kinds_dec (pf pf' : dec_proof R) : dec_full pf -> dec_full pf' -> dec_same pf pf' -> kinds (dec_sched pf) (dec_sched pf').
Proof.
  destruct pf as [us vs xs ys], pf' as [us' vs' xs' ys']. unfold dec_full, dec_same, dec_sched, same_len. cbn [dp_us dp_vs dp_xs dp_ys].
  revert us vs ys us' vs' xs' ys'. induction xs as [|x xs IH]; intros us vs ys us' vs' xs' ys' (A1 & A2 & A3) (B1 & B2 & B3) (C1 & C2 & C3 & C4).
  - destruct xs'; [|discriminate]. destruct ys, us, vs; try discriminate. destruct ys', us', vs'; try discriminate. constructor.
  - destruct xs' as [|x' xs']; [discriminate|]. destruct ys as [|z ys], us as [|u us], vs as [|v vs]; try discriminate.
    destruct ys' as [|z' ys'], us' as [|u' us'], vs' as [|v' vs']; try discriminate. cbn [map] in C1, C2, C3, C4.
    injection C1 as C1 C1'. injection C2 as C2 C2'. injection C3 as C3 C3'. injection C4 as C4 C4'.
    unfold zip4. cbn [combine flat_map]. repeat apply kinds_app; try (apply kinds_says; auto). cbn [length] in *. apply IH; repeat split; auto.
Qed.
Lemma kinds_nifs P cs acc acc' cm_i cm_i' pf pf' d d' : nifs_same cs acc acc' cm_i cm_i' pf pf' -> draws_ok P cs d -> draws_ok P cs d' ->
  Forall (fun m => length m = c_d cs + 1 + 1)%nat (lp_sc (lf_lin pf)) -> Forall (fun m => length m = c_d cs + 1 + 1)%nat (lp_sc (lf_lin pf')) ->
  Forall (fun m => length m = 2 * dp_b P + 1)%nat (fp_sc (lf_fold pf)) -> Forall (fun m => length m = 2 * dp_b P + 1)%nat (fp_sc (lf_fold pf')) ->
  kinds (nifs_sched P cs acc cm_i pf d) (nifs_sched P cs acc' cm_i' pf' d').
Proof.
  intros N (D1 & D2 & D3 & D4 & D5 & D6 & D7) (D1' & D2' & D3' & D4' & D5' & D6' & D7') F1 F2 F3 F4.
  destruct N as [N1 N2 N3 N4 N5 N6 N6' N7 N8 [N9 N10] [N11 N12] (N13 & N14 & N15) (N16 & N17 & N18) N19 N20].
  unfold nifs_sched, lin_sched, fold_sched.
  repeat first [apply kinds_dec; assumption | apply kinds_sc; assumption | apply kinds_draws; congruence | apply kinds_says; (reflexivity || assumption || (apply same_len_concat; assumption)) | apply kinds_app].
  apply kinds_says.
  unfold absorbed. cbn [length]. rewrite !app_length. cbn [length]. rewrite !app_length. cbn [length]. rewrite ?app_length. lia.
Qed.
Lemma app_tail {A} (a b a' b' : list A) : length b = length b' -> a ++ b = a' ++ b' -> a = a'.
Proof.
  intros HL H. assert (length a = length a') as Ha by (apply (f_equal (@length A)) in H; rewrite !app_length in H; lia).
  revert a' Ha H. induction a as [|x a IH]; intros [|x' a'] Ha H; try discriminate; auto. cbn [app] in H. injection H as -> H. f_equal. apply IH; auto.
Qed.
Theorem real_binds P cs acc acc' cm_i cm_i' pf pf' lc lc' ws1 ws2 :
  nifs_verify P acc cm_i pf ws0 cs = Ok (lc, ws1) -> nifs_verify P acc' cm_i' pf' ws0 cs = Ok (lc', ws2) -> nifs_same cs acc acc' cm_i cm_i' pf pf' ->
  exists h1 h2 : list (op y), let run := fun h => op_run y decode need c h (proj1_sig ws0) in let rhos := repeat (OShort y) (2 * dp_K P - 1) in
    proj1_sig ws1 = run (h1 ++ rhos) /\ proj1_sig ws2 = run (h2 ++ rhos) /\
    Forall2 (op_kind y) h1 h2 /\ (h1 = h2 -> acc = acc' /\ cm_i = cm_i' /\ pf = pf').
Proof.
  intros H H' N. apply logged in H as (s1 & H & _ & A1 & E1). apply logged in H' as (s2 & H' & _ & A2 & E2).
  assert (forall acc cm_i pf lc s1, nifs_verify P acc cm_i pf (ws0, [] : evs) cs = Ok (lc, s1) -> (length (lp_sc (lf_lin pf)) = c_s cs) -> length (fp_sc (lf_fold pf)) = c_s cs ->
    Forall (fun m => length m = c_d cs + 1 + 1)%nat (lp_sc (lf_lin pf)) /\ Forall (fun m => length m = 2 * dp_b P + 1)%nat (fp_sc (lf_fold pf))) as Q.
  { clear. intros acc cm_i pf lc s1 H L1 L2. unfold nifs_verify in H. apply bind_ok_inv in H as (_ & _ & H). apply bind_ok_inv in H as ([lin t1] & E1 & H).
    apply bind_ok_inv in H as ([ll t2] & E2 & H). apply bind_ok_inv in H as ([lr t3] & E3 & H).
    apply log_lin in E1 as (b & r & _ & _ & _ & F1 & _). apply log_fold in H as (al & ze & mu & be & r0 & rho & _ & _ & _ & _ & _ & _ & _ & F2 & _).
    rewrite firstn_all2 in F1 by lia. rewrite firstn_all2 in F2 by lia. auto. }
  pose proof (nf_lsc _ _ _ _ _ _ _ N) as [N1 N2]. pose proof (nf_fsc _ _ _ _ _ _ _ N) as [N3 N4].
  destruct (Q _ _ _ _ _ H N1 N3) as [Q1 Q2]. destruct (Q _ _ _ _ _ H' N2 N4) as [Q3 Q4]. clear Q.
  destruct (nifs_rho_binds _ _ _ _ _ _ _ _ _ _ _ _ _ H H' N) as (pre1 & pre2 & rho1 & rho2 & P1 & P2 & L1 & L2 & B).
  apply log_nifs in H as (d & rho & D & L & H). apply log_nifs in H' as (d' & rho' & D' & L' & H'). cbn [snd app] in H, H'.
  assert (pre1 = nifs_sched P cs acc cm_i pf d) as X1 by (rewrite P1 in H; apply app_tail in H; auto; rewrite !map_length; congruence).
  assert (pre2 = nifs_sched P cs acc' cm_i' pf' d') as X2 by (rewrite P2 in H'; apply app_tail in H'; auto; rewrite !map_length; congruence).
  assert (forall l : list C, ops (map FShort l) = repeat (OShort y) (length l)) as RS.
  { clear. induction l as [|x l IH]; [reflexivity|]. cbn [map ops flat_map app length repeat]. f_equal. exact IH. }
  exists (ops pre1), (ops pre2). cbv zeta. rewrite E1, E2, P1, P2, !ops_app, !RS, L1, L2. split; [auto|]. split; [auto|]. split.
  - rewrite X1, X2. apply kinds_nifs; auto.
  - intros E. apply B. rewrite P1 in A1. rewrite P2 in A2. apply answered_app in A1 as [A1 _]. apply answered_app in A2 as [A2 _]. eapply answered_det; eauto.
Qed.
End From.
End Real.
