(** Soundness of the non-interactive protocols in the random oracle model, by counting.

    The transcript hashes its whole history: the state is the list of everything absorbed and squeezed so
    far and a challenge is the answer of a random oracle on that list.  An adversary asks the oracle [Q]
    questions, each depending on the answers before it, and then outputs a proof.  The verifier is run
    with the table of those questions and answers; a question outside the table clears a flag, so the
    event counted is that of an adversary who outputs a proof after having asked everything that the
    verifier asks about it (every adversary becomes one of these by running the verifier at its end). *)
From Coq Require Import String List Arith Lia ZArith Bool Ring.
From Verif Require Import Prelude Alg Poly MLE MLE_Proofs Zippel Counting Transcript Interp Sumcheck Sumcheck_Proofs Decomposition_Proofs.
Import ListNotations.
Local Open Scope rs_scope.

(** What happened to a transcript: a ring element absorbed, a challenge squeezed, a short challenge
    squeezed. *)
Inductive ev (R K : Type) := EvA (x : R) | EvC (c : K) | EvS.
Arguments EvA {R K}. Arguments EvC {R K}. Arguments EvS {R K}.
(** State of the transcript: the history, and whether every question so far was in the table. *)
Record ro (R K : Type) := Ro { ro_log : list (ev R K); ro_ok : bool }.
Arguments Ro {R K}. Arguments ro_log {R K}. Arguments ro_ok {R K}.

Section RO.
Context {R K : Type} {RO : RingOps R} {KO : FieldOps K} {E : Embed K R} {LR : RingLaws R} {LK : FieldLaws K} {EL : EmbedLaws K R}.
Notation log := (list (ev R K)).

Definition ev_eqb (a b : ev R K) : bool :=
  match a, b with EvA x, EvA y => x =? y | EvC x, EvC y => x =? y | EvS, EvS => true | _, _ => false end.
Lemma ev_eqb_true a b : ev_eqb a b = true <-> a = b.
Proof.
  destruct a as [x|x|], b as [y|y|]; cbn [ev_eqb]; try (split; [discriminate|intros Eq; discriminate]); [| |tauto];
    rewrite req_true; split; [intros ->; auto|intros Eq; injection Eq; auto|intros ->; auto|intros Eq; injection Eq; auto].
Qed.
Fixpoint log_eqb (a b : log) : bool :=
  match a, b with [], [] => true | x :: a, y :: b => ev_eqb x y && log_eqb a b | _, _ => false end.
Lemma log_eqb_true a : forall b, log_eqb a b = true <-> a = b.
Proof.
  induction a as [|x a IH]; intros [|y b]; cbn [log_eqb]; try (split; [discriminate|intros Eq; discriminate]); [tauto|].
  rewrite andb_true_iff, ev_eqb_true, IH. split; [intros [-> ->]; auto|intros Eq; injection Eq; auto].
Qed.
Fixpoint lookup (tab : list (log * K)) (l : log) : option K :=
  match tab with
  | [] => None
  | (q, c) :: tab => if log_eqb q l then Some c else lookup tab l
  end.
(** The transcript that answers from a table. *)
Definition ro_trans (tab : list (log * K)) : TransOps (ro R K) R K := {|
  absorb := fun t x => Ro (ro_log t ++ [EvA x]) (ro_ok t);
  get_challenge := fun t =>
    match lookup tab (ro_log t) with
    | Some c => (c, Ro (ro_log t ++ [EvC c]) (ro_ok t))
    | None => (0, Ro (ro_log t ++ [EvC 0]) false)
    end;
  squeeze_bytes := fun t _ => ([], t) |}.
(** The table of the adversary whose question after the answers [a] is [qry a], when the answers are [x]. *)
Definition ro_table (qry : list K -> log) (x : list K) : list (log * K) :=
  map (fun i => (qry (firstn i x), nth i x 0)) (seq 0 (length x)).

Lemma lookup_in tab l c : lookup tab l = Some c -> In (l, c) tab.
Proof.
  induction tab as [|[q a] tab IH]; cbn [lookup]; [discriminate|]. destruct (log_eqb q l) eqn:Eq; [apply log_eqb_true in Eq; subst q|].
  - intros H. injection H as ->. left. auto.
  - right. auto.
Qed.
Lemma lookup_table qry x l c : lookup (ro_table qry x) l = Some c ->
  exists i, (i < length x)%nat /\ qry (firstn i x) = l /\ nth i x 0 = c.
Proof.
  intros H. apply lookup_in, in_map_iff in H as (i & Ei & Hi). injection Ei as <- <-. apply in_seq in Hi. exists i. split; auto. lia.
Qed.

(** Few tables contain a bad answer: if at most [d] answers to each question are bad, the adversary meets
    one on at most [Q * d] out of [|S|] answer vectors. *)
Lemma few_queries (qry : list K -> log) (S : list K) Q (B : log -> K -> Prop) d :
  (forall l, few (B l) d) ->
  few (fun x => In x (tuples Q S) /\ exists l c, lookup (ro_table qry x) l = Some c /\ B l c) (Q * d * length S ^ (Q - 1)).
Proof.
  intros HB. eapply few_weaken; [|apply le_n|apply (few_block S Q 0 Q (fun i pre c => B (qry pre) c) d); auto].
  - intros x [Hx (l & c & Hl & Hb)]. split; auto. apply lookup_table in Hl as (i & Hi & E1 & E2).
    apply in_tuples in Hx as [Hx _]. exists i. split; [lia|]. cbn [Nat.add]. rewrite E1, E2. auto.
  - intros i pre _ _. eapply few_weaken; [|apply le_n|apply (HB (qry pre))]. intros c [_ Hc]. auto.
Qed.

(** ** What the transcript does to the log *)
Section Tab.
Variable tab : list (log * K).
#[local] Hint Extern 0 (TransOps (ro _ _) _ _) => exact (ro_trans tab) : typeclass_instances.

Lemma ro_absorb_slice l (t : ro R K) : absorb_slice t l = Ro (ro_log t ++ map EvA l) (ro_ok t).
Proof.
  revert t; induction l as [|x l IH]; intros t; cbn [absorb_slice fold_left map]; [rewrite app_nil_r; destruct t; auto|].
  fold (absorb_slice (absorb t x) l). rewrite IH. cbn [absorb ro_trans ro_log ro_ok]. rewrite <- app_assoc. auto.
Qed.
Lemma ro_get (t : ro R K) c t' : get_challenge t = (c, t') -> ro_ok t' = true ->
  ro_ok t = true /\ ro_log t' = ro_log t ++ [EvC c] /\ lookup tab (ro_log t) = Some c.
Proof.
  cbn [get_challenge ro_trans]. destruct (lookup tab (ro_log t)) as [a|] eqn:El; intros H; injection H as <- <-; cbn [ro_ok ro_log]; [auto|discriminate].
Qed.
Lemma ro_challenges n : forall (t : ro R K) cs t', get_challenges t n = (cs, t') -> ro_ok t' = true ->
  ro_ok t = true /\ length cs = n /\ ro_log t' = ro_log t ++ map EvC cs /\
  forall i, (i < n)%nat -> lookup tab (ro_log t ++ map EvC (firstn i cs)) = Some (nth i cs 0).
Proof.
  induction n as [|n IH]; intros t cs t' H Hok; cbn [get_challenges] in H.
  - injection H as <- <-. cbn [map]. rewrite app_nil_r. repeat split; auto. intros i Hi. lia.
  - destruct (get_challenge t) as [c t1] eqn:Ec. destruct (get_challenges t1 n) as [cs' t2] eqn:Es. injection H as <- <-.
    destruct (IH _ _ _ Es Hok) as (H1 & H2 & H3 & H4). destruct (ro_get _ _ _ Ec H1) as (G1 & G2 & G3).
    rewrite G2 in H3, H4. rewrite <- app_assoc in H3. cbn [length map]. repeat split; auto.
    intros [|i] Hi; cbn [firstn map nth]; [rewrite app_nil_r; auto|]. specialize (H4 i ltac:(lia)). rewrite <- app_assoc in H4. exact H4.
Qed.

(** The rounds of a sumcheck. *)
Fixpoint rounds (ms : list (list R)) (cs : list K) : log :=
  match ms, cs with
  | m :: ms, c :: cs => map EvA m ++ EvC c :: EvA (emb c) :: rounds ms cs
  | _, _ => []
  end.
Definition sc_head (n d : nat) : log := [EvA (rofn n); EvA (rofn d)].
Lemma ro_verify_loop k : forall (t : ro R K) proof ms cs t', verify_loop k t proof = Ok (ms, cs, t') -> ro_ok t' = true ->
  ro_ok t = true /\ ro_log t' = ro_log t ++ rounds ms cs /\
  forall i, (i < k)%nat -> lookup tab (ro_log t ++ rounds (firstn i ms) (firstn i cs) ++ map EvA (nth i ms [])) = Some (nth i cs 0).
Proof.
  induction k as [|k IH]; intros t proof ms cs t' H Hok; cbn [verify_loop] in H.
  - apply ok_inj in H. injection H as <- <- <-. cbn [rounds]. rewrite app_nil_r. repeat split; auto. intros i Hi. lia.
  - destruct proof as [|m proof]; [discriminate|]. rewrite ro_absorb_slice in H.
    destruct (get_challenge _) as [c t1] eqn:Ec. apply bind_ok_inv in H as ([[ms' cs'] t2] & H & H'). apply ok_inj in H'. injection H' as <- <- <-.
    destruct (IH _ _ _ _ _ H Hok) as (H1 & H2 & H3). cbn [absorb ro_trans ro_log ro_ok] in H1, H2, H3.
    destruct (ro_get _ _ _ Ec H1) as (G1 & G2 & G3). cbn [ro_log ro_ok] in G1, G2, G3. rewrite G2 in H2, H3.
    rewrite <- !app_assoc in H2. cbn [app] in H2. cbn [rounds]. repeat split; auto.
    intros [|i] Hi; cbn [firstn rounds nth app]; [exact G3|]. specialize (H3 i ltac:(lia)). rewrite <- !app_assoc in H3. cbn [app] in H3.
    rewrite <- app_assoc. cbn [app]. exact H3.
Qed.
Lemma check_loop_lengths d ms : forall cs e e', length ms = length cs -> check_loop d ms cs e = Ok e' ->
  Forall (fun m : list R => length m = (d + 1)%nat) ms.
Proof.
  induction ms as [|m ms IH]; intros [|c cs] e e' Hl H; try discriminate; auto. cbn [check_loop] in H. cbn [length] in Hl.
  destruct (Nat.eqb_spec (length m) (d + 1)) as [Hm|]; [|discriminate]. cbn [negb] in H. constructor; auto.
  destruct m as [|p0 [|p1 m]]; try discriminate. destruct (negb _); [discriminate|]. apply bind_ok_inv in H as (e1 & _ & H).
  eapply IH; eauto.
Qed.
Lemma ro_sc_verify (t : ro R K) n d claimed proof r e t' : sc_verify t n d claimed proof = Ok (r, e, t') -> ro_ok t' = true ->
  ro_ok t = true /\ length r = n /\ length (firstn n proof) = n /\ Forall (fun m => length m = (d + 1)%nat) (firstn n proof) /\
  ro_log t' = ro_log t ++ sc_head n d ++ rounds (firstn n proof) r /\
  forall i, (i < n)%nat ->
    lookup tab (ro_log t ++ sc_head n d ++ rounds (firstn i (firstn n proof)) (firstn i r) ++ map EvA (nth i proof [])) = Some (nth i r 0).
Proof.
  unfold sc_verify. cbv zeta. intros H Hok. apply bind_ok_inv in H as ([[ms cs] t2] & H1 & H2).
  destruct (n =? 0)%nat; [discriminate|]. apply bind_ok_inv in H2 as (e' & H2 & H3). apply ok_inj in H3. injection H3 as <- <- <-.
  destruct (verify_loop_inv _ _ _ _ _ _ H1) as (-> & L1 & L2).
  destruct (ro_verify_loop _ _ _ _ _ _ H1 Hok) as (G1 & G2 & G3). cbn [absorb ro_trans ro_log ro_ok] in G1, G2, G3.
  apply check_loop_lengths in H2; [|congruence]. rewrite <- !app_assoc in G2. cbn [app] in G2. unfold sc_head. cbn [app].
  repeat split; auto. intros i Hi. specialize (G3 i Hi). rewrite <- !app_assoc in G3. cbn [app] in G3.
  assert (nth i (firstn n proof) [] = nth i proof []) as En.
  { rewrite <- (firstn_skipn n proof) at 2. rewrite app_nth1; auto. lia. }
  rewrite En in G3. exact G3.
Qed.
End Tab.

(** ** Logs determine what they encode *)
Lemma mapA_inj (a b : list R) : map (EvA (K := K)) a = map EvA b -> a = b.
Proof. revert b; induction a as [|x a IH]; intros [|y b] H; try discriminate; auto. cbn [map] in H. injection H as -> H. f_equal. auto. Qed.
Lemma mapC_inj (a b : list K) : map (EvC (R := R)) a = map EvC b -> a = b.
Proof. revert b; induction a as [|x a IH]; intros [|y b] H; try discriminate; auto. cbn [map] in H. injection H as -> H. f_equal. auto. Qed.
Lemma rounds_length w ms : forall cs, length ms = length cs -> Forall (fun m => length m = w) ms -> length (rounds ms cs) = (length cs * (w + 2))%nat.
Proof.
  induction ms as [|m ms IH]; intros [|c cs] Hl HF; try discriminate; auto. cbn [length] in Hl. inversion HF; subst. cbn [rounds length].
  rewrite app_length, map_length. cbn [length]. rewrite IH by (auto; lia). lia.
Qed.
Lemma rounds_inj w ms : forall cs msg ms' cs' msg', length ms = length cs -> length ms' = length cs' ->
  Forall (fun m => length m = w) ms -> Forall (fun m => length m = w) ms' -> length msg = w -> length msg' = w ->
  rounds ms cs ++ map EvA msg = rounds ms' cs' ++ map EvA msg' -> ms = ms' /\ cs = cs' /\ msg = msg'.
Proof.
  intros cs msg ms' cs' msg' Hl Hl' HF HF' Hm Hm' H.
  assert (length cs = length cs') as Hc.
  { apply (f_equal (@length _)) in H. rewrite !app_length, !map_length, (rounds_length w), (rounds_length w) in H by auto. nia. }
  apply app_split_len in H as [H1 H2]; [|rewrite (rounds_length w), (rounds_length w) by auto; congruence].
  apply mapA_inj in H2. assert (ms = ms' /\ cs = cs') as [-> ->]; auto. clear H2 Hm Hm' msg msg'.
  revert cs ms' cs' Hl Hl' HF HF' Hc H1. induction ms as [|m ms IH]; intros [|c cs] [|m' ms'] [|c' cs'] Hl Hl' HF HF' Hc H; try discriminate; auto.
  inversion HF; inversion HF'; subst. cbn [rounds] in H. apply app_split_len in H as [H1 H]; [|rewrite !map_length; congruence].
  apply mapA_inj in H1. injection H as Hc1 _ H. cbn [length] in *. destruct (IH cs ms' cs') as [-> ->]; auto. subst. auto.
Qed.

(** ** Bad answers *)
(** A bad sumcheck challenge after a context [x] that the log before the sumcheck encodes. *)
Definition sc_B {X} (wf : X -> Prop) (enc : X -> log) (n d : nat) (g : X -> list R -> R) (l : log) (c : K) : Prop :=
  exists x ms cs msg, wf x /\ length ms = length cs /\ (length cs < n)%nat /\ Forall (fun m => length m = (d + 1)%nat) ms /\
    length msg = (d + 1)%nat /\ l = enc x ++ sc_head n d ++ rounds ms cs ++ map EvA msg /\
    let h := true_round (g x) (map emb cs) (n - 1 - length cs) in
    bad_challenge msg h c /\ forall bad : list K, NoDup bad -> (forall c, In c bad -> bad_challenge msg h c) -> (length bad <= d)%nat.
Lemma few_sc_B {X} (wf : X -> Prop) enc len n d (g : X -> list R -> R) l :
  (forall x, wf x -> length (enc x) = len) -> (forall x y, wf x -> wf y -> enc x = enc y -> g x = g y) -> few (sc_B wf enc n d g l) d.
Proof.
  intros Hlen Hg. apply few_if. intros c0 (x & ms & cs & msg & Hx & L1 & L2 & F1 & Lm & El & _ & Hall) L HL HF.
  apply Hall; auto. intros c Hc. rewrite Forall_forall in HF. apply HF in Hc as (x' & ms' & cs' & msg' & Hx' & L1' & L2' & F1' & Lm' & El' & Hb & _).
  rewrite El in El'. apply app_split_len in El' as [E1 E2]; [|rewrite !Hlen; auto]. apply app_inv_head in E2.
  apply (rounds_inj (d + 1)) in E2 as (<- & <- & <-); auto. rewrite (Hg x x'); auto.
Qed.
Lemma sc_B_len {X} (wf : X -> Prop) enc len n d (g : X -> list R -> R) l c : (forall x, wf x -> length (enc x) = len) -> sc_B wf enc n d g l c ->
  (len < length l < len + 2 + n * (d + 3))%nat.
Proof.
  intros Hlen (x & ms & cs & msg & Hx & L1 & L2 & F1 & Lm & -> & _). unfold sc_head. rewrite !app_length, (Hlen x), map_length, (rounds_length (d + 1)) by auto.
  cbn [length]. nia.
Qed.
(** A bad coordinate of a block of challenges after a context [x]; [chl] is the log of the block. *)
Definition co_B {X} (wf : X -> Prop) (enc : X -> log) (chl : list K -> log) (m d : nat) (pr : X -> list K -> K -> Prop) (l : log) (c : K) : Prop :=
  exists x pre, wf x /\ (length pre < m)%nat /\ l = enc x ++ chl pre /\ pr x pre c /\
    forall bad : list K, NoDup bad -> (forall c, In c bad -> pr x pre c) -> (length bad <= d)%nat.
Lemma few_co_B {X} (wf : X -> Prop) enc chl len m d (pr : X -> list K -> K -> Prop) l :
  (forall x, wf x -> length (enc x) = len) -> (forall a b, chl a = chl b -> a = b) ->
  (forall x y, wf x -> wf y -> enc x = enc y -> pr x = pr y) -> few (co_B wf enc chl m d pr l) d.
Proof.
  intros Hlen Hchl Hpr. apply few_if. intros c0 (x & pre & Hx & Lp & El & _ & Hall) L HL HF.
  apply Hall; auto. intros c Hc. rewrite Forall_forall in HF. apply HF in Hc as (x' & pre' & Hx' & Lp' & El' & Hb & _).
  rewrite El in El'. apply app_split_len in El' as [E1 E2]; [|rewrite !Hlen; auto]. apply Hchl in E2 as <-. rewrite (Hpr x x'); auto.
Qed.

(** ** C91: the sumcheck verifier *)
Lemma ro_sc_bad tab (t : ro R K) n d claimed proof r e t' (g : list R -> R) {X} (wf : X -> Prop) enc (gx : X -> list R -> R) x :
  sc_verify (TO := ro_trans tab) t n d claimed proof = Ok (r, e, t') -> ro_ok t' = true ->
  wf x -> ro_log t = enc x -> gx x = g ->
  (exists i, (i < n)%nat /\
    let msg := nth i proof [] in
    let h := true_round g (map emb (firstn i r)) (n - 1 - i) in
    length msg = (d + 1)%nat /\ bad_challenge msg h (nth i r 0) /\
    forall bad : list K, NoDup bad -> (forall c, In c bad -> bad_challenge msg h c) -> (length bad <= d)%nat) ->
  exists l c, lookup tab l = Some c /\ sc_B wf enc n d gx l c.
Proof.
  intros HV Hok Hwf Henc Hg (i & Hi & Lm & Hb & Hall). destruct (ro_sc_verify _ _ _ _ _ _ _ _ _ HV Hok) as (_ & Lr & Lp & FL & _ & Hlk).
  do 2 eexists. split; [apply (Hlk i Hi)|]. exists x, (firstn i (firstn n proof)), (firstn i r), (nth i proof []).
  assert (length (firstn i r) = i) as Li by (rewrite firstn_length; lia).
  split; auto. rewrite Li, Hg. split; [rewrite firstn_length; lia|]. split; auto.
  split; [apply Forall_forall; intros m Hm; rewrite Forall_forall in FL; apply FL; rewrite <- (firstn_skipn i (firstn n proof)); apply in_app_iff; auto|].
  split; auto. split; [rewrite Henc; auto|]. auto.
Qed.
Theorem sumcheck_ro n d (g : list R -> R) (claimed : R) (l0 : log) (S : list K) Q (qry : list K -> log) (out : list K -> list (list R)) :
  (1 <= d)%nat -> char_gt K d -> var_deg n d g -> claimed <> cube_sum n g ->
  few (fun x => In x (tuples Q S) /\
         exists r e t', sc_verify (TO := ro_trans (ro_table qry x)) (Ro l0 true) n d claimed (out x) = Ok (r, e, t') /\
           ro_ok t' = true /\ e = g (map emb r))
      (Q * d * length S ^ (Q - 1)).
Proof.
  intros Hd Hc Hg Hne.
  eapply few_weaken; [|apply le_n|apply (few_queries qry S Q (sc_B (fun _ : unit => True) (fun _ => l0) n d (fun _ => g)) d)].
  - intros x [Hx (r & e & t' & HV & Hok & He)]. split; auto.
    destruct (sumcheck_sound (TO := ro_trans (ro_table qry x)) n d g _ _ _ _ _ _ Hd Hc Hg HV He Hne) as (_ & i & Hi & Lm & _ & Hb & _ & Hall).
    eapply (ro_sc_bad _ _ _ _ _ _ _ _ _ g _ _ _ tt); eauto.
  - intros l. apply (few_sc_B _ _ (length l0)); auto.
Qed.
End RO.
