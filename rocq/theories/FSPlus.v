(** The order in which the LatticeFold+ verifiers talk to the transcript, and what the final state determines. *)
From Coq Require Import String List Arith Lia ZArith Bool Ring.
From Verif Require Import Prelude Alg MLE Transcript Sumcheck Arith Balanced Rings PlusRing PlusUtils_Proofs SetCheck SetCheck_Sound RangeCheck Cm Plus Poly FSLog.
Import ListNotations.
Local Open Scope rs_scope.

Section FSP.
Context {K R C T : Type} {PO : POps K R} {TO : TransOps T R K}.
Notation S := (T * list (fs_ev R K C))%type.
Notation evs := (list (fs_ev R K C)).
Definition squeezes (l : list (list Z)) : evs := map (FBytes pdim) l.

(** Linearization of one R1CS. *)
Definition r1_sched (p : r1cs_proof R) (d : list K * list K) : evs :=
  draws (fst d) ++ sc_sched (rp_nvars p) 3 (rp_sc p) (snd d) ++ says [rp_v p; rp_va p; rp_vb p; rp_vc p].
(** Set check: the challenges of every set and the batching challenge, the sumcheck, the openings. *)
Definition set_sched (o : sc_out K R) (d : list K * list K) : evs :=
  draws (fst d) ++ sc_sched (so_nvars o) 3 (so_sc o) (snd d) ++ says (concat (concat (so_e o))) ++ says (so_b o).
(** Range check: the set check, the evaluations [a] and [c] of every instance. *)
Definition rg_sched (dc : dcom K R) (d : list K * list K) : evs :=
  set_sched (dc_out dc) d ++ says (flat_map (fun e => map emb (de_a e) ++ de_c e) (dc_evals dc)).
(** One sumcheck of the commitment transformation. *)
Definition cms_sched (nv : nat) (sc : list (list R)) (evals : list (list (ev4 R))) (d : K * list K) : evs :=
  draws [fst d] ++ sc_sched nv 2 sc (snd d) ++ says (flat_map (flat_map l4) evals).
Record cm_draws := CmDraws { cd_set : list K * list K; cd_short : list (list Z); cd_c : list K; cd_a : K * list K; cd_b : K * list K }.
Definition cm_sched (p : cm_proof K R) (d : cm_draws) : evs :=
  rg_sched (cp_dcom p) (cd_set d) ++ squeezes (cd_short d) ++ says (concat (cp_comh p)) ++ draws (cd_c d) ++
  cms_sched (so_nvars (dc_out (cp_dcom p))) (fst (cp_sc p)) (fst (cp_evals p)) (cd_a d) ++
  cms_sched (so_nvars (dc_out (cp_dcom p))) (snd (cp_sc p)) (snd (cp_evals p)) (cd_b d).
Definition plus_sched (p : plus_proof K R) (dl : list (list K * list K)) (d : cm_draws) : evs :=
  concat (zipw r1_sched (pp_l p) dl) ++ cm_sched (pp_cm p) d.

Lemma unwrap_ok {A} (r : result A) a : unwrap r = Ok a -> r = Ok a.
Proof. destruct r; cbn; congruence. Qed.
Definition msgs_ok (nv deg : nat) (sc : list (list R)) (pt : list K) : Prop :=
  length pt = nv /\ (nv <= length sc)%nat /\ Forall (fun m => length m = deg + 1)%nat (firstn nv sc).
Lemma log_sc (s s' : S) nv deg claim proof cs e : sc_verify s nv deg claim proof = Ok (cs, e, s') ->
  msgs_ok nv deg proof cs /\ snd s' = snd s ++ sc_sched nv deg proof cs.
Proof.
  intros H. pose proof (sc_verify_lengths _ _ _ _ _ _ _ _ H). apply log_sc_verify in H as (H1 & H2 & H3). split; [split; [auto|split; auto]|auto].
Qed.
Lemma log_r1 (s s' : S) p b : lin_verify p s = Ok (b, s') -> exists d, length (fst d) = rp_nvars p /\ msgs_ok (rp_nvars p) 3 (rp_sc p) (snd d) /\ snd s' = snd s ++ r1_sched p d.
Proof.
  unfold lin_verify. intros H. destruct (get_challenges s (rp_nvars p)) as [r s1] eqn:E1. apply log_challenges in E1 as [L1 E1].
  apply bind_ok_inv in H as ([[pt v] s2] & E2 & H). apply unwrap_ok, log_sc in E2 as [L2 E2]. apply bind_ok_inv in H as (e & _ & H).
  destruct (_ =? _); [|discriminate]. injection H as _ <-. exists (r, pt). split; [auto|]. split; [auto|]. unfold r1_sched. cbn [snd fst says map]. rewrite E2, E1, <- !app_assoc. reflexivity.
Qed.
Lemma log_cba (s s' : S) n nv l : cba_loop n nv s = (l, s') -> exists cs, length cs = (n * (nv + 2))%nat /\ snd s' = snd s ++ draws cs.
Proof.
  revert s l. induction n as [|n IH]; intros s l H; cbn [cba_loop] in H.
  - injection H as _ <-. exists []. cbn [draws map length]. rewrite app_nil_r. auto.
  - unfold claim_challenges in H. destruct (get_challenges s nv) as [c s1] eqn:E1. apply log_challenges in E1 as [L1 E1].
    cbn [get_challenge fs_trans] in H. destruct (get_challenge (fst s1)) as [be t1]. cbn [fst snd] in H. destruct (get_challenge t1) as [al t2].
    destruct (cba_loop n nv _) as [l1 s2] eqn:E2. injection H as _ <-. apply IH in E2 as (cs & L2 & E2). cbn [snd] in E2.
    exists (c ++ be :: al :: cs). split; [rewrite app_length; cbn [length]; lia|]. rewrite E2, E1. unfold draws. rewrite map_app. cbn [map]. rewrite <- !app_assoc. reflexivity.
Qed.
Lemma log_slices (s : S) ls : snd (fold_left absorb_slice ls s) = snd s ++ says (concat ls).
Proof.
  revert s. induction ls as [|l ls IH]; intros s; [cbn [fold_left concat says map]; rewrite app_nil_r; auto|].
  cbn [fold_left]. rewrite IH, log_slice. cbn [concat]. unfold says. rewrite map_app, app_assoc. auto.
Qed.
Lemma log_slices2 (s : S) e : snd (fold_left (fun ts ek => fold_left absorb_slice ek ts) e s) = snd s ++ says (concat (concat e)).
Proof.
  revert s. induction e as [|l ls IH]; intros s; [cbn [fold_left concat says map]; rewrite app_nil_r; auto|].
  cbn [fold_left]. rewrite IH, log_slices. cbn [concat]. rewrite concat_app. unfold says. rewrite map_app, app_assoc. auto.
Qed.
Definition set_count (o : sc_out K R) : nat :=
  let e0 := nth 0 (so_e o) [] in ((length e0 + length (so_b o)) * (so_nvars o + 2) + if (1 <? length e0)%nat then 1 else 0)%nat.
Lemma log_set (s s' : S) o : set_verify o s = Ok s' -> exists d, length (fst d) = set_count o /\ msgs_ok (so_nvars o) 3 (so_sc o) (snd d) /\ snd s' = snd s ++ set_sched o d.
Proof.
  unfold set_verify. intros H. apply bind_ok_inv in H as (e0 & E0 & H). destruct (cba_loop _ _ s) as [cba s1] eqn:E1. apply log_cba in E1 as (cs & L1 & E1).
  assert (exists cs2, length cs2 = (if (1 <? length e0)%nat then 1 else 0)%nat /\ snd (snd (opt_challenge (length e0) s1)) = snd s1 ++ draws cs2) as (cs2 & L2 & E2).
  { unfold opt_challenge. destruct (1 <? length e0)%nat.
    - cbn [get_challenge fs_trans]. destruct (get_challenge (fst s1)) as [c t]. exists [c]. auto.
    - exists []. cbn [draws map snd length]. rewrite app_nil_r. auto. }
  destruct (opt_challenge (length e0) s1) as [rc s2]. cbn [snd] in E2.
  apply bind_ok_inv in H as ([[pt v] s3] & E3 & H). apply log_sc in E3 as [L3 E3]. apply bind_ok_inv in H as (ver & _ & H). destruct (_ =? _); [|discriminate]. injection H as <-.
  exists (cs ++ cs2, pt). split.
  { cbn [fst]. rewrite app_length, L1, L2. unfold set_count, index in *. destruct (so_e o) as [|x l]; [discriminate|]. injection E0 as ->. reflexivity. }
  split; [exact L3|]. unfold sc_absorb, set_sched. cbn [fst snd]. rewrite log_slice, log_slices2, E3, E2, E1. unfold draws. rewrite map_app, <- !app_assoc. reflexivity.
Qed.
Lemma log_rg_absorb (s : S) evals : snd (rg_absorb evals s) = snd s ++ says (flat_map (fun e => map emb (de_a e) ++ de_c e) evals).
Proof.
  unfold rg_absorb. revert s. induction evals as [|e l IH]; intros s; [cbn [fold_left flat_map says map]; rewrite app_nil_r; auto|].
  cbn [fold_left flat_map]. rewrite IH, !log_slice. unfold says. rewrite !map_app, <- !app_assoc. auto.
Qed.
Lemma log_rg (s s' : S) dc : rg_verify dc s = Ok s' -> exists d, length (fst d) = set_count (dc_out dc) /\ msgs_ok (so_nvars (dc_out dc)) 3 (so_sc (dc_out dc)) (snd d) /\ snd s' = snd s ++ rg_sched dc d.
Proof.
  unfold rg_verify. intros H. apply bind_ok_inv in H as (s1 & E1 & H). apply unwrap_ok, log_set in E1 as (d & L1 & L2 & E1). apply bind_ok_inv in H as (u & _ & H). injection H as <-.
  exists d. split; [auto|]. split; [auto|]. rewrite log_rg_absorb, E1. unfold rg_sched. rewrite <- !app_assoc. reflexivity.
Qed.
Lemma log_short (s s' : S) lam x : short_challenge lam s = Ok (x, s') -> exists b, snd s' = snd s ++ squeezes [b].
Proof.
  unfold short_challenge. intros H. destruct (64 <=? _)%nat; [discriminate|]. cbn [squeeze_bytes fs_trans] in H. destruct (squeeze_bytes (fst s) pdim) as [b t]. injection H as _ <-. exists b. reflexivity.
Qed.
Lemma log_shorts (s s' : S) lam n l : short_challenges lam n s = Ok (l, s') -> exists bs, length bs = n /\ snd s' = snd s ++ squeezes bs.
Proof.
  unfold short_challenges. generalize (seq_length n 0). generalize (seq 0 n). intros sq HL. subst n. revert s l. induction sq as [|i sq IH]; intros s l H; cbn [mapT] in H.
  - injection H as _ <-. exists []. cbn [squeezes map length]. rewrite app_nil_r. auto.
  - apply bind_ok_inv in H as ([x s1] & E1 & H). apply bind_ok_inv in H as ([l1 s2] & E2 & H). injection H as _ <-. apply log_short in E1 as [b E1].
    apply IH in E2 as (bs & L2 & E2). exists (b :: bs). split; [cbn [length]; lia|]. rewrite E2, E1, <- app_assoc. reflexivity.
Qed.
Lemma log_cm_challenges (s s' : S) k a b : cm_challenges k s = Ok (a, b, s') -> exists bs, length bs = (3 + k * pdim)%nat /\ snd s' = snd s ++ squeezes bs.
Proof.
  unfold cm_challenges. intros H. apply bind_ok_inv in H as ([x s1] & E1 & H). apply log_shorts in E1 as (b1 & L1 & E1). apply bind_ok_inv in H as ([y s2] & E2 & H). injection H as _ _ <-.
  assert (exists bs, length bs = (k * pdim)%nat /\ snd s2 = snd s1 ++ squeezes bs) as (b2 & L2 & E3).
  { revert E2. generalize (seq_length k 0). generalize (seq 0 k). intros sq HL. subst k. clear. revert s1 y. induction sq as [|i sq IH]; intros s y H; cbn [mapT] in H.
    - injection H as _ <-. exists []. cbn [squeezes map length]. rewrite app_nil_r. auto.
    - apply bind_ok_inv in H as ([z s3] & E3 & H). apply bind_ok_inv in H as ([l1 s4] & E4 & H). injection H as _ <-. apply log_shorts in E3 as (b3 & L3 & E3).
      apply IH in E4 as (b4 & L4 & E4). exists (b3 ++ b4). split; [rewrite app_length; cbn [length]; lia|]. rewrite E4, E3. unfold squeezes. rewrite map_app, <- app_assoc. reflexivity. }
  exists (b1 ++ b2). split; [rewrite app_length; lia|]. rewrite E3, E1. unfold squeezes. rewrite map_app, <- app_assoc. reflexivity.
Qed.
Lemma log_absorb_evals (s : S) evals : snd (absorb_evals evals s) = snd s ++ says (flat_map (flat_map l4) evals).
Proof.
  unfold absorb_evals. revert s. induction evals as [|e l IH]; intros s; [cbn [fold_left flat_map says map]; rewrite app_nil_r; auto|].
  cbn [fold_left]. rewrite IH. clear IH.
  assert (snd (fold_left (fun ts v => absorb_slice ts (l4 v)) e s) = snd s ++ says (flat_map l4 e)) as ->.
  { revert s. induction e as [|v e IH]; intros s; [cbn [fold_left flat_map says map]; rewrite app_nil_r; auto|]. cbn [fold_left flat_map]. rewrite IH, log_slice. unfold says. rewrite map_app, <- app_assoc. auto. }
  cbn [flat_map]. unfold says. rewrite map_app, <- app_assoc. auto.
Qed.
Lemma log_cms (s s' : S) L Mlen dc u tc0 tc1 t0 t1 proof evals ro : cm_verify_sc L Mlen dc u tc0 tc1 t0 t1 proof evals s = Ok (ro, s') ->
  exists d, msgs_ok (so_nvars (dc_out dc)) 2 proof (snd d) /\ snd s' = snd s ++ cms_sched (so_nvars (dc_out dc)) proof evals d.
Proof.
  unfold cm_verify_sc. intros H. cbn [get_challenge fs_trans] in H. destruct (get_challenge (fst s)) as [c t]. apply bind_ok_inv in H as (cl & _ & H).
  apply bind_ok_inv in H as ([[pt v] s2] & E2 & H). apply unwrap_ok, log_sc in E2 as [L2 E2]. apply bind_ok_inv in H as (x1 & _ & H). apply bind_ok_inv in H as (x2 & _ & H).
  apply bind_ok_inv in H as (x3 & _ & H). apply bind_ok_inv in H as (x4 & _ & H). destruct (_ =? _); [|discriminate]. injection H as _ <-. exists (c, pt). split; [exact L2|].
  rewrite log_absorb_evals, E2. unfold cms_sched. cbn [fst snd draws map]. rewrite <- !app_assoc. reflexivity.
Qed.
Definition cm_draws_ok (p : cm_proof K R) (d : cm_draws) : Prop :=
  let o := dc_out (cp_dcom p) in
  length (fst (cd_set d)) = set_count o /\ msgs_ok (so_nvars o) 3 (so_sc o) (snd (cd_set d)) /\
  length (cd_short d) = (3 + rp_k (dc_params (cp_dcom p)) * pdim)%nat /\ length (cd_c d) = (2 * ark_log2 (length (nth 0 (cp_comh p) [])))%nat /\
  msgs_ok (so_nvars o) 2 (fst (cp_sc p)) (snd (cd_a d)) /\ msgs_ok (so_nvars o) 2 (snd (cp_sc p)) (snd (cd_b d)).
Theorem log_cm (s s' : S) p M x : cm_verify p M s = Ok (x, s') -> exists d, cm_draws_ok p d /\ snd s' = snd s ++ cm_sched p d.
Proof.
  unfold cm_verify. intros H. apply bind_ok_inv in H as (s1 & E1 & H). apply unwrap_ok, log_rg in E1 as (d1 & L1 & L1' & E1).
  apply bind_ok_inv in H as ([[sv s'v] s2] & E2 & H). apply log_cm_challenges in E2 as (bs & L2 & E2).
  apply bind_ok_inv in H as ([[c0 c1] s3] & E3 & H). unfold c_challenges in E3. apply bind_ok_inv in E3 as (ch0 & E0 & E3).
  destruct (get_challenges (absorb_comh (cp_comh p) s2) (ark_log2 (length ch0))) as [k0 s4] eqn:E4. apply log_challenges in E4 as [L4 E4].
  destruct (get_challenges s4 (ark_log2 (length ch0))) as [k1 s5] eqn:E5. apply log_challenges in E5 as [L5 E5]. injection E3 as _ _ <-.
  apply bind_ok_inv in H as ([ro0 s6] & E6 & H). apply log_cms in E6 as (da & La & E6). apply bind_ok_inv in H as ([ro1 s7] & E7 & H). apply log_cms in E7 as (db & Lb & E7).
  apply bind_ok_inv in H as (x' & _ & H). injection H as _ <-. exists (CmDraws d1 bs (k0 ++ k1) da db). split.
  - unfold cm_draws_ok. cbn [cd_set cd_short cd_c cd_a cd_b]. repeat (split; [auto; fail|]).
    split; [|auto]. rewrite app_length, L4, L5. unfold index in E0. destruct (cp_comh p) as [|y l]; [discriminate|]. injection E0 as ->. cbn [nth]. lia.
  - rewrite E7, E6, E5, E4. unfold absorb_comh. rewrite log_slices, E2, E1. unfold cm_sched. cbn [cd_set cd_short cd_c cd_a cd_b]. unfold draws. rewrite map_app, <- !app_assoc. reflexivity.
Qed.
Lemma log_r1s (s s' : S) l bs : mapT lin_verify l s = Ok (bs, s') -> exists dl, length dl = length l /\
  Forall (fun pd => length (fst (snd pd)) = rp_nvars (fst pd) /\ msgs_ok (rp_nvars (fst pd)) 3 (rp_sc (fst pd)) (snd (snd pd))) (combine l dl) /\
  snd s' = snd s ++ concat (zipw r1_sched l dl).
Proof.
  revert s bs. induction l as [|p l IH]; intros s bs H; cbn [mapT] in H.
  - injection H as _ <-. exists []. cbn [combine zipw concat length]. rewrite app_nil_r. auto.
  - apply bind_ok_inv in H as ([b s1] & E1 & H). apply bind_ok_inv in H as ([bs1 s2] & E2 & H). injection H as _ <-. apply log_r1 in E1 as (d & L1 & L2 & E1).
    apply IH in E2 as (dl & L3 & F & E2). exists (d :: dl). cbn [combine zipw concat length]. split; [lia|]. split; [apply Forall_cons; auto|]. rewrite E2, E1, <- app_assoc. reflexivity.
Qed.
(** Every call [PlusVerifier::verify] makes, in order. *)
Theorem log_plus (s s' : S) M pp p b : plus_verify M pp p s = Ok (b, s') -> exists dl d, length dl = length (pp_l p) /\
  Forall (fun pd => length (fst (snd pd)) = rp_nvars (fst pd) /\ msgs_ok (rp_nvars (fst pd)) 3 (rp_sc (fst pd)) (snd (snd pd))) (combine (pp_l p) dl) /\
  cm_draws_ok (pp_cm p) d /\ snd s' = snd s ++ plus_sched p dl d.
Proof.
  unfold plus_verify. intros H. apply bind_ok_inv in H as ([bs s1] & E1 & H). apply log_r1s in E1 as (dl & L1 & F1 & E1). apply bind_ok_inv in H as ([x s2] & E2 & H).
  apply unwrap_ok, log_cm in E2 as (d & D & E2). apply bind_ok_inv in H as (u & _ & H). injection H as _ <-. exists dl, d. repeat (split; [auto; fail|]).
  rewrite E2, E1. unfold plus_sched. rewrite <- app_assoc. reflexivity.
Qed.

(** The parts of a proof that reach the transcript. *)
Definition bare_r1 (p : r1cs_proof R) := (rp_sc p, rp_nvars p, (rp_v p, rp_va p, rp_vb p, rp_vc p)).
Definition bare_cm (p : cm_proof K R) :=
  let o := dc_out (cp_dcom p) in
  (so_nvars o, so_sc o, so_e o, so_b o, map (fun e => (de_a e, de_c e)) (dc_evals (cp_dcom p)), cp_comh p, cp_sc p, cp_evals p).
Definition bare (p : plus_proof K R) := (map bare_r1 (pp_l p), bare_cm (pp_cm p)).

(** Two proofs with vectors of equal lengths. *)
Definition len2 {A} (l : list (list A)) := map (@length A) l.
Definition r1_same (p p' : r1cs_proof R) : Prop := rp_nvars p = rp_nvars p' /\ length (rp_sc p) = rp_nvars p /\ length (rp_sc p') = rp_nvars p.
Record cm_same (p p' : cm_proof K R) : Prop := {
  cs_nvars : so_nvars (dc_out (cp_dcom p)) = so_nvars (dc_out (cp_dcom p'));
  cs_k : rp_k (dc_params (cp_dcom p)) = rp_k (dc_params (cp_dcom p'));
  cs_sc : length (so_sc (dc_out (cp_dcom p))) = so_nvars (dc_out (cp_dcom p)) /\ length (so_sc (dc_out (cp_dcom p'))) = so_nvars (dc_out (cp_dcom p));
  cs_e : map len2 (so_e (dc_out (cp_dcom p))) = map len2 (so_e (dc_out (cp_dcom p')));
  cs_b : length (so_b (dc_out (cp_dcom p))) = length (so_b (dc_out (cp_dcom p')));
  cs_ev : map (fun e => (length (de_a e), length (de_c e))) (dc_evals (cp_dcom p)) = map (fun e => (length (de_a e), length (de_c e))) (dc_evals (cp_dcom p'));
  cs_comh : len2 (cp_comh p) = len2 (cp_comh p');
  cs_s1 : length (fst (cp_sc p)) = so_nvars (dc_out (cp_dcom p)) /\ length (fst (cp_sc p')) = so_nvars (dc_out (cp_dcom p));
  cs_s2 : length (snd (cp_sc p)) = so_nvars (dc_out (cp_dcom p)) /\ length (snd (cp_sc p')) = so_nvars (dc_out (cp_dcom p));
  cs_ea : len2 (fst (cp_evals p)) = len2 (fst (cp_evals p')); cs_eb : len2 (snd (cp_evals p)) = len2 (snd (cp_evals p')) }.
Definition plus_same (p p' : plus_proof K R) : Prop :=
  length (pp_l p) = length (pp_l p') /\ Forall (fun q => r1_same (fst q) (snd q)) (combine (pp_l p) (pp_l p')) /\ cm_same (pp_cm p) (pp_cm p').

Lemma len2_concat {A} (a b : list (list A)) : len2 a = len2 b -> length (concat a) = length (concat b).
Proof.
  unfold len2. revert b. induction a as [|x a IH]; intros [|y b] H; try discriminate; [auto|]. cbn [map] in H. injection H as H1 H2. cbn [concat]. rewrite !app_length, H1. f_equal. auto.
Qed.
Lemma app_eq_len {A} (a a' b b' : list A) : length a = length a' -> a ++ b = a' ++ b' -> a = a' /\ b = b'.
Proof. revert a'. induction a as [|x a IH]; intros [|y a'] HL H; try discriminate; [auto|]. cbn [app] in H. injection H as -> H. cbn [length] in HL. destruct (IH a') as [-> ->]; auto. Qed.
Lemma len2_inj {A} (a b : list (list A)) : len2 a = len2 b -> concat a = concat b -> a = b.
Proof.
  unfold len2. revert b. induction a as [|x a IH]; intros [|y b] H E; try discriminate; [auto|]. cbn [map] in H. injection H as H1 H2. cbn [concat] in E.
  apply app_eq_len in E as [-> E]; [|auto]. f_equal. auto.
Qed.
Lemma len3 {A} (a b : list (list (list A))) : map len2 a = map len2 b -> len2 a = len2 b /\ len2 (concat a) = len2 (concat b).
Proof.
  revert b. induction a as [|x a IH]; intros [|y b] H; try discriminate; [auto|]. cbn [map] in H. injection H as H1 H2. destruct (IH b H2) as [I1 I2].
  assert (length x = length y) as HL by (rewrite <- (map_length (@length A) x); fold (len2 x); rewrite H1; apply map_length).
  unfold len2 in *. cbn [map concat]. rewrite !map_app. split; congruence.
Qed.
Lemma l4_inj (a b : list (ev4 R)) : length a = length b -> flat_map l4 a = flat_map l4 b -> a = b.
Proof.
  revert b. induction a as [|[[[x y] z] w] a IH]; intros [|[[[x' y'] z'] w'] b] HL H; try discriminate; [auto|]. cbn [flat_map l4 app] in H. injection H as -> -> -> -> H. f_equal. auto.
Qed.
Lemma l4_length (a : list (ev4 R)) : length (flat_map l4 a) = (4 * length a)%nat.
Proof. induction a as [|[[[x y] z] w] a IH]; [auto|]. cbn [flat_map l4 app length]. rewrite IH. lia. Qed.
Lemma ev4_inj (a b : list (list (ev4 R))) : len2 a = len2 b -> flat_map (flat_map l4) a = flat_map (flat_map l4) b -> a = b.
Proof.
  unfold len2. revert b. induction a as [|x a IH]; intros [|y b] HL H; try discriminate; [auto|]. cbn [map] in HL. injection HL as H1 H2. cbn [flat_map] in H.
  apply app_eq_len in H as [E H]; [|rewrite !l4_length; lia]. apply l4_inj in E as ->; [|auto]. f_equal. auto.
Qed.
Lemma ev4_length (a b : list (list (ev4 R))) : len2 a = len2 b -> length (flat_map (flat_map l4) a) = length (flat_map (flat_map l4) b).
Proof.
  unfold len2. revert b. induction a as [|x a IH]; intros [|y b] HL; try discriminate; [auto|]. cbn [map] in HL. injection HL as H1 H2. cbn [flat_map]. rewrite !app_length, !l4_length, H1. f_equal. auto.
Qed.
Context {p : Z} {PL : PLaws K R p}.
Lemma map_emb_inj (a b : list K) : map (emb : K -> R) a = map emb b -> a = b.
Proof.
  revert b. induction a as [|x a IH]; intros [|y b] H; try discriminate; [auto|]. cbn [map] in H. injection H as H1 H2. f_equal; [|auto]. apply (emb_inj (R := R) (emb : K -> R) emb_hom (one_neq_0 (p := p))). exact H1.
Qed.
Lemma sc_sched_inj nv deg msgs msgs' (cs cs' : list K) (a b : evs) : length msgs = nv -> length msgs' = nv -> msgs_ok nv deg msgs cs -> msgs_ok nv deg msgs' cs' ->
  sc_sched nv deg msgs cs ++ a = sc_sched nv deg msgs' cs' ++ b -> msgs = msgs' /\ a = b.
Proof.
  intros H1 H2 (H3 & _ & H5) (H4 & _ & H6) H. unfold sc_sched in H. rewrite <- !app_assoc in H. apply says_inj in H as [_ H]; [|auto].
  rewrite firstn_all2 in H5 by lia. rewrite firstn_all2 in H6 by lia. rewrite !firstn_all2 in H by lia.
  apply sc_rounds_inj in H as (? & ? & ?); auto; try lia. apply (Forall_lengths (deg + 1)); auto. lia.
Qed.
Lemma squeezes_inj l l' (a b : evs) : length l = length l' -> squeezes l ++ a = squeezes l' ++ b -> l = l' /\ a = b.
Proof.
  revert l'. induction l as [|x l IH]; intros [|y l'] Hl H; try discriminate Hl; [auto|].
  cbn [squeezes map app] in H. injection H as -> H. cbn [length] in Hl. apply IH in H as [-> ->]; [auto|lia].
Qed.
Lemma cms_sched_inj nv sc sc' ev ev' (d d' : K * list K) (a b : evs) : length sc = nv -> length sc' = nv -> msgs_ok nv 2 sc (snd d) -> msgs_ok nv 2 sc' (snd d') -> len2 ev = len2 ev' ->
  cms_sched nv sc ev d ++ a = cms_sched nv sc' ev' d' ++ b -> sc = sc' /\ ev = ev' /\ a = b.
Proof.
  intros H1 H2 H3 H4 H5 H. unfold cms_sched in H. rewrite <- !app_assoc in H. apply draws_inj in H as [_ H]; [|auto]. apply sc_sched_inj in H as [-> H]; auto.
  apply says_inj in H as [E ->]; [|apply ev4_length; auto]. apply ev4_inj in E; auto.
Qed.
Lemma evals_inj (a b : list (dcom_evals K R)) : map (fun e => (length (de_a e), length (de_c e))) a = map (fun e => (length (de_a e), length (de_c e))) b ->
  length (flat_map (fun e => map (emb : K -> R) (de_a e) ++ de_c e) a) = length (flat_map (fun e => map (emb : K -> R) (de_a e) ++ de_c e) b) /\
  (flat_map (fun e => map emb (de_a e) ++ de_c e) a = flat_map (fun e => map emb (de_a e) ++ de_c e) b -> map (fun e => (de_a e, de_c e)) a = map (fun e => (de_a e, de_c e)) b).
Proof.
  revert b. induction a as [|x a IH]; intros [|y b] HL; try discriminate; [auto|]. cbn [map] in HL. injection HL as H1 H2 H3. destruct (IH b H3) as [I1 I2].
  cbn [flat_map map]. split; [rewrite !app_length, !map_length, I1; lia|]. intros H. rewrite <- !app_assoc in H.
  apply app_eq_len in H as [E1 H]; [|rewrite !map_length; auto]. apply app_eq_len in H as [E2 H]; [|auto]. apply map_emb_inj in E1. rewrite E1, E2. f_equal. auto.
Qed.
Lemma cm_sched_inj q q' d d' (a b : evs) : cm_same q q' -> cm_draws_ok q d -> cm_draws_ok q' d' -> cm_sched q d ++ a = cm_sched q' d' ++ b -> bare_cm q = bare_cm q' /\ a = b.
Proof.
  intros [N1 N2 [N3 N3'] N4 N5 N6 N7 [N8 N8'] [N9 N9'] N10 N11] (D1 & D2 & D3 & D4 & D5 & D6) (D1' & D2' & D3' & D4' & D5' & D6') H.
  unfold cm_sched, rg_sched, set_sched in H. rewrite <- N1 in *. rewrite <- !app_assoc in H.
  destruct (len3 _ _ N4) as [N4' N4''].
  assert (set_count (dc_out (cp_dcom q)) = set_count (dc_out (cp_dcom q'))) as SC.
  { unfold set_count. rewrite <- N1, N5. unfold len2 in N4'. 
    assert (length (nth 0 (so_e (dc_out (cp_dcom q))) []) = length (nth 0 (so_e (dc_out (cp_dcom q'))) [])) as ->; [|auto].
    destruct (so_e (dc_out (cp_dcom q))), (so_e (dc_out (cp_dcom q'))); try discriminate N4'; [auto|]. cbn [map] in N4'. injection N4' as X _. exact X. }
  apply draws_inj in H as [_ H]; [|congruence]. apply sc_sched_inj in H as [X1 H]; auto.
  apply says_inj in H as [X2 H]; [|apply len2_concat; auto]. apply len2_inj in X2; [|auto]. apply len2_inj in X2; [|auto].
  apply says_inj in H as [X3 H]; [|auto]. destruct (evals_inj _ _ N6) as [V1 V2]. apply says_inj in H as [X4 H]; [|auto]. apply V2 in X4.
  apply squeezes_inj in H as [_ H]; [|congruence]. apply says_inj in H as [X5 H]; [|apply len2_concat; auto]. apply len2_inj in X5; [|auto].
  apply draws_inj in H as [_ H]; [|rewrite D4, D4', X5; auto]. apply cms_sched_inj in H as (X6 & X7 & H); auto. apply cms_sched_inj in H as (X8 & X9 & H); auto.
  split; [|auto]. unfold bare_cm. rewrite <- N1, X1, X2, X3, X4, X5. destruct (cp_sc q), (cp_sc q'), (cp_evals q), (cp_evals q'). cbn [fst snd] in *. congruence.
Qed.
Lemma r1s_inj l l' dl dl' (a b : evs) : length l = length l' -> length dl = length l -> length dl' = length l' -> Forall (fun q => r1_same (fst q) (snd q)) (combine l l') ->
  Forall (fun pd => length (fst (snd pd)) = rp_nvars (fst pd) /\ msgs_ok (rp_nvars (fst pd)) 3 (rp_sc (fst pd)) (snd (snd pd))) (combine l dl) ->
  Forall (fun pd => length (fst (snd pd)) = rp_nvars (fst pd) /\ msgs_ok (rp_nvars (fst pd)) 3 (rp_sc (fst pd)) (snd (snd pd))) (combine l' dl') ->
  concat (zipw r1_sched l dl) ++ a = concat (zipw r1_sched l' dl') ++ b -> map bare_r1 l = map bare_r1 l' /\ a = b.
Proof.
  revert l' dl dl'. induction l as [|x l IH]; intros [|x' l'] [|d dl] [|d' dl'] H1 H2 H3 H4 H5 H6 H; try discriminate; [auto|].
  cbn [combine] in *. inversion H4 as [|? ? (S1 & S2 & S3) H4']; subst. inversion H5 as [|? ? (A1 & A2) H5']; subst. inversion H6 as [|? ? (B1 & B2) H6']; subst. cbn [fst snd] in *.
  cbn [zipw concat] in H. unfold r1_sched in H at 1 3. rewrite <- !app_assoc in H. rewrite <- S1 in *. apply draws_inj in H as [_ H]; [|congruence].
  apply sc_sched_inj in H as [X1 H]; auto. apply says_inj in H as [X2 H]; [|auto]. injection X2 as X2 X3 X4 X5. cbn [length] in *.
  apply IH in H as [X6 X7]; auto. split; [|auto]. cbn [map]. rewrite X6. f_equal. unfold bare_r1. congruence.
Qed.
(** The final state determines all parts of the proof which reach the transcript. *)
Theorem plus_log_binds (s s1 s2 : S) M pp q q' b b' : plus_verify M pp q s = Ok (b, s1) -> plus_verify M pp q' s = Ok (b', s2) -> plus_same q q' ->
  snd s1 = snd s2 -> bare q = bare q'.
Proof.
  intros H H' (N1 & N2 & N3) E. apply log_plus in H as (dl & d & L & F & D & H). apply log_plus in H' as (dl' & d' & L' & F' & D' & H').
  rewrite H, H' in E. apply app_inv_head in E. unfold plus_sched in E. apply r1s_inj in E as [X1 E]; auto.
  rewrite <- (app_nil_r (cm_sched (pp_cm q) d)), <- (app_nil_r (cm_sched (pp_cm q') d')) in E. apply cm_sched_inj in E as [X2 _]; auto. unfold bare. congruence.
Qed.
End FSP.
