(** C85 to C87: the Poseidon transcript. *)
From Coq Require Import String List Arith Lia ZArith Bool Znumtheory.
From Verif Require Import Prelude Alg Poly Transcript Rings Rings_Proofs Arith Arith_Proofs Balanced Challenge Challenge_Proofs PolyInst Primes FieldExt CycInst RealRings Sampling Properties9 NIFS Relations LinRel Linearization Linearization_Proofs Decomposition Decomposition_Proofs Folding Folding_Comb Folding_Proofs Folding_Complete NIFS_Proofs Extract ShortDual Properties12 Zippel
  Poseidon PoseidonParams PoseidonCert Poseidon_Proofs Sponge_Proofs PTrans_Proofs SpongeBind PChecks PShipped Shipped Properties13.
Import ListNotations.
Local Open Scope rs_scope.

(** * C85: the configurations *)
(** The tables have the dimensions [PoseidonConfig::new] asserts, and the permutation is a bijection of the states. *)
Theorem C85_bijection {p K} (y : cyc p K) decode need c : real_cfg p K y decode need c ->
  pcfg_new c = Ok c /\
  (forall s : list (fp p), length s = (pc_rate c + pc_cap c)%nat -> length (permute c s) = (pc_rate c + pc_cap c)%nat) /\
  (forall s s' : list (fp p), length s = (pc_rate c + pc_cap c)%nat -> length s' = (pc_rate c + pc_cap c)%nat -> permute c s = permute c s' -> s = s') /\
  (forall u : list (fp p), length u = (pc_rate c + pc_cap c)%nat -> exists s, length s = (pc_rate c + pc_cap c)%nat /\ permute c s = u).
Proof.
  intros RC. destruct (cfg_facts y decode need c RC) as [H1 H2 H3 _ _ _ _]. pose proof (proj1 (real_facts y decode need (cfg_real y decode need c RC))) as Hp.
  split; [apply H1|]. split; [intros; apply permute_length; auto|]. split; [intros s s' Hs Hs'; apply (permute_inj Hp c H1); auto|].
  intros u Hu. apply (permute_surj Hp c H1); auto.
Qed.
(** The matrices of Goldilocks and Stark are maximum distance separable. *)
Theorem C85_mds :
  (forall s s' : list (fp gold_p), length s = 24%nat -> length s' = 24%nat -> s <> s' -> (25 <= differ cfg24 s s' + differ cfg24 (apply_mds cfg24 s) (apply_mds cfg24 s'))%nat) /\
  (forall s s' : list (fp stark_p), length s = 3%nat -> length s' = 3%nat -> s <> s' -> (4 <= differ cfg_stark s s' + differ cfg_stark (apply_mds cfg_stark s) (apply_mds cfg_stark s'))%nat).
Proof. split; [exact gold_mds|exact stark_mds]. Qed.
(** BabyBear uses the integers of the Goldilocks matrix modulo another prime; the result is not. *)
Theorem C85_babybear_mds_refuted : exists s s' : list (fp bb_p), length s = 24%nat /\ length s' = 24%nat /\ s <> s' /\
  (differ cfg24 s s' + differ cfg24 (apply_mds cfg24 s) (apply_mds cfg24 s') = 24)%nat.
Proof.
  exists (map (zp bb_p) bb_sparse), (repeat (zp bb_p 0) 24). split; [reflexivity|]. split; [reflexivity|]. split.
  - intros E. apply (f_equal (fun l => fpz (nth 8 l (zp bb_p 0)))) in E. revert E. vm_compute. discriminate.
  - vm_compute. reflexivity.
Qed.

(** * C86: the sponge and the transcript *)
Section Real.
Context {p : Z} {K : Type} (y : cyc p K) (decode : list Z -> result (list Z)) (need : nat) (c : poseidon_cfg) (RC : real_cfg p K y decode need c).
Notation F := (fp p).
Notation R := (pol K (cy_k y)).
Notation C := (pol (fp p) (cy_d y)).
Let KO : cfg_ok c := cf_ok _ _ _ _ (cfg_facts y decode need c RC).
Let Hp : prime p := proj1 (real_facts y decode need (cfg_real y decode need c RC)).
(** Absorbing and squeezing work element by element; splitting a message into several calls makes no difference. *)
Theorem C86_sponge (sp : sponge p) : sp_wf c sp ->
  (forall xs, sp_absorb c sp xs = fold_left (absorb1 c) xs sp /\ sp_wf c (sp_absorb c sp xs)) /\
  (forall xs ys, sp_absorb c (sp_absorb c sp xs) ys = sp_absorb c sp (xs ++ ys)) /\
  (forall n, (1 <= n)%nat -> n <> pc_rate c -> sp_squeeze c sp n = squeezes c n sp) /\
  (forall n, length (fst (sp_squeeze c sp n)) = n /\ sp_wf c (snd (sp_squeeze c sp n))).
Proof.
  intros H. split; [intros xs; split; [apply absorb_spec|apply absorb_wf]; auto|]. split; [intros; apply absorb_app; auto|]. split; [intros; apply squeeze_spec; auto|].
  intros n. apply squeeze_any; auto.
Qed.
(** The transcript's operations never panic and keep the sponge well-formed. *)
Theorem C86_no_panic (h : list (op y)) :
  let sp := op_run y decode need c h (sp_new c) in
  sp_wf c sp /\
  (exists k sp', pt_challenge y c sp = Ok (k, sp') /\ sp_wf c sp') /\
  (exists d sp', pt_short y c decode need sp = Ok (d, sp') /\ sp_wf c sp').
Proof.
  intros sp. destruct (op_run_events y decode need c RC h (sp_new c) (new_wf c)) as [_ HW]. fold sp in HW. split; auto. split.
  - pose proof (challenge_spec y decode need c RC sp HW) as HS. destruct (squeezes c (cy_e y) sp) as [xs sp1]. destruct HS as (E & _ & H). eauto.
  - pose proof (short_spec y decode need c RC sp HW) as HS. destruct (squeezes c (chunk (p := p) need) sp) as [xs sp1]. destruct HS as (d & _ & E & _ & _ & H). eauto.
Qed.
(** Two histories of the same kinds of operations that end in the same sponge absorbed the same ring elements, unless after equally many
    elements they were in different states whose images under the permutation agree on the capacity part. *)
Theorem C86_binding (h h' : list (op y)) : Forall2 (op_kind y) h h' ->
  op_run y decode need c h (sp_new c) = op_run y decode need c h' (sp_new c) ->
  h = h' \/ collide c (events y decode need c h (sp_new c)) (events y decode need c h' (sp_new c)) (sp_new c) (sp_new c).
Proof. intros HK E. apply (transcript_binding y decode need c RC); auto. apply new_wf. Qed.
(** Ring elements are absorbed without loss. *)
Theorem C86_encoding : (forall v : R, length (flatten y v) = cy_d y) /\ (forall v v' : R, flatten y v = flatten y v' -> v = v') /\
  (forall xs xs' : list F, length xs = cy_e y -> length xs' = cy_e y -> cy_of y xs = cy_of y xs' -> xs = xs').
Proof. split; [|split]; intros; [apply (flatten_length y decode need c RC)|apply (flatten_inj y decode need c RC); auto|apply (challenge_inj y decode need c RC); auto]. Qed.

(** * C87: short challenges *)
(** A byte string of a squeezed element is read from p / 256^n or one more of the field elements. *)
Theorem C87_bytes n bs : bytes n bs ->
  (p / 256 ^ Z.of_nat n <= Z.of_nat (length (filter (fun x : F => zl_eqb (le_bytes n (fpz x)) bs) (fp_all (p := p)))) <= p / 256 ^ Z.of_nat n + 1)%Z.
Proof.
  intros H. pose proof (cf_usable _ _ _ _ (cfg_facts y decode need c RC)) as HU. split; [apply (one_count_low Hp HU n bs H)|apply (one_count Hp HU n bs)].
Qed.
(** If the squeezed elements are uniform, no short challenge is more than 1.1 times as likely as under the uniform choice among the 256^need. *)
Theorem C87_distribution (h : C) :
  let m := ((need + usable (p := p) - 1) / usable (p := p))%nat in
  (10 * (Z.of_nat (length (filter (fun xs => c_eqb y (short_elt y decode need xs) h) (tuples m (fp_all (p := p))))) * 256 ^ Z.of_nat need) <= 11 * p ^ Z.of_nat m)%Z.
Proof. exact (short_count y decode need c RC h). Qed.
Theorem C87_short (sp : sponge p) : sp_wf c sp ->
  exists xs sp', squeezes c ((need + usable (p := p) - 1) / usable (p := p)) sp = (xs, sp') /\ pt_short y c decode need sp = Ok (short_elt y decode need xs, sp').
Proof.
  intros H. pose proof (short_spec y decode need c RC sp H) as HS. unfold chunk in HS. destruct (squeezes c ((need + usable (p := p) - 1) / usable (p := p)) sp) as [xs sp1].
  destruct HS as (h & E1 & E2 & _). exists xs, sp1. split; auto. unfold short_elt. rewrite E1. auto.
Qed.
End Real.

(** The transcript over well-formed sponges is the transcript of the code. *)
Theorem C86_model {p K} (y : cyc p K) decode need c (RC : real_cfg p K y decode need c) (ws : wsponge (p := p) c) :
  (forall v, proj1_sig (@absorb _ _ _ (pw_trans y decode need c RC) ws v) = pt_absorb y c (proj1_sig ws) v) /\
  (let r := @get_challenge _ _ _ (pw_trans y decode need c RC) ws in pt_challenge y c (proj1_sig ws) = Ok (fst r, proj1_sig (snd r))) /\
  (let r := short_of y decode (pw_bytes y decode need c RC) ws in pt_short y c decode need (proj1_sig ws) = Ok (fst r, proj1_sig (snd r))).
Proof.
  split; [reflexivity|]. split; [|apply pt_short_ok]. destruct (pt_challenge_ok y decode need c RC ws) as (k & ws' & E & E'). cbv zeta. rewrite E. exact E'.
Qed.
(** A ring element absorbed directly after a challenge goes unnoticed if it is zero, for Frog; so does a fifth one. *)
Theorem C86_zero_refuted :
  (forall sp : sponge frog_p, sp_wf cfg24 sp -> exists k sp', pt_challenge frog_cyc cfg24 sp = Ok (k, sp') /\
     pt_challenge frog_cyc cfg24 (pt_absorb frog_cyc cfg24 sp' (r_zero frog_cyc)) = pt_challenge frog_cyc cfg24 sp' /\
     (forall n, sp_bytes cfg24 (pt_absorb frog_cyc cfg24 sp' (r_zero frog_cyc)) n = sp_bytes cfg24 sp' n)) /\
  (forall vs : list (pol quad (cy_k frog_cyc)), length vs = 4%nat ->
     let after := fun vs => fold_left (pt_absorb frog_cyc cfg24) vs (sp_new cfg24) in
     pt_challenge frog_cyc cfg24 (after (vs ++ [r_zero frog_cyc])) = pt_challenge frog_cyc cfg24 (after vs) /\
     (forall n, sp_bytes cfg24 (after (vs ++ [r_zero frog_cyc])) n = sp_bytes cfg24 (after vs) n)).
Proof.
  pose proof (cfg_facts _ _ _ _ pos_frog) as CF. pose proof (cf_ok _ _ _ _ CF) as KO.
  pose proof (proj1 (proj2 (proj2 (real_facts _ _ _ (cfg_real _ _ _ _ pos_frog))))) as XL. split.
  - intros sp HW. pose proof (challenge_spec _ _ _ _ pos_frog sp HW) as HS. destruct (squeezing (p := frog_p) cfg24 3 sp) as [i Hi]. change 4%nat with (cy_e frog_cyc) in Hi.
    destruct (squeezes cfg24 (cy_e frog_cyc) sp) as [xs sp1]. destruct HS as (E & Hl & HW'). cbn [snd] in Hi. eexists. eexists. split; [exact E|].
    destruct xs as [|x xs]; [discriminate Hl|]. destruct (refill (p := frog_p) cfg24 x xs sp1 i Hi) as [s' Es]. rewrite Es in *. injection Hl as Hl. rewrite Hl in *.
    apply (zero_invisible frog_cyc XL cfg24 KO); [apply HW'|]. vm_compute. lia.
  - intros vs Hl. cbv beta zeta. rewrite fold_left_app. cbn [fold_left]. destruct (index_after _ _ _ _ pos_frog vs (sp_new cfg24) 0 (new_wf cfg24) eq_refl) as (s' & Ls & Es).
    rewrite Es, Hl. apply (zero_invisible frog_cyc XL cfg24 KO); auto.
Qed.

(** * The folding protocol with this transcript *)
Section Folding.
Context {p : Z} {K : Type} (y : cyc p K) (decode : list Z -> result (list Z)) (need : nat) (c : poseidon_cfg) (RC : real_cfg p K y decode need c)
  (W G : list dparams) (SH : shipped p K y decode need W G).
Notation C := (pol (fp p) (cy_d y)).
Notation R := (pol K (cy_k y)).
Notation T := (wsponge (p := p) c).
Local Instance SO17 : SOps (fp p) K C R := cyc_ops y.
Local Instance TO17 : TransOps T R K := pw_trans y decode need c RC.
(** With the wide parameters any number of fresh instances can be folded with the Poseidon transcript. *)
Theorem C87_chain P (A : ajtai R) (cs : ccs R) : In P W -> ccs_good (p := p) y P cs ->
  forall (steps : list (T * cccs R * list R)) acc (w : list R),
  lcccs_rel P A cs acc (wit_from_w_ccs P w) ->
  Forall (fun st => cccs_rel P A cs (snd (fst st)) (wit_from_w_ccs P (snd st))) steps ->
  let steps' := map (fun st => (fst st, wit_from_w_ccs P (snd st))) steps in
  exists accs pfs,
    fold_chain_p (HO := short_of y decode (pw_bytes y decode need c RC)) P cs A acc (wit_from_w_ccs P w) steps' = Ok (accs, pfs) /\
    length accs = length steps /\ length pfs = length steps /\
    fold_chain_v (HO := short_of y decode (pw_bytes y decode need c RC)) P cs acc (map fst steps) pfs = Ok (map fst accs) /\
    Forall (fun a => lcccs_rel P A cs (fst a) (snd a) /\ Forall (in_range P) (w_fc (snd a))) accs.
Proof. intros HP HC. apply (C83_chain y decode need W G SH); auto. intros ts. apply pw_squeezer. Qed.
End Folding.
