(** The Poseidon configurations of the four rings (cyclotomic-rings/src/rings/poseidon/*.rs): what is checked about their tables. *)
From Coq Require Import String List Arith Lia ZArith Bool Ring Znumtheory.
From Verif Require Import Prelude Alg Poly Transcript Rings Challenge Challenge_Proofs PolyInst Primes FieldExt CycInst RealRings Sampling Zippel
  Poseidon PoseidonParams PoseidonCert Poseidon_Proofs Sponge_Proofs PTrans_Proofs SpongeBind PChecks.
Import ListNotations.
Local Open Scope rs_scope.

(** [GetPoseidonParams] for the four fields (poseidon/goldilocks.rs, babybear.rs, frog.rs, stark.rs; rings/mod.rs). *)
Inductive real_cfg : forall (p : Z) (K : Type), cyc p K -> (list Z -> result (list Z)) -> nat -> poseidon_cfg -> Prop :=
| pos_gold : real_cfg gold_p cub gold_cyc gold_challenge 18 cfg24
| pos_bb : real_cfg bb_p cub bb_cyc bb_challenge 18 cfg24
| pos_frog : real_cfg frog_p quad frog_cyc frog_challenge 16 cfg24
| pos_stark : real_cfg stark_p (fp stark_p) stark_cyc stark_challenge 16 cfg_stark.
Lemma cfg_real {p K} (y : cyc p K) decode n c : real_cfg p K y decode n c -> real_ring p K y decode n.
Proof. intros []; constructor. Qed.

(** What the proofs use of a configuration. *)
Record cfg_good (p : Z) (e need : nat) (c : poseidon_cfg) : Prop := {
  cf_ok : cfg_ok c; cf_alpha : alpha_ok (p := p) c; cf_mds : mds_regular (p := p) c; cf_usable : (0 < usable (p := p))%nat;
  cf_e : (1 <= e)%nat /\ e <> pc_rate c;
  cf_need : (1 <= (need + usable (p := p) - 1) / usable (p := p))%nat /\ ((need + usable (p := p) - 1) / usable (p := p))%nat <> pc_rate c;
  cf_ways : (10 * (ways (p := p) ((need + usable (p := p) - 1) / usable (p := p)) need * 256 ^ Z.of_nat need)
    <= 11 * p ^ Z.of_nat ((need + usable (p := p) - 1) / usable (p := p)))%Z }.
Lemma gold_mds : is_mds (p := gold_p) cfg24.
Proof. exact (cauchy_mds gold_prime cfg24 cfg24_ok gold_cx gold_cy gold_cauchy). Qed.
Lemma stark_mds : is_mds (p := stark_p) cfg_stark.
Proof. exact (minors_mds stark_prime cfg_stark cfg_stark_ok eq_refl stark_minors). Qed.
Lemma cfg_facts {p K} (y : cyc p K) decode n c : real_cfg p K y decode n c -> cfg_good p (cy_e y) n c.
Proof.
  intros []; split; try exact cfg24_ok; try exact cfg_stark_ok; try (split; [cbn; lia|vm_compute; reflexivity]);
    try (apply Nat.ltb_lt; vm_compute; reflexivity); try (split; [apply Nat.leb_le; vm_compute; reflexivity|apply Nat.eqb_neq; vm_compute; reflexivity]);
    try (apply Z.leb_le; vm_compute; reflexivity).
  - exact (mds_is_regular cfg24 cfg24_ok gold_mds).
  - exact (inv_regular bb_prime cfg24 cfg24_ok bb_minv bb_inv).
  - exact (inv_regular frog_prime cfg24 cfg24_ok frog_minv frog_inv).
  - exact (mds_is_regular cfg_stark cfg_stark_ok stark_mds).
Qed.

(** * Coordinates of the extension field *)
Definition of_co {p K} (y : cyc p K) : Prop := forall l, length l = cy_e y -> cy_co y (cy_of y l) = l.
Lemma base_of_co p : of_co (base_ext p).
Proof. intros [|a [|b l]] H; try discriminate; auto. Qed.
Lemma quad_of_co {p K} (y : cyc p K) r : of_co y -> of_co (quad_ext_of y r).
Proof.
  intros H l Hl. cbn [cy_co cy_of cy_e quad_ext_of q0 q1] in *. rewrite !H, firstn_skipn by (rewrite ?firstn_length, ?skipn_length; lia). auto.
Qed.
Lemma cub_of_co {p K} (y : cyc p K) r : of_co y -> of_co (cub_ext_of y r).
Proof.
  intros H l Hl. cbn [cy_co cy_of cy_e cub_ext_of u0 u1 u2] in *. rewrite !H, !firstn_skipn by (rewrite ?firstn_length, ?skipn_length; lia). auto.
Qed.
Lemma mk_of_co {p K} (y : cyc p K) psi theta r js : of_co y -> of_co (mk_cyc y psi theta r js).
Proof. intros H. exact H. Qed.
Lemma real_of_co {p K} (y : cyc p K) decode n : real_ring p K y decode n -> of_co y.
Proof.
  intros []; apply mk_of_co.
  - apply cub_of_co, base_of_co.
  - apply cub_of_co, cub_of_co, base_of_co.
  - apply quad_of_co, quad_of_co, base_of_co.
  - apply base_of_co.
Qed.

(** * The transcript of a ring *)
Section Tr.
Context {p : Z} {K : Type} (y : cyc p K) (decode : list Z -> result (list Z)) (need : nat) (c : poseidon_cfg) (RC : real_cfg p K y decode need c).
Notation F := (fp p).
Notation R := (pol K (cy_k y)).
Notation C := (pol (fp p) (cy_d y)).
Let G : cfg_good p (cy_e y) need c := cfg_facts y decode need c RC.
Let Hp : prime p := proj1 (real_facts y decode need (cfg_real y decode need c RC)).
Let XL : ext_laws y := proj1 (proj2 (proj2 (real_facts y decode need (cfg_real y decode need c RC)))).
Lemma flatten_length (v : R) : length (flatten y v) = cy_d y.
Proof.
  unfold flatten, cy_d. assert (forall l, length (flat_map (cy_co y) l) = length l * cy_e y)%nat as H; [|rewrite H, pol_len; auto].
  induction l as [|x l IH]; cbn [flat_map length]; auto. rewrite app_length, (xl_len y XL), IH. lia.
Qed.
Lemma flatten_inj (v v' : R) : flatten y v = flatten y v' -> v = v'.
Proof.
  intros E. assert (pl_l v = pl_l v') as E'.
  { pose proof (pol_len v) as Hl. pose proof (pol_len v') as Hl'. rewrite <- Hl in Hl'. unfold flatten in E. revert E Hl'. clear Hl.
    generalize (pl_l v) (pl_l v'). induction l as [|x l IH]; intros [|x' l'] E Hl; cbn [length] in Hl; try lia; auto. cbn [flat_map] in E.
    destruct (app_split (cy_e y) (cy_co y x) (flat_map (cy_co y) l) (xl_len y XL _)) as [A1 A2]. destruct (app_split (cy_e y) (cy_co y x') (flat_map (cy_co y) l') (xl_len y XL _)) as [B1 B2].
    rewrite E in A1, A2. f_equal; [|apply IH; [congruence|lia]]. rewrite <- (xl_of y XL x), <- (xl_of y XL x'). congruence. }
  destruct v as [l Hl], v' as [l' Hl']. cbn [pl_l] in E'. subst l'. f_equal. apply Eqdep_dec.UIP_dec, Bool.bool_dec.
Qed.
(** The transcript over well-formed sponges. *)
Lemma decoder : exists lo hi, good_decoder decode need p (cy_d y) lo hi.
Proof. apply (real_facts y decode need (cfg_real y decode need c RC)). Qed.
Notation W := (wsponge (p := p) c).
Definition pw_trans : TransOps W R K :=
  {| absorb := fun ws v => w_absorb c (cf_ok _ _ _ _ G) ws (flatten y v);
     get_challenge := fun ws => let r := w_squeeze c (cf_ok _ _ _ _ G) ws (cy_e y) in (cy_of y (fst r), w_absorb c (cf_ok _ _ _ _ G) (snd r) (fst r));
     squeeze_bytes := fun ws n => w_bytes c (cf_ok _ _ _ _ G) (cf_usable _ _ _ _ G) n ws |}.
Definition pw_bytes (ws : W) : list Z * W := w_bytes c (cf_ok _ _ _ _ G) (cf_usable _ _ _ _ G) need ws.

Let KO : cfg_ok c := cf_ok _ _ _ _ G.
(** [get_challenge] does not panic and agrees with the transcript over well-formed sponges. *)
Lemma pt_challenge_ok (ws : W) : exists k ws', @get_challenge _ _ _ pw_trans ws = (k, ws') /\ pt_challenge y c (proj1_sig ws) = Ok (k, proj1_sig ws').
Proof.
  destruct (squeeze_any c KO (proj1_sig ws) (cy_e y) (proj2_sig ws)) as [H1 H2]. eexists. eexists. split; [reflexivity|].
  unfold pt_challenge. cbn [w_squeeze w_absorb fst snd proj1_sig]. destruct (sp_squeeze c (proj1_sig ws) (cy_e y)) as [xs sp1]. cbn [fst snd] in *.
  rewrite H1, Nat.eqb_refl. reflexivity.
Qed.
Lemma challenge_spec (sp : sponge p) : sp_wf c sp ->
  let '(xs, sp1) := squeezes c (cy_e y) sp in
  pt_challenge y c sp = Ok (cy_of y xs, fold_left (absorb1 c) xs sp1) /\ length xs = cy_e y /\ sp_wf c (fold_left (absorb1 c) xs sp1).
Proof.
  intros H. destruct (cf_e _ _ _ _ G) as [E1 E2]. pose proof (squeezes_wf c KO (cy_e y) sp H) as H1. pose proof (squeezes_length c (cy_e y) sp) as H2.
  unfold pt_challenge. rewrite (squeeze_spec c KO) by auto. destruct (squeezes c (cy_e y) sp) as [xs sp1]. cbn [fst snd] in *.
  rewrite (absorb_spec c KO) by auto. rewrite H2, Nat.eqb_refl. repeat split; auto; apply fold_absorb_wf; auto.
Qed.
(** The number of elements read for a short challenge. *)
Definition chunk (n : nat) : nat := ((n + usable (p := p) - 1) / usable (p := p))%nat.
Lemma short_spec (sp : sponge p) : sp_wf c sp ->
  let '(xs, sp1) := squeezes c (chunk need) sp in
  exists h, decode (firstn need (all_of xs)) = Ok h /\ pt_short y c decode need sp = Ok (elt_of p (cy_d y) h, sp1) /\
    length xs = chunk need /\ bytes need (firstn need (all_of xs)) /\ sp_wf c sp1.
Proof.
  intros H. destruct (cf_need _ _ _ _ G) as [E1 E2]. fold (chunk need) in E1, E2. pose proof (squeezes_wf c KO (chunk need) sp H) as H1. pose proof (squeezes_length c (chunk need) sp) as H2.
  destruct (bytes_any c KO (cf_usable _ _ _ _ G) sp need H) as [H3 _]. destruct decoder as (lo & hi & _ & GD & _).
  unfold pt_short. unfold sp_bytes in H3 |- *. fold (chunk need) in H3 |- *. rewrite (squeeze_spec c KO) in H3 |- * by auto. destruct (squeezes c (chunk need) sp) as [xs sp1]. cbn [fst snd] in *.
  change (flat_map (fun x => le_bytes (usable (p := p)) (fpz x)) xs) with (all_of xs) in H3 |- *.
  destruct (GD _ H3) as (h & Eh & _). exists h. rewrite Eh. auto.
Qed.
Lemma pt_short_ok (ws : W) : pt_short y c decode need (proj1_sig ws) = Ok (fst (short_of y decode pw_bytes ws), proj1_sig (snd (short_of y decode pw_bytes ws))).
Proof.
  change (pt_short y c decode need (proj1_sig ws) = Ok (elt_of p (cy_d y) (match decode (fst (sp_bytes c (proj1_sig ws) need)) with Ok h => h | _ => [] end), snd (sp_bytes c (proj1_sig ws) need))).
  destruct (bytes_any c KO (cf_usable _ _ _ _ G) (proj1_sig ws) need (proj2_sig ws)) as [H3 _]. destruct decoder as (lo & hi & _ & GD & _).
  unfold pt_short. destruct (sp_bytes c (proj1_sig ws) need) as [bs sp1]. cbn [fst snd] in *. destruct (GD _ H3) as (h & -> & _). auto.
Qed.
Lemma pw_squeezer ws : bytes need (fst (pw_bytes ws)).
Proof. apply (bytes_any c KO (cf_usable _ _ _ _ G)). apply (proj2_sig ws). Qed.

(** ** Challenges and the elements squeezed for them *)
Lemma challenge_inj (xs xs' : list F) : length xs = cy_e y -> length xs' = cy_e y -> cy_of y xs = cy_of y xs' -> xs = xs'.
Proof. intros H H' E. pose proof (real_of_co y decode need (cfg_real y decode need c RC)) as O. rewrite <- (O xs), <- (O xs') by auto. congruence. Qed.
(** The short challenge made of squeezed elements. *)
Definition short_elt (xs : list F) : C := elt_of p (cy_d y) (match decode (firstn need (all_of xs)) with Ok h => h | _ => [] end).
Definition c_eqb (a b : C) : bool := @req _ (c_ops y) a b.
Theorem short_count (h : C) :
  (10 * (Z.of_nat (count (fun xs => c_eqb (short_elt xs) h) (tuples (chunk need) (fp_all (p := p)))) * 256 ^ Z.of_nat need) <= 11 * p ^ Z.of_nat (chunk need))%Z.
Proof.
  etransitivity; [|apply (cf_ways _ _ _ _ G)]. fold (chunk need). apply Z.mul_le_mono_nonneg_l; [lia|]. apply Z.mul_le_mono_nonneg_r; [apply Z.pow_nonneg; lia|].
  pose proof (real_facts y decode need (cfg_real y decode need c RC)) as RF. destruct RF as (_ & P2 & _ & CK & ST & _). destruct decoder as (lo & hi & _ & GD & _). pose proof (c_laws y Hp P2 XL CK) as CL.
  assert (forall xs, In xs (tuples (chunk need) (fp_all (p := p))) -> bytes need (firstn need (all_of xs))) as HB.
  { intros xs Hxs. apply in_tuples in Hxs. destruct Hxs as [Hl _]. split.
    - rewrite firstn_length, all_of_length, Hl by exact (cf_usable _ _ _ _ G). pose proof (chunks (p := p) (cf_usable _ _ _ _ G) need) as H. fold (chunk need) in H. lia.
    - apply Forall_forall. intros b Hb. apply (proj1 (Forall_forall _ _) (all_of_bytes xs)). rewrite <- (firstn_skipn need (all_of xs)). apply in_or_app. auto. }
  set (f := fun xs => c_eqb (short_elt xs) h). destruct (filter f (tuples (chunk need) (fp_all (p := p)))) as [|x0 l] eqn:E.
  - unfold count. rewrite E. cbn [length]. pose proof (ways_pos (p := p) Hp (cf_usable _ _ _ _ G) (chunk need) need). lia.
  - assert (In x0 (filter f (tuples (chunk need) (fp_all (p := p))))) as H0 by (rewrite E; left; auto). apply filter_In in H0. destruct H0 as [I0 H0].
    etransitivity; [|apply (tuple_count Hp (cf_usable _ _ _ _ G) (chunk need) need (firstn need (all_of x0)))]. apply Nat2Z.inj_le, count_le.
    intros xs Hxs Hx. apply zl_eqb_true. unfold f, c_eqb in H0, Hx. apply (@req_true _ _ CL) in H0. apply (@req_true _ _ CL) in Hx.
    destruct (list_eq_dec Z.eq_dec (firstn need (all_of xs)) (firstn need (all_of x0))) as [|N]; auto. exfalso.
    destruct (GD _ (HB xs Hxs)) as (h1 & E1 & _). destruct (GD _ (HB x0 I0)) as (h2 & E2 & _). destruct (ST _ _ _ _ (HB xs Hxs) (HB x0 I0) N E1 E2) as [u Hu].
    unfold short_elt in H0, Hx. rewrite E1 in Hx. rewrite E2 in H0. rewrite Hx, H0 in Hu.
    assert (@rzero _ (c_ops y) = @rone _ (c_ops y)) as Z1.
    { etransitivity; [|exact Hu]. pose proof (@rlaws_th _ _ CL) as Th. symmetry. etransitivity; [apply f_equal, (Rsub_def Th)|]. rewrite (Ropp_def Th), (Rmul_comm Th). apply (@rmul_0_l _ _ CL). }
    apply (f_equal (fun z : C => co z 0)) in Z1. cbn [rzero rone c_ops] in Z1. pose proof (d_pos y P2 XL CK) as D1. unfold pzero in Z1. rewrite co_mk, co_punit in Z1 by lia.
    cbn [Nat.eqb] in Z1. symmetry in Z1. exact (@f_1_neq_0 _ _ (fp_laws p Hp) Z1).
Qed.

(** ** Histories of the transcript *)
Inductive op := OAbsorb (v : R) | OChallenge | OShort.
(** The sponge after an operation; the other cases do not occur on well-formed sponges ([challenge_spec], [short_spec]). *)
Definition op_step (sp : sponge p) (o : op) : sponge p :=
  match o with
  | OAbsorb v => pt_absorb y c sp v
  | OChallenge => match pt_challenge y c sp with Ok r => snd r | _ => sp end
  | OShort => match pt_short y c decode need sp with Ok r => snd r | _ => sp end
  end.
Definition op_run (h : list op) (sp : sponge p) : sponge p := fold_left op_step h sp.
Definition op_kind (a b : op) : Prop := match a, b with OAbsorb _, OAbsorb _ => True | OChallenge, OChallenge => True | OShort, OShort => True | _, _ => False end.
(** The elements absorbed and squeezed. *)
Definition op_events (sp : sponge p) (o : op) : list (event (p := p)) :=
  match o with
  | OAbsorb v => map EA (flatten y v)
  | OChallenge => repeat ES (cy_e y) ++ map EA (fst (squeezes c (cy_e y) sp))
  | OShort => repeat ES (chunk need)
  end.
Fixpoint events (h : list op) (sp : sponge p) : list (event (p := p)) := match h with [] => [] | o :: h' => op_events sp o ++ events h' (op_step sp o) end.
Lemma run_EA xs : forall sp : sponge p, run c (map EA xs) sp = fold_left (absorb1 c) xs sp.
Proof. induction xs as [|x xs IH]; intros sp; cbn [map run fold_left]; auto. apply IH. Qed.
Lemma run_ES n : forall sp : sponge p, run c (repeat ES n) sp = snd (squeezes c n sp).
Proof.
  induction n as [|n IH]; intros sp; cbn [repeat run fold_left squeezes]; auto. change (fold_left (step c) (repeat ES n) (step c sp ES)) with (run c (repeat ES n) (step c sp ES)).
  rewrite IH. cbn [step]. destruct (squeeze1 c sp) as [x sp1]. cbn [snd]. destruct (squeezes c n sp1). auto.
Qed.
Lemma run_app a b (sp : sponge p) : run c (a ++ b) sp = run c b (run c a sp).
Proof. apply fold_left_app. Qed.
Lemma op_step_run sp o : sp_wf c sp -> op_step sp o = run c (op_events sp o) sp /\ sp_wf c (op_step sp o).
Proof.
  intros H. destruct o as [v| |]; cbn [op_step op_events].
  - unfold pt_absorb. rewrite run_EA, (absorb_spec c KO) by auto. split; auto. apply fold_absorb_wf; auto.
  - pose proof (challenge_spec sp H) as HS. rewrite run_app, run_ES. destruct (squeezes c (cy_e y) sp) as [xs sp1]. destruct HS as (E & _ & HW). rewrite E. cbn [fst snd]. rewrite run_EA. auto.
  - pose proof (short_spec sp H) as HS. rewrite run_ES. destruct (squeezes c (chunk need) sp) as [xs sp1]. destruct HS as (h & _ & E & _ & _ & HW). rewrite E. cbn [fst snd]. auto.
Qed.
Lemma op_run_events h : forall sp, sp_wf c sp -> op_run h sp = run c (events h sp) sp /\ sp_wf c (op_run h sp).
Proof.
  induction h as [|o h IH]; intros sp H; cbn [op_run fold_left events]; auto. destruct (op_step_run sp o H) as [E W1].
  rewrite run_app, <- E. apply IH; auto.
Qed.
Lemma Forall2_len {A B} (P : A -> B -> Prop) a b : Forall2 P a b -> length a = length b.
Proof. induction 1; cbn [length]; auto. Qed.
Lemma kinds_EA (xs xs' : list F) : length xs = length xs' -> Forall2 same_kind (map EA xs) (map EA xs').
Proof. revert xs'. induction xs as [|x xs IH]; intros [|x' xs'] E; try discriminate; cbn [map]; constructor; cbn; auto. Qed.
Lemma kinds_ES n : Forall2 same_kind (repeat (ES (p := p)) n) (repeat ES n).
Proof. induction n as [|n IH]; cbn [repeat]; constructor; cbn; auto. Qed.
Lemma op_kinds sp sp' o o' : op_kind o o' -> Forall2 same_kind (op_events sp o) (op_events sp' o').
Proof.
  intros HK. destruct o as [v| |], o' as [v'| |]; cbn [op_kind] in HK; try contradiction; cbn [op_events].
  - apply kinds_EA. rewrite !flatten_length. auto.
  - apply Forall2_app; [apply kinds_ES|apply kinds_EA; rewrite !squeezes_length; auto].
  - apply kinds_ES.
Qed.
Lemma event_kinds h : forall h' sp sp', Forall2 op_kind h h' -> Forall2 same_kind (events h sp) (events h' sp').
Proof. induction h as [|o h IH]; intros h' sp sp' HK; inversion HK; subst; cbn [events]; [constructor|]. apply Forall2_app; auto. apply op_kinds; auto. Qed.
Lemma EA_inj (xs xs' : list F) : map EA xs = map EA xs' -> xs = xs'.
Proof. revert xs'. induction xs as [|x xs IH]; intros [|x' xs'] E; try discriminate; auto. cbn [map] in E. injection E as E1 E2. f_equal; auto. Qed.
Lemma events_inj h : forall h' sp, Forall2 op_kind h h' -> events h sp = events h' sp -> h = h'.
Proof.
  induction h as [|o h IH]; intros h' sp HK E; inversion HK as [|? o' ? h0 K1 K2]; subst; auto. cbn [events] in E.
  assert (length (op_events sp o) = length (op_events sp o')) as Hl by (apply (Forall2_len _ _ _ (op_kinds sp sp o o' K1))).
  assert (op_events sp o = op_events sp o' /\ events h (op_step sp o) = events h0 (op_step sp o')) as [E1 E2].
  { destruct (app_split (length (op_events sp o)) (op_events sp o) (events h (op_step sp o)) eq_refl) as [A1 A2].
    destruct (app_split (length (op_events sp o)) (op_events sp o') (events h0 (op_step sp o')) (eq_sym Hl)) as [B1 B2]. rewrite E in A1, A2. split; congruence. }
  assert (o = o') as <-; [|f_equal; eapply IH; eauto].
  destruct o as [v| |], o' as [v'| |]; cbn [op_kind] in K1; try contradiction; auto. f_equal. apply flatten_inj, EA_inj, E1.
Qed.
Theorem transcript_binding h h' (sp : sponge p) : sp_wf c sp -> Forall2 op_kind h h' -> op_run h sp = op_run h' sp ->
  h = h' \/ collide c (events h sp) (events h' sp) sp sp.
Proof.
  intros W K1 E. destruct (op_run_events h sp W) as [E1 _]. destruct (op_run_events h' sp W) as [E2 _]. rewrite E1, E2 in E.
  destruct (bind_events Hp c KO (cf_alpha _ _ _ _ G) (cf_mds _ _ _ _ G) _ _ sp W (event_kinds h h' sp sp K1) E) as [E3|]; auto. left. eapply events_inj; eauto.
Qed.
End Tr.

(** * A zero element that leaves no trace *)
Section Zero.
Context {p : Z} {K : Type} (y : cyc p K) (XL : ext_laws y) (c : poseidon_cfg) (KO : cfg_ok c).
#[local] Hint Extern 0 (FieldOps K) => exact (cy_KO y) : typeclass_instances.
Definition r_zero : pol K (cy_k y) := mk (fun _ => 0).
Lemma co_zero : cy_co y 0 = repeat 0 (cy_e y).
Proof.
  pose proof (xl_K y XL) as KL. pose proof (xl_hom y XL) as KH. rewrite <- (rmul_0_l (R := K) 0) at 1. rewrite <- (hom_0 _ KH) at 1. rewrite (xl_scale y XL).
  rewrite <- (xl_len y XL 0). generalize (cy_co y 0). intros l. induction l as [|x l IH]; cbn [map length repeat]; auto. rewrite IH. f_equal.
Qed.
Lemma flatten_zero : flatten y r_zero = repeat 0 (cy_d y).
Proof.
  unfold flatten, r_zero, cy_d. cbn [pl_l mk]. generalize (seq 0 (cy_k y)) (seq_length (cy_k y) 0). intros l Hl. rewrite <- Hl. clear Hl. induction l as [|a l IH]; cbn [map flat_map length]; auto.
  rewrite IH, co_zero. cbn [Nat.mul]. rewrite repeat_app. auto.
Qed.
Theorem zero_invisible (s : list (fp p)) i : length s = width c -> (i + cy_d y <= pc_rate c)%nat ->
  pt_challenge y c (pt_absorb y c (Sponge s (Absorbing i)) r_zero) = pt_challenge y c (Sponge s (Absorbing i)) /\
  (forall n, sp_bytes c (pt_absorb y c (Sponge s (Absorbing i)) r_zero) n = sp_bytes c (Sponge s (Absorbing i)) n).
Proof.
  intros Hl Hi. unfold pt_absorb, pt_challenge, sp_bytes. rewrite flatten_zero. split; [|intros n]; rewrite (zeros_squeeze c KO) by auto; auto.
Qed.
Lemma iter_swap {A} (f : A -> A) n x : Nat.iter n f (f x) = Nat.iter (S n) f x.
Proof. induction n as [|n IH]; [reflexivity|]. change (Nat.iter (S n) f (f x)) with (f (Nat.iter n f (f x))). rewrite IH. reflexivity. Qed.
(** The index after absorbing from a fresh block. *)
Definition next_index (i : nat) : nat := if (i <? pc_rate c)%nat then S i else 1%nat.
Lemma fold_index xs : forall (s : list (fp p)) i, exists s', fold_left (absorb1 c) xs (Sponge s (Absorbing i)) = Sponge s' (Absorbing (Nat.iter (length xs) next_index i)).
Proof.
  induction xs as [|x xs IH]; intros s i; cbn [fold_left length]; [eexists; reflexivity|].
  assert (absorb1 c (Sponge s (Absorbing i)) x = Sponge (sp_state (absorb1 c (Sponge s (Absorbing i)) x)) (Absorbing (next_index i))) as ->.
  { unfold absorb1, next_index. cbn [sp_mode sp_state]. destruct (i <? pc_rate c)%nat; reflexivity. }
  destruct (IH (sp_state (absorb1 c (Sponge s (Absorbing i)) x)) (next_index i)) as [s' E]. exists s'. rewrite E. f_equal. f_equal. apply iter_swap.
Qed.
(** After a challenge the index is the number of elements of a challenge. *)
Lemma squeezing n : forall sp : sponge p, exists i, sp_mode (snd (squeezes c (S n) sp)) = Squeezing i.
Proof.
  induction n as [|n IH]; intros sp; cbn [squeezes]; destruct (squeeze1 c sp) as [x sp1] eqn:E.
  - cbn [snd]. unfold squeeze1 in E. destruct (sp_mode sp) as [i|i]; [|destruct (i <? pc_rate c)%nat]; apply (f_equal snd) in E; cbn [snd] in E; subst sp1; cbn [sp_mode]; eauto.
  - specialize (IH sp1). cbn [squeezes] in IH. destruct (squeeze1 c sp1) as [x1 sp2]. destruct (squeezes c n sp2). exact IH.
Qed.
Lemma refill x xs (sp : sponge p) i : sp_mode sp = Squeezing i -> exists s', fold_left (absorb1 c) (x :: xs) sp = Sponge s' (Absorbing (Nat.iter (length xs) next_index 1%nat)).
Proof. intros E. cbn [fold_left]. unfold absorb1 at 2. rewrite E. apply fold_index. Qed.
End Zero.
Lemma iter_add {A} (f : A -> A) x d m : Nat.iter m f (Nat.iter d f x) = Nat.iter (d + m) f x.
Proof. rewrite Nat.add_comm. induction m as [|m IH]; [reflexivity|]. change (f (Nat.iter m f (Nat.iter d f x)) = f (Nat.iter (m + d) f x)). f_equal. exact IH. Qed.
Lemma index_after {p K} (y : cyc p K) decode need c (RC : real_cfg p K y decode need c) (vs : list (pol K (cy_k y))) (sp : sponge p) i : sp_wf c sp -> sp_mode sp = Absorbing i ->
  exists s', length s' = width c /\ fold_left (pt_absorb y c) vs sp = Sponge s' (Absorbing (Nat.iter (length vs * cy_d y) (next_index c) i)).
Proof.
  pose proof (cf_ok _ _ _ _ (cfg_facts y decode need c RC)) as KO. revert sp i. induction vs as [|v vs IH]; intros sp i HW Em; cbn [fold_left length].
  - destruct sp as [s m]. cbn [sp_mode] in Em. subst m. exists s. split; [apply HW|]. reflexivity.
  - unfold pt_absorb at 2. destruct sp as [s m]. cbn [sp_mode] in Em. subst m. pose proof (absorb_wf c KO _ (flatten y v) HW) as HW1. rewrite (absorb_spec c KO) in HW1 |- * by auto.
    destruct (fold_index c (flatten y v) s i) as [s1 E1]. rewrite E1 in HW1 |- *. rewrite (flatten_length y decode need c RC) in HW1 |- *.
    destruct (IH _ _ HW1 eq_refl) as (s2 & L2 & E2). exists s2. split; auto. rewrite E2. f_equal. f_equal. cbn [Nat.mul]. apply iter_add.
Qed.
