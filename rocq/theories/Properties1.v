(** Final statements, part 1: constraint systems, multilinear extensions, sumcheck, commitments,
    witnesses, linearization, rotations.  Proofs are one-line references. *)
From Coq Require Import String List Arith Lia ZArith Bool Ring.
From Verif Require Import Prelude Alg Poly MLE MLE_Proofs Transcript Interp Interp_Proofs Sumcheck Sumcheck_Proofs
  Arith Arith_Proofs Balanced Rings Rings_Proofs Linearization Linearization_Proofs Relations LinRel Inst5 Toy.
Import ListNotations.
Local Open Scope rs_scope.

(** * C01-C08: constraint systems *)
Section CS.
Context {R : Type} {RO : RingOps R} {LR : RingLaws R}.

Theorem C01_ccs_check (cs : ccs R) (z : list R) : wf_ccs cs -> length z = c_n cs ->
  (ccs_check cs z = Ok tt <-> forall r, (r < c_m cs)%nat -> ccs_row cs z r = 0) /\
  (forall i, ccs_check cs z = Err (NotSatisfied i) <->
     (i < c_m cs)%nat /\ ccs_row cs z i <> 0 /\ forall j, (j < i)%nat -> ccs_row cs z j = 0) /\
  (ccs_check cs z = Ok tt \/ exists i, ccs_check cs z = Err (NotSatisfied i)).
Proof.
  intros Hw Hz. destruct (ccs_check_spec cs z Hw Hz) as [[E H]|(i & E & Hi & Hb & Hl)].
  - assert (forall r, (r < c_m cs)%nat -> ccs_row cs z r = 0) as H'.
    { intros r Hr. destruct (req_dec (ccs_row cs z r) 0); auto. exfalso. eapply H; eauto. }
    rewrite E. split; [|split; [|auto]].
    + split; auto.
    + intros i. split; [discriminate|]. intros (Hi & Hn & _). exfalso. apply Hn. auto.
  - assert (forall j, (j < i)%nat -> ccs_row cs z j = 0) as Hl'.
    { intros j Hj. destruct (req_dec (ccs_row cs z j) 0); auto. exfalso. eapply Hl; eauto. }
    rewrite E. split; [|split; [|eauto]].
    + split; [discriminate|]. intros H. exfalso. apply Hb. auto.
    + intros k. split; [intros [= <-]; auto|]. intros (Hk & Hn & Hm). do 2 f_equal.
      destruct (Nat.lt_trichotomy i k) as [Hlt|[->|Hlt]]; auto; exfalso; auto.
Qed.

(** The R1CS check itself decides the R1CS equations, and the conversion preserves the verdict. *)
Theorem C02_r1cs_to_ccs (r : r1cs R) (z : list R) (rows W : nat) :
  wf_r1cs (length z) rows r -> (rows <= W)%nat ->
  first_bad rows (fun i => ~ r1cs_row r z i) (r1cs_check r z) /\
  ccs_check (ccs_from_r1cs r W) z = r1cs_check r z.
Proof. intros H HW. split; [apply r1cs_check_spec; auto|eapply r1cs_ccs_equiv; eauto]. Qed.
Theorem C02_roundtrip (r : r1cs R) W : ccs_to_r1cs (ccs_from_r1cs r W) = Ok r.
Proof. exact (ccs_to_from_r1cs r W). Qed.

Theorem C04_padding (r : r1cs R) (z : list R) (rows W L : nat) :
  wf_r1cs (length z) rows r -> (r_l r < length z)%nat ->
  exists cs, ccs_from_r1cs_padded r W L = Ok cs /\ wf_ccs cs /\
    c_n cs = length z /\ c_l cs = r_l r /\
    (exists k, c_m cs = 2 ^ k /\ c_s cs = k)%nat /\
    (W <= c_m cs)%nat /\ ((length z - r_l r - 1) * L <= c_m cs)%nat /\
    sanity_check cs L = Ok tt /\
    ((rows <= W)%nat -> ccs_check cs z = ccs_check (ccs_from_r1cs r W) z) /\
    ((rows <= c_m cs)%nat -> ccs_check cs z = r1cs_check r z).
Proof. exact (from_r1cs_padded_spec r z rows W L). Qed.

Theorem C05_relax (r : r1cs R) (z : list R) (rows : nat) : wf_r1cs (length z) rows r ->
  relaxed_check (relax r) z = r1cs_check r z.
Proof. exact (relax_equiv r z rows). Qed.

Theorem C06_builder (s : csys R) (p a : list R) :
  csys_valid s = true -> length p = s_ninputs s -> length a = s_nauxs s ->
  csys_satisfied s p a = r1cs_check (csys_to_r1cs s) (p ++ a).
Proof. exact (csys_r1cs_equiv s p a). Qed.
Theorem C06_swap (s : csys R) : csys_valid s = true ->
  exists s', csys_swap s = Ok s' /\ csys_valid s' = true /\
   s_ninputs s' = s_ninputs s /\ s_nauxs s' = s_nauxs s /\
   forall p a, csys_satisfied s' p a = csys_satisfied s p a.
Proof. exact (csys_swap_equiv s). Qed.

Theorem C07_params_inj (a b : ccs R) : params_fit a -> params_fit b ->
  (params_to_le_bytes a = params_to_le_bytes b <->
   c_l a = c_l b /\ c_m a = c_m b /\ c_n a = c_n b /\ c_t a = c_t b /\ c_q a = c_q b /\ c_d a = c_d b).
Proof. exact (params_bytes_inj a b). Qed.

Theorem C38_sanity_check (cs : ccs R) (L : nat) : (c_l cs < c_n cs)%nat ->
  (sanity_check cs L = Ok tt <->
     (exists k, c_m cs = 2 ^ k)%nat /\ ((c_n cs - c_l cs - 1) * L <= c_m cs)%nat) /\
  (sanity_check cs L = Ok tt \/ sanity_check cs L = Err (InvalidSizeBounds (c_m cs) (c_n cs) L)).
Proof. exact (sanity_check_spec cs L). Qed.
End CS.

(** One R1CS row: x_0 * x_0 = x_1. *)
Definition sq5 : r1cs r2 :=
  R1cs 1 (SMat 2 3 [[(1, 1%nat)]; [(1, 0%nat)]]) (SMat 2 3 [[(1, 1%nat)]; [(1, 0%nat)]])
         (SMat 2 3 [[(1, 2%nat)]; [(1, 2%nat)]]).
(** C03 is false: with W below the number of rows the CCS forgets constraints. *)
Theorem C03_drops_constraints_refuted :
  exists (r : r1cs r2) (W : nat) (z : list r2), wf_r1cs (length z) 2 r /\
    ccs_check (ccs_from_r1cs r W) z = Ok tt /\ r1cs_check r z = Err (NotSatisfied 1).
Proof.
  exists sq5, 1%nat, [rz 1; rz 2; rz 4]. split; [|split; vm_compute; reflexivity].
  repeat split; repeat constructor.
Qed.
(** The equality with the unpadded CCS in C04 needs W at least the number of rows. *)
Theorem C04_small_W_refuted :
  exists (r : r1cs r2) (W L : nat) (z : list r2) cs, wf_r1cs (length z) 2 r /\ (r_l r < length z)%nat /\ (1 <= W)%nat /\
    ccs_from_r1cs_padded r W L = Ok cs /\ ccs_check cs z <> ccs_check (ccs_from_r1cs r W) z.
Proof.
  exists sq5, 1%nat, 2%nat, [rz 1; rz 2; rz 4]. eexists. split; [|split; [|split; [|split]]].
  - repeat split; repeat constructor.
  - vm_compute. lia.
  - lia.
  - reflexivity.
  - vm_compute. discriminate.
Qed.

(** * C09, C10: multilinear extensions *)
Section ML.
Context {R : Type} {RO : RingOps R} {LR : RingLaws R}.

Theorem C09_eq_table (r : list R) :
  (build_eq_x_r_vec r = Err InvalidParameters <-> r = []) /\
  (r <> [] -> exists e, build_eq_x_r_vec r = Ok e /\ length e = (2 ^ length r)%nat /\
     forall b, (b < 2 ^ length r)%nat -> eq_eval (bits (length r) b) r = Ok (nth b e 0)).
Proof.
  split.
  - split; [|intros ->; reflexivity]. intros H. destruct r; auto. rewrite build_eq_spec in H by discriminate. discriminate.
  - intros Hr. exists (map (eqw r) (seq 0 (2 ^ length r))). split; [apply build_eq_spec; auto|].
    rewrite map_length, seq_length. split; auto. intros b Hb. rewrite eq_eval_spec, bits_length, Nat.eqb_refl.
    rewrite eqp_bits by auto. rewrite nth_seq_map by auto. auto.
Qed.
Theorem C09_eq_eval (x y : list R) :
  (length x <> length y -> eq_eval x y = Err InvalidParameters) /\
  (length x = length y -> eq_eval x y =
     Ok (prodn (length x) (fun i => nth i x 0 * nth i y 0 + (1 - nth i x 0) * (1 - nth i y 0)))) /\
  eq_eval x y = eq_eval y x /\
  (forall n a b, (a < 2 ^ n)%nat -> (b < 2 ^ n)%nat ->
     eq_eval (bits n a : list R) (bits n b) = Ok (if (a =? b)%nat then 1 else 0)).
Proof.
  split; [|split; [|split]].
  - intros H. rewrite eq_eval_spec. destruct (Nat.eqb_spec (length x) (length y)); [contradiction|auto].
  - intros H. rewrite eq_eval_spec, H, Nat.eqb_refl. unfold eqp. rewrite H. auto.
  - rewrite !eq_eval_spec, (Nat.eqb_sym (length y)).
    destruct (Nat.eqb_spec (length x) (length y)); auto. rewrite eqp_sym; auto.
  - intros n a b Ha Hb. rewrite eq_eval_spec, !bits_length, Nat.eqb_refl, eqp_sym by (rewrite !bits_length; auto).
    rewrite eqp_bits by apply bits_length. rewrite eqw_bits by auto. rewrite Nat.eqb_sym. auto.
Qed.

Theorem C10_mle_eval (l : list R) (p : list R) :
  (vec_evaluate l p = if (length l <=? 2 ^ length p)%nat
                      then Ok (sumn (2 ^ length p) (fun b => nth b l 0 * eqw p b)) else Panic) /\
  (vecref_evaluate l p = if (length l =? 2 ^ length p)%nat
                         then Ok (sumn (2 ^ length p) (fun b => nth b l 0 * eqw p b))
                         else Err (MleIncorrectLength (length p) (length l))) /\
  (forall nv m, mle_from_vec nv l = Ok m <->
      (length l <= 2 ^ nv)%nat /\ m = Mle nv (resize (2 ^ nv) 0 l)) /\
  (forall m : mle R, dml_evaluate m p = if (length p =? mle_nv m)%nat
      then Ok (sumn (2 ^ length p) (fun b => nth b (mle_evals m) 0 * eqw p b))
      else Err (MleIncorrectLength (length p) (length (mle_evals m)))).
Proof.
  split; [apply vec_evaluate_spec|]. split; [apply vecref_evaluate_spec|].
  split; [intros nv m; apply mle_from_vec_ok|]. intros m. apply dml_evaluate_spec.
Qed.
Theorem C10_boolean_and_linear :
  (forall (l : list R) n b, (length l <= 2 ^ n)%nat -> (b < 2 ^ n)%nat -> vec_evaluate l (bits n b) = Ok (nth b l 0)) /\
  (forall (l m : list R) c p v w, length l = length m -> vec_evaluate l p = Ok v -> vec_evaluate m p = Ok w ->
      vec_evaluate (zipw radd l (map (rmul c) m)) p = Ok (v + c * w)).
Proof.
  split.
  - intros l n b Hl Hb. rewrite vec_evaluate_spec, bits_length. rewrite (proj2 (Nat.leb_le _ _) Hl).
    f_equal. apply (mle_spec_bits (fun b => nth b l 0)). auto.
  - intros l m c p v w Hl. rewrite !vec_evaluate_spec, zipw_length, map_length, <- Hl, Nat.min_id.
    destruct (_ <=? _)%nat; [|discriminate]. intros [= <-] [= <-]. f_equal.
    rewrite <- mle_spec_scale, <- mle_spec_add. apply mle_spec_ext. intros b _.
    destruct (Nat.lt_ge_cases b (length l)).
    + rewrite (nth_zipw _ _ _ _ 0 0) by (rewrite ?map_length; lia). rewrite (nth_map_lt _ _ _ 0) by lia. auto.
    + rewrite !nth_overflow; try lia; [rewrite rmul_0_r, radd_0_l; auto|]. rewrite zipw_length. lia.
Qed.
End ML.

(** * C11-C16: sumcheck *)
Section SC.
Context {R K T : Type} {RO : RingOps R} {KO : FieldOps K} {E : Embed K R} {TO : TransOps T R K}.
Context {LR : RingLaws R} {LK : FieldLaws K} {EL : EmbedLaws K R}.

Theorem C11_sumcheck_complete (ts : T) (mles : list (mle R)) (nvars d : nat) (comb : list R -> R) :
  (1 <= nvars)%nat -> (1 <= d)%nat -> char_gt K d ->
  comb_deg (length mles) d comb -> Forall (fun m => mle_nv m = nvars) mles ->
  exists proof r ts',
    sc_prove ts mles nvars d comb = Ok (proof, r, ts') /\
    length r = nvars /\ length proof = nvars /\
    sc_verify ts nvars d (cube_sum nvars (fun p => comb (mles_at mles p))) proof
      = Ok (r, comb (mles_at mles (map emb r)), ts').
Proof. exact (sumcheck_complete ts mles nvars d comb). Qed.

Theorem C12_sumcheck_sound (n d : nat) (g : list R -> R) (ts : T) (claimed : R) (proof : list (list R))
    (r : list K) (e : R) (ts' : T) :
  (1 <= d)%nat -> char_gt K d -> var_deg n d g ->
  sc_verify ts n d claimed proof = Ok (r, e, ts') ->
  e = g (map emb r) -> claimed <> cube_sum n g ->
  length r = n /\
  exists i, (i < n)%nat /\
    let msg := nth i proof [] in
    let h := true_round g (map emb (firstn i r)) (n - 1 - i) in
    length msg = (d + 1)%nat /\
    nth i r 0 = fs_challenge (absorb (absorb ts (rofn n)) (rofn d)) (firstn i proof) msg /\
    bad_challenge msg h (nth i r 0) /\
    deg_le d h /\
    forall bad : list K, NoDup bad -> (forall c, In c bad -> bad_challenge msg h c) -> (length bad <= d)%nat.
Proof. exact (sumcheck_sound n d g ts claimed proof r e ts'). Qed.

Theorem C13_parallel_schedule (degree : nat) (comb : list R -> R) (polys : list (mle R)) (k : nat) (s : schedule) :
  (1 <= degree)%nat -> sched_range s = seq 0 (2 ^ k) ->
  prove_round degree comb polys k = Ok (prove_round_par degree comb polys s).
Proof. exact (par_eq_seq degree comb polys k s). Qed.

Theorem C14_interpolation (p : list R) (x : K) : p <> [] -> char_gt K (length p - 1) ->
  (exists g, deg_le (length p - 1) g /\ forall i, (i < length p)%nat -> g (rofn i) = nth i p 0) /\
  (forall g, deg_le (length p - 1) g -> (forall i, (i < length p)%nat -> g (rofn i) = nth i p 0) ->
     interpolate p x = Ok (g (emb x))).
Proof.
  intros Hp Hc. split.
  - exists (lagrange p). split; [apply lagrange_deg|]. intros. apply lagrange_node; auto.
  - intros g Hg Hi. rewrite interpolate_lagrange by auto. f_equal. apply lagrange_unique; auto.
Qed.

(** What C15 and C16 leave true: a proof with enough messages of the right arity never crashes
    the verifier; too short a proof always does; and the verifier reads exactly n messages. *)
Theorem C15_no_panic_partial (ts : T) (n d : nat) (claimed : R) (proof : list (list R)) :
  (1 <= n)%nat -> (1 <= d)%nat -> char_gt K d -> proof_shape n d proof ->
  sc_verify ts n d claimed proof <> Panic.
Proof. exact (sc_verify_no_panic ts n d claimed proof). Qed.
Theorem C15_short_proof_panics (ts : T) (n d : nat) (claimed : R) (proof : list (list R)) :
  (length proof < n)%nat -> sc_verify ts n d claimed proof = Panic.
Proof. exact (sc_verify_short_panics ts n d claimed proof). Qed.
Theorem C16_extra_messages_ignored (ts : T) (n d : nat) (claimed : R) (proof extra : list (list R)) v :
  sc_verify ts n d claimed proof = Ok v -> sc_verify ts n d claimed (proof ++ extra) = Ok v.
Proof. exact (sc_verify_extra ts n d claimed proof extra v). Qed.
End SC.

Theorem C15_never_panics_refuted :
  exists (ts : Z) (claimed : r2) (proof : list (list r2)), sc_verify ts 2 2 claimed proof = Panic.
Proof. exists 1%Z, (rz 0), [[rz 0; rz 0; rz 0]]. vm_compute. reflexivity. Qed.
(** Wrong arity also panics. *)
Theorem C15_wrong_arity_refuted :
  exists (ts : Z) (claimed : r2) (proof : list (list r2)), length proof = 1%nat /\ sc_verify ts 1 2 claimed proof = Panic.
Proof. exists 1%Z, (rz 0), [[rz 0; rz 0]]. split; [reflexivity|]. vm_compute. reflexivity. Qed.
Theorem C16_padded_proof_refuted :
  exists (ts : Z) (claimed : r2) (p1 p2 : list (list r2)) v,
    p1 <> p2 /\ sc_verify ts 1 2 claimed p1 = Ok v /\ sc_verify ts 1 2 claimed p2 = Ok v.
Proof.
  exists 1%Z, (rz 3), [[rz 1; rz 2; rz 4]], [[rz 1; rz 2; rz 4]; [xi]]. eexists.
  split; [discriminate|]. split; vm_compute; reflexivity.
Qed.

(** * C17-C19: commitments *)
Section CM.
Context {R : Type} {RO : RingOps R} {LR : RingLaws R}.
Theorem C17_commit_spec (A : ajtai R) (f : list R) :
  (length f <> a_ncols A -> commit A f = Err (WrongWitnessLength (length f) (a_ncols A))) /\
  (length f = a_ncols A -> wf_ajtai A -> exists c, commit A f = Ok c /\ length c = kappa A /\
     forall i, (i < kappa A)%nat -> nth i c 0 = sumn (a_ncols A) (fun j => aj_entry A i j * nth j f 0)).
Proof. exact (commit_spec A f). Qed.
Theorem C17_commit_linear (A : ajtai R) (f g : list R) (a b : R) cf cg :
  commit A f = Ok cf -> commit A g = Ok cg ->
  commit A (zipw radd (map (rmul a) f) (map (rmul b) g)) = Ok (zipw radd (map (rmul a) cf) (map (rmul b) cg)).
Proof. exact (commit_linear A f g a b cf cg). Qed.

(** C18 is false: for every sampled value and every dimension n >= 2 there are different
    0/1 witnesses with equal sum, and all witnesses of equal sum collide. *)
Theorem C18_rand_collides_refuted (sample : R) (k n : nat) : (1 : R) <> 0 -> (2 <= n)%nat ->
  (exists f g : list R, f <> g /\ length f = n /\ length g = n /\ lsum f = lsum g /\
     (forall x, In x (f ++ g) -> x = 0 \/ x = 1) /\
     commit (ajtai_rand sample k n) f = commit (ajtai_rand sample k n) g) /\
  (forall f g : list R, length f = n -> length g = n -> lsum f = lsum g ->
     commit (ajtai_rand sample k n) f = commit (ajtai_rand sample k n) g).
Proof.
  intros H10 Hn. split; [|intros; apply ajtai_rand_collision; auto].
  destruct n as [|[|n]]; try lia.
  assert (lsum (1 :: 0 :: repeat 0 n) = lsum (0 :: 1 :: repeat (0 : R) n)) as Hs.
  { rewrite !lsum_cons, !lsum_repeat_0. rewrite !radd_0_r, !radd_0_l. auto. }
  exists (1 :: 0 :: repeat 0 n), (0 :: 1 :: repeat 0 n). split; [intros [= H]; auto|].
  cbn [length]. rewrite !repeat_length. split; auto. split; auto. split; auto. split.
  - intros x Hx. apply in_app_iff in Hx. cbn [In] in Hx.
    destruct Hx as [[<-|[<-|Hx]]|[<-|[<-|Hx]]]; auto; apply repeat_spec in Hx; auto.
  - apply ajtai_rand_collision; cbn [length]; rewrite ?repeat_length; auto.
Qed.

Theorem C19_module :
  (forall a b : list R, length a = length b -> cm_add a b = cm_add b a /\ length (cm_add a b) = length a) /\
  (forall a b c : list R, length a = length b -> length b = length c ->
     cm_add a (cm_add b c) = cm_add (cm_add a b) c) /\
  (forall a : list R, cm_add a (cm_zeroed (length a)) = a /\ cm_add (cm_zeroed (length a)) a = a) /\
  (forall a b : list R, length a = length b -> cm_sub (cm_add a b) b = a /\ cm_add (cm_sub a b) b = a) /\
  (forall (a b : list R) x, length a = length b -> cm_scale (cm_add a b) x = cm_add (cm_scale a x) (cm_scale b x)) /\
  (forall (a : list R) x y, cm_scale a (x + y) = cm_add (cm_scale a x) (cm_scale a y)) /\
  (forall (a : list R) x y, cm_scale (cm_scale a x) y = cm_scale a (x * y)) /\
  (forall a : list R, cm_scale a 1 = a) /\
  (forall (a b : list R) i, length a = length b -> nth i (cm_add a b) 0 = nth i a 0 + nth i b 0) /\
  (forall (a : list R) x i, nth i (cm_scale a x) 0 = nth i a 0 * x).
Proof.
  split; [intros; split; [apply cm_add_comm; auto|apply cm_add_length]|].
  destruct cm_module as (H1 & H2 & H3 & H4 & H5 & H6 & H7). repeat (split; [assumption|]).
  split; [intros; apply cm_add_ext; auto|intros; apply cm_scale_nth].
Qed.
End CM.

(** * C20, C21, C25-C27, C33 *)
Section SR.
Context {F K C R T : Type} {SO : SOps F K C R} {p : Z} {SL : SLaws F K C R p} {TO : TransOps T R K}.

Theorem C20_digits (k : nat) (b v : Z) : (2 <= b)%Z ->
  length (decompose_z k b v) = k /\
  Forall (fun d => (Z.abs d <= b / 2)%Z) (decompose_z k b v) /\
  (digits_value b (decompose_z k b v) = v <-> (Z.abs v <= reach k b)%Z) /\
  ((2 * Z.abs v <= b ^ Z.of_nat k)%Z -> digits_value b (decompose_z k b v) = v).
Proof.
  intros Hb. split; [apply decompose_z_length|]. split; [apply decompose_z_short; auto|].
  split; [apply decompose_z_iff; auto|]. intros. apply decompose_z_exact; auto.
Qed.
Theorem C20_ring_digits (b : Z) (k : nat) (c : C) : (2 <= b)%Z ->
  (forall x, In x (decompose_c b k c) -> cnorm_le (b / 2) x) /\
  ((forall j, (Z.abs (signed (cf j c)) <= reach k b)%Z) -> recompose (decompose_c b k c) (rofZ b) = c).
Proof. intros Hb. split; [intros; eapply decompose_c_short; eauto|intros; apply decompose_c_exact; auto]. Qed.
Theorem C20_witness (P : dparams) (w : list R) : covers (p := p) P ->
  gadget_recompose (dp_B P) (dp_L P) (w_f (wit_from_w_ccs P w : witness C R)) = w /\
  length (w_f (wit_from_w_ccs P w : witness C R)) = (length w * dp_L P)%nat /\
  (forall x, In x (w_fc (wit_from_w_ccs P w : witness C R)) -> cnorm_le (dp_B P / 2) x).
Proof.
  intros H. split; [|split].
  - destruct (from_w_ccs_consistent P w H) as (_ & _ & _ & E). symmetry. exact E.
  - apply from_w_ccs_length.
  - intros x. apply from_w_ccs_short. apply H.
Qed.

Theorem C21_constructors (P : dparams) :
  (forall w, covers (p := p) P -> wit_consistent P (wit_from_w_ccs P w)) /\
  (forall f, wit_consistent P (wit_from_f P f)) /\
  (forall f, wit_consistent P (wit_from_f_coeff P f)) /\
  (forall w, covers (p := p) P -> wit_from_f P (w_f (wit_from_w_ccs P w)) = (wit_from_w_ccs P w : witness C R)).
Proof.
  split; [intros; apply from_w_ccs_consistent; auto|]. split; [apply from_f_consistent|].
  split; [apply from_f_coeff_consistent|]. intros; apply from_f_from_w_ccs; auto.
Qed.
Theorem C21_fhat_entries (P : dparams) (w : witness C R) j s i d : wit_consistent P w ->
  (j < tau)%nat -> (s < dimN)%nat -> (i < length (w_f w))%nat ->
  length (w_fhat w) = tau /\
  nth s (slots (mle_get (nth j (w_fhat w) d) i)) 0 = embFK (nth (j * dimN + s) (coeffs (icrt (nth i (w_f w) 0))) 0).
Proof. exact (fhat_entries P w j s i d). Qed.

(** C08, C25 *)
Theorem C25_linearization_complete (P : dparams) (A : ajtai R) (cs : ccs R) (i : cccs R) (w : witness C R) (ts : T) :
  sizes_ok p P cs -> in_order cs -> degree_ok cs -> char_gt K (c_d cs + 1) -> cccs_rel P A cs i w ->
  exists lc pf ts',
    lin_prove i w ts cs = Ok (lc, pf, ts') /\
    lin_verify i pf ts cs = Ok (lc, ts') /\
    lcccs_rel P A cs lc w /\
    lcccs_z lc (w_ccs w) = cccs_z i (w_ccs w) /\
    (exists rs, lc_r lc = map emb rs).
Proof. exact (linearization_complete P A cs i w ts). Qed.
Theorem C25_r1cs_in_order (r : r1cs R) W L cs : ccs_from_r1cs_padded r W L = Ok cs -> in_order cs /\ degree_ok cs.
Proof. exact (padded_in_order r W L cs). Qed.
Theorem C08_z_vector (i : cccs R) (lc : lcccs R) (w : list R) :
  cccs_z i w = i_x i ++ [1] ++ w /\ lcccs_z lc w = lc_x lc ++ [lc_h lc] ++ w.
Proof. split; reflexivity. Qed.
Theorem C08_linearize_same_z (i : cccs R) (w : witness C R) (ts : T) (cs : ccs R) lc pf ts' v :
  lin_prove i w ts cs = Ok (lc, pf, ts') -> lcccs_z lc v = cccs_z i v.
Proof.
  unfold lin_prove. intros H. apply bind_ok_inv in H as ([[[ms dg] Mz] t1] & _ & H).
  apply bind_ok_inv in H as (_ & _ & H). apply bind_ok_inv in H as ([[pr rs] t2] & _ & H).
  apply bind_ok_inv in H as (vv & _ & H). apply bind_ok_inv in H as (u & _ & H).
  injection H as <- _ _. reflexivity.
Qed.

Theorem C27_linearization_sound (cm_i : cccs R) (pf : lin_proof R) (ts : T) (cs : ccs R) lc ts' (z : list R) :
  wf_ccs cs -> degree_ok cs -> char_gt K (c_d cs + 1) ->
  lin_verify cm_i pf ts cs = Ok (lc, ts') ->
  (forall j, (j < c_t cs)%nat -> nth j (lc_u lc) 0 = mle_spec (mz (nth j (c_M cs) (SMat 0 0 [])) z) (lc_r lc)) ->
  let betas := fst (get_challenges (absorb_tag ts "beta_s") (c_s cs)) in
  let ts1 := snd (get_challenges (absorb_tag ts "beta_s") (c_s cs)) in
  (forall b, (b < 2 ^ c_s cs)%nat -> ccs_row cs z b = 0) \/
  bad_coord (ccs_row cs z) betas \/
  (exists rs, lc_r lc = map emb rs /\
     sc_bad (c_s cs) (c_d cs + 1)
       (fun x => ccs_poly cs (map (fun M => mle_spec (mz M z) x) (c_M cs)) * eqp x (map emb betas))
       ts1 (lp_sc pf) rs).
Proof. exact (lin_sound cm_i pf ts cs lc ts' z). Qed.

Theorem C33_rot_sum (a : C) (b : list K) n (e : nat -> K) (c : nat -> C) :
  b = map (fun i => sumn n (fun m => e m * embFK (cf i (c m)))) (seq 0 dimC) ->
  rot_sum a b = Ok (map (fun j => sumn n (fun m => e m * embFK (cf j (a * c m)))) (seq 0 dimC)).
Proof. exact (rot_sum_spec a b n e c). Qed.
Theorem C33_rot_sum_abort (a : C) (b : list K) : rot_sum a b = Panic <-> length b <> dimC.
Proof. exact (rot_sum_abort a b). Qed.
Theorem C33_rot_lin_combination (rhos : list C) (thetas : list (list R)) :
  length rhos = length thetas -> thetas <> [] -> (forall th, In th thetas -> length th = tau) ->
  exists v, rot_lin_combination rhos thetas = Ok v /\ length v = tau /\
    forall t s, (t < tau)%nat -> (s < dimN)%nat ->
      sl s (nth t v 0) = sumn (length rhos) (fun m =>
         sumn dimC (fun i => nth i (flatten_to_coeffs (nth m thetas [])) 0 *
                             embFK (cf (t * dimN + s) (xpow i (nth m rhos 0))))).
Proof. exact (rot_lin_combination_ok rhos thetas). Qed.
End SR.

(** * C58: variable map *)
Theorem C58_get_last l k : vm_get (vm_adds vm_new l) k = last_added k l.
Proof. exact (vm_get_last l k). Qed.
Theorem C58_total_len_partial l : NoDup (map fst l) ->
  vm_total (vm_adds vm_new l) = S (present_len (vm_adds vm_new l)) /\
  vm_total (vm_adds vm_new l) = S (list_sum (map (fun e => snd (snd e)) l)).
Proof. exact (vm_total_distinct l). Qed.
Theorem C58_total_len_refuted :
  exists l, vm_total (vm_adds vm_new l) <> S (present_len (vm_adds vm_new l)).
Proof. exists [("x"%string, (0, 2)); ("x"%string, (0, 2))]%nat. vm_compute. discriminate. Qed.
