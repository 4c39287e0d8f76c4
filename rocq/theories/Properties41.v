(** C124: the generated systems and vectors belong together, for all sizes and inputs. *)
From Coq Require Import String List Arith Lia ZArith Bool Ring.
From Verif Require Import Prelude Alg Transcript Arith Arith_Proofs Balanced Rings Rings_Proofs Dummy.
Import ListNotations.
Local Open Scope rs_scope.

Section D.
Context {R : Type} {RO : RingOps R} {RL : RingLaws R}.
Add Ring Rring113 : (@rlaws_th R _ RL).
(** The matrices are diagonal. *)
Definition diag (f : nat -> R) (rows columns : nat) : smat R := SMat rows columns (map (fun i => [(f i, i)]) (seq 0 rows)).
Lemma diag_wf f rows columns : (rows <= columns)%nat -> wf_mat columns (diag f rows columns).
Proof.
  intros H. unfold wf_mat, diag. cbn [m_ncols m_nrows m_coeffs]. split; [reflexivity|]. split; [rewrite map_length, seq_length; reflexivity|].
  apply Forall_forall. intros row Hr. apply in_map_iff in Hr as (i & <- & Hi). apply in_seq in Hi. constructor; [|constructor]. cbn [snd]. lia.
Qed.
Lemma diag_mz f rows columns z i : (rows <= length z)%nat -> mz (diag f rows columns) z i = if (i <? rows)%nat then f i * nth i z 0 else 0.
Proof.
  intros H. destruct (Nat.ltb_spec i rows) as [Hi|Hi].
  - assert (forall c, mat_entry (diag f rows columns) i c = if (i =? c)%nat then f i else 0) as E.
    { intros c. unfold mat_entry, diag. cbn [m_coeffs]. rewrite nth_seq_map by lia. cbn [filter snd]. destruct (i =? c)%nat; cbn [map fst lsum fold_right]; ring. }
    unfold mz. rewrite (sumn_single _ i).
    + rewrite E, Nat.eqb_refl. reflexivity.
    + lia.
    + intros c _ N. rewrite E. destruct (Nat.eqb_spec i c); [congruence|]. ring.
  - apply mz_out. unfold diag. cbn [m_coeffs]. rewrite map_length, seq_length. exact Hi.
Qed.
Lemma diag_panics f rows columns z : length z = columns -> (columns < rows)%nat -> mat_vec_mul (diag f rows columns) z = Panic.
Proof.
  intros Hz H. unfold mat_vec_mul, diag. cbn [m_ncols m_coeffs]. rewrite Hz, Nat.eqb_refl. cbn [negb].
  assert (forall l, In columns l -> (forall i, In i l -> (i <= columns)%nat \/ True) -> mapM (fun row => row_mul row z) (map (fun i => [(f i, i)]) l) = Panic) as G.
  { intros l. induction l as [|i l IH]; intros Hin _; [destruct Hin|]. cbn [map mapM]. unfold row_mul at 1. cbn [mapM snd fst]. unfold index.
    destruct (nth_error z i) eqn:E; cbn [of_option bind]; [|reflexivity]. destruct Hin as [->|Hin]; [assert (nth_error z columns <> None) as E' by congruence; apply nth_error_Some in E'; lia|]. rewrite IH; auto. }
  apply G; [apply in_seq; lia|auto].
Qed.

(** The scalar system: exactly the vectors with idempotent entries in the first [rows] places; more rows than columns panic. *)
Theorem C124_dummy x_len wit_len rows (z : list R) : length z = (x_len + wit_len + 1)%nat ->
  ((rows <= x_len + wit_len + 1)%nat ->
    (r1cs_check (dummy_r1cs x_len wit_len rows) z = Ok tt <-> forall i, (i < rows)%nat -> nth i z 0 * nth i z 0 = nth i z 0)) /\
  ((x_len + wit_len + 1 < rows)%nat -> r1cs_check (dummy_r1cs x_len wit_len rows) z = Panic).
Proof.
  intros Hz. split; intros Hr.
  - assert (wf_r1cs (length z) rows (dummy_r1cs x_len wit_len rows)) as W.
    { pose proof (diag_wf (fun _ => 1) rows (length z) ltac:(lia)) as D. rewrite Hz in *. repeat split; apply D. }
    rewrite (first_bad_ok _ _ _ (r1cs_check_spec _ z rows W)).
    assert (forall i, (i < rows)%nat -> (r1cs_row (dummy_r1cs x_len wit_len rows) z i <-> nth i z 0 * nth i z 0 = nth i z 0)) as E.
    { intros i Hi. unfold r1cs_row, dummy_r1cs. cbn [r_A r_B r_C]. change (dummy_identity rows ?n) with (diag (fun _ => 1) rows n).
      rewrite diag_mz by lia. rewrite (proj2 (Nat.ltb_lt i rows)) by lia. replace (1 * nth i z 0) with (nth i z 0) by ring. reflexivity. }
    split; intros H i Hi.
    + apply E; [exact Hi|]. destruct (req (mz (r_A (dummy_r1cs x_len wit_len rows)) z i * mz (r_B (dummy_r1cs x_len wit_len rows)) z i) (mz (r_C (dummy_r1cs x_len wit_len rows)) z i)) eqn:Q;
        [apply req_true in Q; exact Q|]. exfalso. apply (H i Hi). intros Q'. unfold r1cs_row in Q'. rewrite Q', req_refl in Q. discriminate Q.
    + intros N. apply N, E; auto.
  - unfold r1cs_check, dummy_r1cs. cbn [r_A]. change (dummy_identity rows ?n) with (diag (fun _ => 1) rows n). rewrite diag_panics by lia. reflexivity.
Qed.
(** The vector that goes with it, in the order in which the folding scheme puts it together, and the system made from it. *)
Definition joined (s : R * list R * list R) : list R := snd (fst s) ++ [fst (fst s)] ++ snd s.
Theorem C124_dummy_satisfied x_len wit_len rows W L : (rows <= x_len + wit_len + 1)%nat -> (rows <= W)%nat -> (1 <= x_len + wit_len)%nat ->
  let z := joined (dummy_z_split x_len wit_len) in
  length z = (x_len + wit_len + 1)%nat /\ r1cs_check (dummy_r1cs x_len wit_len rows) z = Ok tt /\
  exists cs, ccs_from_r1cs_padded (dummy_r1cs x_len wit_len rows) W L = Ok cs /\ sanity_check cs L = Ok tt /\ ccs_check cs z = Ok tt.
Proof.
  intros H1 H2 H3 z.
  assert (z = repeat 1 (x_len + wit_len + 1)) as Ez.
  { unfold z, joined, dummy_z_split. cbn [fst snd]. change [1 : R] with (repeat (1 : R) 1). rewrite <- !repeat_app. f_equal. lia. }
  assert (length z = (x_len + wit_len + 1)%nat) as Lz by (rewrite Ez, repeat_length; reflexivity).
  assert (r1cs_check (dummy_r1cs x_len wit_len rows) z = Ok tt) as E.
  { apply (C124_dummy x_len wit_len rows z Lz); [exact H1|]. intros i Hi. rewrite Ez, (nth_indep _ 0 1) by (rewrite repeat_length; lia). rewrite nth_repeat. ring. }
  split; [exact Lz|]. split; [exact E|].
  assert (wf_r1cs (length z) rows (dummy_r1cs x_len wit_len rows)) as WF.
  { pose proof (diag_wf (fun _ => 1) rows (length z) ltac:(lia)) as D. rewrite Lz in *. repeat split; apply D. }
  destruct (from_r1cs_padded_spec _ z rows W L WF ltac:(cbn [dummy_r1cs r_l]; lia)) as (cs & C1 & _ & _ & _ & _ & C2 & _ & C3 & _ & C4).
  exists cs. split; [exact C1|]. split; [exact C3|]. rewrite C4 by lia. exact E.
Qed.
(** The system made for a given vector: it is satisfied by it and by whatever agrees with it in the first places. *)
Theorem C124_non_scalar x_len wit_len rows (w z : list R) : (rows <= x_len + wit_len + 1)%nat -> length z = (x_len + wit_len + 1)%nat ->
  (length w <> rows -> dummy_r1cs_non_scalar x_len wit_len rows w = Panic) /\
  (length w = rows -> exists r, dummy_r1cs_non_scalar x_len wit_len rows w = Ok r /\
     (r1cs_check r z = Ok tt <-> forall i, (i < rows)%nat -> nth i z 0 * nth i z 0 = nth i w 0 * nth i z 0) /\
     (firstn rows z = w -> r1cs_check r z = Ok tt)).
Proof.
  intros Hr Hz. unfold dummy_r1cs_non_scalar, dummy_squaring. split; intros Hw.
  - rewrite (proj2 (Nat.eqb_neq rows (length w))) by lia. reflexivity.
  - rewrite Hw, Nat.eqb_refl. cbn [negb bind]. eexists. split; [reflexivity|].
    match goal with |- context [r1cs_check ?r z] => set (q := r) end.
    assert (wf_r1cs (length z) rows q) as W.
    { pose proof (diag_wf (fun _ => 1) rows (length z) ltac:(lia)) as D. pose proof (diag_wf (fun i => nth i w 0) rows (length z) ltac:(lia)) as D'. rewrite Hz in *. repeat split; (apply D || apply D'). }
    assert (r1cs_check q z = Ok tt <-> forall i, (i < rows)%nat -> nth i z 0 * nth i z 0 = nth i w 0 * nth i z 0) as E.
    { rewrite (first_bad_ok _ _ _ (r1cs_check_spec _ z rows W)).
      assert (forall i, (i < rows)%nat -> (r1cs_row q z i <-> nth i z 0 * nth i z 0 = nth i w 0 * nth i z 0)) as E.
      { intros i Hi. unfold r1cs_row, q. cbn [r_A r_B r_C]. change (dummy_identity rows ?n) with (diag (fun _ => 1) rows n).
        change (SMat rows ?n _) with (diag (fun i => nth i w 0) rows n). rewrite !diag_mz by lia. rewrite (proj2 (Nat.ltb_lt i rows)) by lia.
        replace (1 * nth i z 0) with (nth i z 0) by ring. reflexivity. }
      split; intros H i Hi.
      - apply E; [exact Hi|]. destruct (req (mz (r_A q) z i * mz (r_B q) z i) (mz (r_C q) z i)) eqn:Q; [apply req_true in Q; exact Q|].
        exfalso. apply (H i Hi). intros Q'. unfold r1cs_row in Q'. rewrite Q', req_refl in Q. discriminate Q.
      - intros N. apply N, E; auto. }
    split; [exact E|]. intros Hf. apply E. intros i Hi. rewrite <- Hf, nth_firstn_lt by lia. reflexivity.
Qed.
(** The same with a system of degree three. *)
Theorem C124_degree_three x_len n wit_len L rows (w z : list R) : (rows <= x_len + wit_len + 1)%nat -> length z = (x_len + wit_len + 1)%nat -> (1 <= x_len + wit_len)%nat ->
  (length w <> rows -> dummy_degree_three w x_len n wit_len L rows = Panic) /\
  (length w = rows -> exists cs, dummy_degree_three w x_len n wit_len L rows = Ok cs /\ c_n cs = length z /\ (n <= c_m cs)%nat /\ sanity_check cs L = Ok tt /\
     (firstn rows z = w -> ccs_check cs z = Ok tt)).
Proof.
  intros Hr Hz Hx. unfold dummy_degree_three, dummy_cubing. split; intros Hw.
  - rewrite (proj2 (Nat.eqb_neq rows (length w))) by lia. reflexivity.
  - rewrite Hw, Nat.eqb_refl. cbn [negb bind]. set (cs0 := Ccs _ _ _ _ _ _ _ _ _ _ _ : ccs R).
    change (c_n cs0) with (x_len + wit_len + 1)%nat. change (c_l cs0) with 1%nat. change (c_m cs0) with n. rewrite (proj2 (Nat.leb_gt (x_len + wit_len + 1) 1)) by lia.
    set (mx := Nat.max ((x_len + wit_len + 1 - 1 - 1) * L) n). eexists. split; [reflexivity|]. set (cs := pad_rows_to cs0 (next_pow2 mx)).
    assert (wf_ccs cs0) as W.
    { pose proof (diag_wf (fun _ => 1) rows (length z) ltac:(lia)) as D. pose proof (diag_wf (fun i => nth i w 0 * nth i w 0) rows (length z) ltac:(lia)) as D'. rewrite Hz in D, D'.
      unfold wf_ccs. cbn [cs0 c_M c_t c_S c_q c_c c_n length]. split; [reflexivity|]. split; [reflexivity|]. split; [reflexivity|]. split.
      - repeat (apply Forall_cons); [exact D|exact D|exact D|exact D'|apply Forall_nil].
      - repeat (apply Forall_cons || apply Forall_nil || lia). }
    assert (n <= mx <= next_pow2 mx)%nat as Hm.
    { split; [unfold mx; lia|apply next_pow2_ge]. }
    assert (c_m cs = next_pow2 mx /\ c_n cs = (x_len + wit_len + 1)%nat /\ c_l cs = 1%nat) as (E1 & E2 & E3).
    { unfold cs, pad_rows_to. rewrite next_pow2_idem. change (c_m cs0) with n. destruct (Nat.ltb_spec n (next_pow2 mx)); cbn [c_m c_n c_l cs0]; [auto|]. split; [lia|auto]. }
    split; [rewrite E2, Hz; reflexivity|]. split; [lia|]. split.
    + unfold sanity_check. rewrite E1, E2, E3, (proj2 (Nat.leb_gt (x_len + wit_len + 1) 1)) by lia.
      assert (next_pow2 (Nat.max ((x_len + wit_len + 1 - 1 - 1) * L) (next_pow2 mx)) = next_pow2 mx) as ->; [|rewrite Nat.eqb_refl; reflexivity].
      rewrite Nat.max_r by (unfold mx in *; lia). apply next_pow2_idem.
    + intros Hf. apply (first_bad_ok _ _ _ (ccs_check_spec cs z (wf_pad_rows_to _ _ W) ltac:(lia))). intros i Hi N. apply N. unfold cs. rewrite (ccs_row_pad cs0 _ z i W).
      unfold ccs_row. cbn [cs0 c_q c_c c_M c_S]. change (dummy_identity rows ?n) with (diag (fun _ => 1) rows n).
      change (SMat rows ?n (map (fun i => [(nth i w 0 * nth i w 0, i)]) _)) with (diag (fun i => nth i w 0 * nth i w 0) rows n).
      cbn [sumn nth map lprod fold_right]. rewrite !diag_mz by lia. destruct (Nat.ltb_spec i rows) as [Hi'|Hi']; [|ring].
      replace (nth i w 0) with (nth i z 0) by (rewrite <- Hf, nth_firstn_lt by lia; reflexivity). ring.
Qed.
(** The other recorded sizes are right: number of matrices and multisets, degree (largest multiset), rows (the least power of two that
    holds n and the decomposed witness of a system with one input) and number of variables. *)
Theorem C124_sizes x_len n wit_len L rows (w : list R) cs : (rows <= x_len + wit_len + 1)%nat ->
  dummy_degree_three w x_len n wit_len L rows = Ok cs ->
  wf_ccs cs /\ c_t cs = length (c_M cs) /\ c_q cs = length (c_S cs) /\ c_d cs = list_max (map (@length nat) (c_S cs)) /\
  c_n cs = (x_len + wit_len + 1)%nat /\ c_l cs = 1%nat /\ c_m cs = (2 ^ c_s cs)%nat /\
  (n <= c_m cs)%nat /\ ((x_len + wit_len - 1) * L <= c_m cs)%nat /\
  (forall k, (n <= 2 ^ k)%nat -> ((x_len + wit_len - 1) * L <= 2 ^ k)%nat -> (c_m cs <= 2 ^ k)%nat).
Proof.
  intros Hr. unfold dummy_degree_three, dummy_cubing. destruct (Nat.eqb_spec rows (length w)) as [Hw|]; [|discriminate]. cbn [negb bind]. set (cs0 := Ccs _ _ _ _ _ _ _ _ _ _ _ : ccs R).
  change (c_n cs0) with (x_len + wit_len + 1)%nat. change (c_l cs0) with 1%nat. change (c_m cs0) with n. destruct (Nat.leb_spec (x_len + wit_len + 1) 1) as [|Hx]; [discriminate|].
  intros E. injection E as <-. replace (x_len + wit_len + 1 - 1 - 1)%nat with (x_len + wit_len - 1)%nat by lia. set (mx := Nat.max ((x_len + wit_len - 1) * L) n).
  assert (wf_ccs cs0) as W.
  { pose proof (diag_wf (fun _ => 1) rows (x_len + wit_len + 1) ltac:(lia)) as D. pose proof (diag_wf (fun i => nth i w 0 * nth i w 0) rows (x_len + wit_len + 1) ltac:(lia)) as D'.
    unfold wf_ccs. cbn [cs0 c_M c_t c_S c_q c_c c_n length]. split; [reflexivity|]. split; [reflexivity|]. split; [reflexivity|]. split.
    - repeat (apply Forall_cons); [exact D|exact D|exact D|exact D'|apply Forall_nil].
    - repeat (apply Forall_cons || apply Forall_nil || lia). }
  pose proof (next_pow2_ge mx) as Hge. pose proof (ark_log2_next_pow2 mx) as Hlog.
  split; [apply wf_pad_rows_to, W|]. unfold pad_rows_to. rewrite next_pow2_idem. change (c_m cs0) with n.
  assert (forall k, (n <= 2 ^ k)%nat -> ((x_len + wit_len - 1) * L <= 2 ^ k)%nat -> (next_pow2 mx <= 2 ^ k)%nat) as HL by (intros k H1 H2; apply next_pow2_least; unfold mx; lia).
  destruct (Nat.ltb_spec n (next_pow2 mx)) as [Hn|Hn]; cbn [c_t c_M c_q c_S c_d c_n c_l c_m c_s cs0 map length list_max fold_right]; rewrite ?map_length; repeat (split; [reflexivity|]).
  - split; [symmetry; exact Hlog|]. split; [unfold mx in *; lia|]. split; [unfold mx in *; lia|exact HL].
  - assert (n = next_pow2 mx) as En by (unfold mx in *; lia). split; [rewrite En; symmetry; exact Hlog|]. split; [lia|]. split; [unfold mx in *; lia|]. intros k H1 _. exact H1.
Qed.
(** The number of inputs recorded in the system is 1 whatever it was made for. *)
Theorem C124_inputs_refuted : exists x_len wit_len rows, r_l (dummy_r1cs x_len wit_len rows : r1cs R) <> x_len.
Proof. exists 2%nat, 4%nat, 4%nat. cbn [dummy_r1cs r_l]. discriminate. Qed.
(** So without inputs the size check lets through a system with fewer rows than the decomposed witness has entries. *)
Theorem C124_no_inputs_refuted : exists wit_len rows W L (cs : ccs R),
  ccs_from_r1cs_padded (dummy_r1cs 0 wit_len rows) W L = Ok cs /\ sanity_check cs L = Ok tt /\ (c_m cs < wit_len * L)%nat.
Proof. exists 5%nat, 4%nat, 4%nat, 1%nat. eexists. split; [vm_compute; reflexivity|]. split; [vm_compute; reflexivity|]. cbn [c_m]. lia. Qed.
(** [s_prime], documented as log n (arith.rs 66-67), is n in the system of degree three. *)
Theorem C124_s_prime_refuted : exists (w : list R) x_len n wit_len L rows cs,
  dummy_degree_three w x_len n wit_len L rows = Ok cs /\ c_n cs = 8%nat /\ c_sp cs = 8%nat /\ ark_log2 (c_n cs) = 3%nat.
Proof. exists [1; 1; 1; 1], 1%nat, 8%nat, 6%nat, 1%nat, 4%nat. eexists. split; [vm_compute; reflexivity|]. repeat split; reflexivity. Qed.

(** The small system of degree three: [x; 1; x^3; x^3 + x; x^3 + x + 5] for every ring element x. *)
Lemma degree_three_any (x : R) : ccs_check degree_three_ccs [x; 1; x * x * x; x * x * x + x; x * x * x + x + rofZ 5] = Ok tt.
Proof.
  assert (wf_ccs (degree_three_ccs : ccs R)) as W.
  { unfold wf_ccs, wf_mat, degree_three_ccs. cbn. repeat split; repeat constructor. }
  apply (first_bad_ok _ _ _ (ccs_check_spec degree_three_ccs [x; 1; x * x * x; x * x * x + x; x * x * x + x + rofZ 5] W eq_refl)).
  intros i Hi N. apply N. clear N W. change (c_m degree_three_ccs) with 3%nat in Hi.
  destruct i as [|[|[|i]]]; [| | |lia]; unfold ccs_row, mz, mat_entry, degree_three_ccs, sparse_of; cbn [c_q c_c c_M c_S nth map length hd seq filter Z.eqb negb sumn lprod fold_right m_coeffs fst snd Nat.eqb lsum]; change (rofZ 1 : R) with (1 : R); ring.
Qed.
Lemma cubic_any (x : R) : r1cs_check cubic_r1cs [x; 1; x * x * x + x + rofZ 5; x * x; x * x * x; x * x * x + x] = Ok tt.
Proof.
  assert (wf_r1cs 6 4 (cubic_r1cs : r1cs R)) as W.
  { unfold wf_r1cs, wf_mat, cubic_r1cs. cbn. repeat split; repeat constructor. }
  apply (first_bad_ok _ _ _ (r1cs_check_spec cubic_r1cs [x; 1; x * x * x + x + rofZ 5; x * x; x * x * x; x * x * x + x] 4 W)).
  intros i Hi N. apply N. clear N W.
  destruct i as [|[|[|[|i]]]]; [| | | |lia]; unfold r1cs_row, mz, mat_entry, cubic_r1cs, sparse_of; cbn [r_A r_B r_C nth map length hd seq filter Z.eqb negb sumn m_coeffs fst snd Nat.eqb lsum fold_right]; change (rofZ 1 : R) with (1 : R); ring.
Qed.
(** The sizes recorded in the two small systems. *)
Theorem C124_small_sizes (cs := degree_three_ccs : ccs R) : wf_ccs cs /\ c_d cs = list_max (map (@length nat) (c_S cs)) /\
  (forall M, In M (c_M cs) -> m_nrows M = c_m cs) /\ c_s cs = Nat.log2_up (c_m cs) /\ c_sp cs = Nat.log2_up (c_n cs) /\ c_l cs = 1%nat /\
  wf_r1cs 6 4 (cubic_r1cs : r1cs R) /\ r_l (cubic_r1cs : r1cs R) = 1%nat.
Proof.
  assert (wf_ccs cs) as W1. { unfold wf_ccs, wf_mat, cs, degree_three_ccs. cbn. repeat split; repeat constructor. }
  assert (wf_r1cs 6 4 (cubic_r1cs : r1cs R)) as W2. { unfold wf_r1cs, wf_mat, cubic_r1cs. cbn. repeat split; repeat constructor. }
  split; [exact W1|]. split; [reflexivity|]. split; [intros M [<-|[<-|[<-|[<-|[]]]]]; reflexivity|]. split; [reflexivity|]. split; [reflexivity|]. split; [reflexivity|]. split; [exact W2|reflexivity].
Qed.
(** The public vectors for x^3 + x + 5, whole and split; inputs that overflow panic. *)
Theorem C124_vitalik input : (0 <= input)%Z ->
  ((input ^ 3 + input + 5 < 2 ^ 64)%Z -> exists z s : _, (cubic_z input : result (list R)) = Ok z /\ r1cs_check cubic_r1cs z = Ok tt /\
     nth 2 z 0 = rofZ (input ^ 3 + input + 5) /\ split_z z = Ok s /\ snd (fst s) = [rofZ input] /\ joined s = z) /\
  ((2 ^ 64 <= input ^ 3 + input + 5)%Z -> (cubic_z input : result (list R)) = Panic).
Proof.
  intros H0. unfold cubic_z, usize_ok. replace (input ^ 3)%Z with (input * input * input)%Z by ring. assert (0 <= input * input * input)%Z by nia. split; intros H1.
  - rewrite (proj2 (Z.ltb_lt (input * input * input) _)) by lia. cbn [bind]. rewrite (proj2 (Z.ltb_lt (input * input * input + input) _)) by lia. cbn [bind].
    rewrite (proj2 (Z.ltb_lt (input * input * input + input + 5) _)) by lia. cbn [bind]. eexists. eexists. split; [reflexivity|].
    split; [|split; [reflexivity|split; [reflexivity|split; reflexivity]]].
    cbn [map]. rewrite !rofZ_add, !rofZ_mul. exact (cubic_any (rofZ input)).
  - destruct (Z.ltb_spec (input * input * input) (2 ^ 64)); [|reflexivity]. cbn [bind]. destruct (Z.ltb_spec (input * input * input + input) (2 ^ 64)); [|reflexivity]. cbn [bind].
    destruct (Z.ltb_spec (input * input * input + input + 5) (2 ^ 64)); [lia|reflexivity].
Qed.
Theorem C124_cubic input : (0 <= input)%Z ->
  ((input ^ 3 + input + 5 < 2 ^ 64)%Z -> exists z : list R, degree_three_z input = Ok z /\ z = map rofZ [input; 1; input ^ 3; input ^ 3 + input; input ^ 3 + input + 5]%Z /\ ccs_check degree_three_ccs z = Ok tt) /\
  ((2 ^ 64 <= input ^ 3 + input + 5)%Z -> (degree_three_z input : result (list R)) = Panic).
Proof.
  intros H0. unfold degree_three_z, usize_ok. replace (input ^ 3)%Z with (input * input * input)%Z by ring. assert (0 <= input * input * input)%Z by nia. split; intros H1.
  - rewrite (proj2 (Z.ltb_lt (input * input * input) _)) by lia. cbn [bind]. rewrite (proj2 (Z.ltb_lt (input * input * input + input) _)) by lia. cbn [bind].
    rewrite (proj2 (Z.ltb_lt (input * input * input + input + 5) _)) by lia. cbn [bind]. eexists. split; [reflexivity|]. split; [reflexivity|].
    cbn [map]. rewrite !rofZ_add, !rofZ_mul. exact (degree_three_any (rofZ input)).
  - destruct (Z.ltb_spec (input * input * input) (2 ^ 64)); [|reflexivity]. cbn [bind]. destruct (Z.ltb_spec (input * input * input + input) (2 ^ 64)); [|reflexivity]. cbn [bind].
    destruct (Z.ltb_spec (input * input * input + input + 5) (2 ^ 64)); [lia|reflexivity].
Qed.
End D.

Section N.
Context {F K C R : Type} {SO : SOps F K C R} {p : Z} {SL : SLaws F K C R p}.
Lemma slots_ext41 (x y : R) : slots x = slots y -> x = y.
Proof. intros H. rewrite <- (of_slots_slots x), H. apply of_slots_slots. Qed.
(** One number per slot. *)
Lemma slotwise (g := fun f : Z -> Z => of_slots (map (fun i => rofZ (f (Z.of_nat i))) (seq 0 dimN)) : R) :
  (forall f h : Z -> Z, g (fun x => f x * h x)%Z = g f * g h) /\ (forall f h : Z -> Z, g (fun x => f x + h x)%Z = g f + g h) /\ (forall c : Z, g (fun _ => c) = rofZ c).
Proof.
  split; [|split].
  - intros f h. apply slots_ext41. rewrite slots_mul. unfold g. rewrite !slots_of by (rewrite map_length, seq_length; reflexivity).
    generalize (seq 0 dimN). induction l as [|a l IH]; [reflexivity|]. cbn [map zipw]. rewrite rofZ_mul, IH. reflexivity.
  - intros f h. apply slots_ext41. rewrite slots_add. unfold g. rewrite !slots_of by (rewrite map_length, seq_length; reflexivity).
    generalize (seq 0 dimN). induction l as [|a l IH]; [reflexivity|]. cbn [map zipw]. rewrite rofZ_add, IH. reflexivity.
  - intros c. apply slots_ext41. unfold g. rewrite slots_of by (rewrite map_length, seq_length; reflexivity). replace (rofZ c : R) with (emb (rofZ c : K) : R) by apply (hom_ofZ _ emb_hom). rewrite slots_emb.
    generalize dimN. intros n. generalize 0%nat. induction n; intros s; [reflexivity|]. cbn [seq map repeat]. rewrite IHn. reflexivity.
Qed.
Theorem C124_cubic_slots : ccs_check degree_three_ccs (degree_three_z_non_scalar : list R) = Ok tt /\ r1cs_check cubic_r1cs (cubic_z_ntt : list R) = Ok tt.
Proof.
  destruct slotwise as (GM & GA & GC). set (g := fun f : Z -> Z => of_slots (map (fun i => rofZ (f (Z.of_nat i))) (seq 0 dimN)) : R) in *.
  assert (g (fun x => x * x)%Z = g (fun x => x) * g (fun x => x)) as E2 by exact (GM (fun x => x) (fun x => x)).
  assert (g (fun x => x * x * x)%Z = g (fun x => x) * g (fun x => x) * g (fun x => x)) as E3 by (rewrite <- E2; exact (GM (fun x => x * x)%Z (fun x => x))).
  assert (g (fun x => x * x * x + x)%Z = g (fun x => x) * g (fun x => x) * g (fun x => x) + g (fun x => x)) as E4 by (rewrite <- E3; exact (GA (fun x => x * x * x)%Z (fun x => x))).
  assert (g (fun x => x * x * x + x + 5)%Z = g (fun x => x) * g (fun x => x) * g (fun x => x) + g (fun x => x) + rofZ 5) as E5 by (rewrite <- E4, <- (GC 5%Z); exact (GA (fun x => x * x * x + x)%Z (fun _ => 5%Z))).
  assert (g (fun _ => 1%Z) = rofZ 1) as E1 by exact (GC 1%Z).
  split.
  - change (ccs_check degree_three_ccs [g (fun x => x); g (fun _ => 1%Z); g (fun x => x * x * x)%Z; g (fun x => x * x * x + x)%Z; g (fun x => x * x * x + x + 5)%Z] = Ok tt).
    rewrite E5, E4, E3, E1. exact (degree_three_any (g (fun x => x))).
  - change (r1cs_check cubic_r1cs [g (fun x => x); g (fun _ => 1%Z); g (fun x => x * x * x + x + 5)%Z; g (fun x => x * x)%Z; g (fun x => x * x * x)%Z; g (fun x => x * x * x + x)%Z] = Ok tt).
    rewrite E5, E4, E3, E2, E1. exact (cubic_any (g (fun x => x))).
Qed.
(** The vector with the numbers of the slots as entries, and the two systems made for it. *)
Theorem C124_slots x_len n wit_len L : (1 <= x_len + wit_len)%nat ->
  let z := joined (dummy_z_split_ntt x_len wit_len : R * list R * list R) in let rows := (x_len + wit_len + 1)%nat in
  length z = rows /\
  (forall i s, (x_len < i < rows)%nat -> (s < dimN)%nat -> nth s (slots (nth i z 0)) 0 = rofZ (Z.of_nat s)) /\
  (exists r, dummy_r1cs_non_scalar x_len wit_len rows z = Ok r /\ r1cs_check r z = Ok tt) /\
  (exists cs, dummy_degree_three z x_len n wit_len L rows = Ok cs /\ sanity_check cs L = Ok tt /\ ccs_check cs z = Ok tt).
Proof.
  intros Hx z rows. assert (length z = rows) as Lz. { unfold z, joined, dummy_z_split_ntt. cbn [fst snd]. rewrite !app_length, !repeat_length. cbn [length]. unfold rows. lia. }
  assert (firstn rows z = z) as Fz by (rewrite <- Lz; apply firstn_all).
  split; [exact Lz|]. split; [|split].
  - intros i s Hi Hs. unfold z, joined, dummy_z_split_ntt. cbn [fst snd]. rewrite app_nth2, repeat_length by (rewrite repeat_length; lia).
    rewrite app_nth2 by (cbn [length]; lia). cbn [length]. set (e := of_slots _ : R). rewrite (nth_indep _ (0 : R) e) by (rewrite repeat_length; unfold rows in Hi; lia).
    rewrite nth_repeat. unfold e. rewrite slots_of by (rewrite map_length, seq_length; reflexivity). rewrite nth_seq_map by exact Hs. reflexivity.
  - destruct (proj2 (C124_non_scalar x_len wit_len rows z z ltac:(unfold rows; lia) Lz) Lz) as (r & E & _ & H). exists r. auto.
  - destruct (proj2 (C124_degree_three x_len n wit_len L rows z z ltac:(unfold rows; lia) Lz Hx) Lz) as (cs & E & _ & _ & S & H). exists cs. auto.
Qed.
End N.
