(** Final statements, part 2: decomposition, folding, and the folding scheme as a whole.
    Proofs are one-line references. *)
From Coq Require Import String List Arith Lia ZArith Bool Ring.
From Verif Require Import Prelude Alg Poly MLE MLE_Proofs Transcript Interp Sumcheck Sumcheck_Proofs
  Arith Arith_Proofs Balanced Rings Rings_Proofs Linearization Linearization_Proofs Relations LinRel
  Decomposition Decomposition_Proofs Folding Folding_Comb Folding_Proofs Folding_Complete Folding_Sound NIFS NIFS_Proofs.
Import ListNotations.
Local Open Scope rs_scope.

Section P2.
Context {F K C R T : Type} {SO : SOps F K C R} {p : Z} {SL : SLaws F K C R p} {TO : TransOps T R K} {HO : ShortOps T C}.

(** * C22-C24: decomposition *)
Theorem C22_decomposition_complete (P : dparams) (A : ajtai R) (cs : ccs R) (lc : lcccs R) (w : witness C R) (ts : T) :
  sizes_ok p P cs -> lcccs_rel P A cs lc w -> Forall (in_range P) (w_fc w) ->
  exists mzs lcs wits pf ts',
    dec_prove P lc w ts cs A = Ok (mzs, lcs, wits, pf, ts') /\
    dec_verify P lc pf ts = Ok (lcs, ts') /\
    length lcs = dp_K P /\ length wits = dp_K P /\
    Forall2 (lcccs_rel P A cs) lcs wits /\
    Forall (wit_norm (Z.of_nat (dp_b P) / 2)) wits /\
    Forall (fun lc' => lc_r lc' = lc_r lc) lcs /\
    mzs = zipw (fun lc' w' => map (Mz_mle (c_s cs) (lcccs_z lc' (w_ccs w'))) (c_M cs)) lcs wits /\
    (length (dp_us pf) = dp_K P /\ length (dp_vs pf) = dp_K P /\ length (dp_xs pf) = dp_K P /\ length (dp_ys pf) = dp_K P).
Proof. exact (decomposition_complete P A cs lc w ts). Qed.

Theorem C23_decomposition_sound (P : dparams) (A : ajtai R) (cs : ccs R) (lc : lcccs R) (pf : dec_proof R) (ts : T)
    (lcs : list (lcccs R)) (ts' : T) (wits : list (witness C R)) :
  (1 <= dp_L P)%nat ->
  length (dp_us pf) = dp_K P -> length (dp_vs pf) = dp_K P -> length (dp_xs pf) = dp_K P -> length (dp_ys pf) = dp_K P ->
  dec_verify P lc pf ts = Ok (lcs, ts') ->
  Forall2 (lcccs_rel P A cs) lcs wits ->
  length lcs = dp_K P /\ lcccs_rel P A cs lc (wsum P ((c_n cs - c_l cs - 1) * dp_L P) wits).
Proof. exact (decomposition_sound P A cs lc pf ts lcs ts' wits). Qed.
Theorem C23_norm (P : dparams) n (wits : list (witness C R)) (B : Z) :
  (2 <= dp_b P)%nat -> (0 <= B)%Z -> length wits = dp_K P -> Forall (wit_norm B) wits ->
  exists G : Z, ((Z.of_nat (dp_b P) - 1) * G = Z.of_nat (dp_b P) ^ Z.of_nat (dp_K P) - 1)%Z /\
    wit_norm (G * B) (wsum P n wits).
Proof. exact (wsum_norm P n wits B). Qed.

(** C24 fails in both directions: any further component is accepted unchecked, and fewer than K
    components are accepted. *)
Theorem C24_extra_component (P : dparams) (lc : lcccs R) (pf : dec_proof R) (ts : T) lcs ts' n (x y u v : list R) :
  (1 <= dp_K P <= n)%nat -> length (dp_us pf) = n -> length (dp_vs pf) = n -> length (dp_xs pf) = n -> length (dp_ys pf) = n ->
  dec_verify P lc pf ts = Ok (lcs, ts') -> x <> [] ->
  exists ts'', dec_verify P lc (DecProof (dp_us pf ++ [u]) (dp_vs pf ++ [v]) (dp_xs pf ++ [x]) (dp_ys pf ++ [y])) ts =
    Ok (lcs ++ [Lcccs (lc_r lc) v y u (removelast x) (last x 0)], ts'').
Proof. exact (dec_extra_component P lc pf ts lcs ts' n x y u v). Qed.
Theorem C24_single_component (P : dparams) (lc : lcccs R) (ts : T) : (1 <= dp_K P)%nat ->
  exists ts', dec_verify P lc (DecProof [lc_u lc] [lc_v lc] [lc_x lc ++ [lc_h lc]] [lc_cm lc]) ts = Ok ([lc], ts').
Proof. exact (dec_trivial_proof P lc ts). Qed.

(** * C28-C32: folding *)
(** Slotwise, and for packed coefficients. *)
Theorem C28_range_polynomial b (x : R) : (1 <= b)%nat ->
  range_poly b x = 0 <->
  forall s, (s < dimN)%nat -> exists z, (Z.abs z < Z.of_nat b)%Z /\ sl s x = rofZ z.
Proof. exact (range_poly_zero_iff b x). Qed.
Theorem C28_range_coefficients b (c : C) : (1 <= b)%nat -> (2 * Z.of_nat b <= p + 1)%Z ->
  (forall j, (j < tau)%nat -> range_poly b (hat j c) = 0) <-> cnorm_le (Z.of_nat b - 1) c.
Proof. exact (range_poly_hat b c). Qed.

Theorem C29_final_check P (alpha mu : list R) (theta : list (list R)) (estar e1 e2 : R) (zeta : list R) (eta : list (list R)) :
  length alpha = (2 * dp_K P)%nat -> length mu = (2 * dp_K P)%nat -> length zeta = (2 * dp_K P)%nat ->
  length theta = (2 * dp_K P)%nat -> length eta = (2 * dp_K P)%nat ->
  Forall (fun th => length th = tau) theta ->
  let part lo := sumn (dp_K P) (fun i => pow_sum (nth (lo + i) alpha 0) (nth (lo + i) theta [])
                                       + pow_sum (nth (lo + i) zeta 0) (nth (lo + i) eta [])) in
  expected_value P alpha mu theta estar (repeat e1 (dp_K P) ++ repeat e2 (dp_K P)) zeta eta =
  Ok (fold_comb P mu ([e1; part 0%nat; e2; part (dp_K P); estar] ++ concat theta)).
Proof. exact (final_check_agrees P alpha mu theta estar e1 e2 zeta eta). Qed.

(** C30 and C31: acceptance, and the output is opened by the folded witness, whose coefficients are
    the combination of the input witnesses by 2K-1 short challenges and 1. *)
Theorem C30_folding_complete P (A : ajtai R) (cs : ccs R) cms (ws : list (witness C R)) (ts : T) r1 r2 :
  sizes_ok p P cs -> char_gt K (2 * dp_b P) -> (2 * Z.of_nat (dp_b P) <= p + 1)%Z ->
  halves lc_r (dp_K P) cms r1 r2 -> Forall2 (lcccs_rel P A cs) cms ws ->
  Forall (wit_norm (Z.of_nat (dp_b P) - 1)) ws ->
  let mzs := zipw (fun lc w => map (Mz_mle (c_s cs) (lcccs_z lc (w_ccs w))) (c_M cs)) cms ws in
  exists lc w pf ts' rs rho,
    fold_prove P cms ws ts cs mzs = Ok (lc, w, pf, ts') /\
    fold_verify P cms pf ts cs = Ok (lc, ts') /\
    lcccs_rel P A cs lc w /\ lc_r lc = map emb rs /\
    (length rho = (2 * dp_K P - 1)%nat /\ Forall drawn rho) /\
    is_lin (2 * dp_K P) (fun i => nth i (rho ++ [1]) 0) (fun i => w_fc (nth i ws (Witness [] [] [] []))) (w_fc w).
Proof. exact (folding_complete P A cs cms ws ts r1 r2). Qed.
Theorem C31_folded_output P (A : ajtai R) (cs : ccs R) cms (ws : list (witness C R)) (rho_c : list C) (rs : list K) k :
  (1 <= k)%nat -> (1 <= dp_L P)%nat -> wf_ccs cs -> (c_l cs + 1 < c_n cs)%nat -> length rs = c_s cs ->
  length rho_c = k -> length cms = k -> length ws = k ->
  Forall2 (fun lc w => opens P A cs (lc_cm lc) w /\ length (lc_x lc) = c_l cs) cms ws ->
  let r0 := map emb rs in
  exists f0 v0 cm0 u0 x0 lc,
    compute_f_0 (map crt rho_c) ws = Ok f0 /\
    fold_public rho_c (map crt rho_c) (map (fun w => vvec w r0) ws) cms (zipw (fun lc w => uvec cs lc w r0) cms ws) cs = Ok (v0, cm0, u0, x0) /\
    public_output r0 v0 cm0 u0 x0 = Ok lc /\
    lc_r lc = r0 /\ lcccs_rel P A cs lc (wit_from_f P f0) /\
    is_lin k (fun i => nth i rho_c 0) (fun i => w_fc (nth i ws (Witness [] [] [] []))) (w_fc (wit_from_f P f0 : witness C R)) /\
    is_lin k (fun i => nth i (map crt rho_c) 0) (fun i => lc_cm (nth i cms (Lcccs [] [] [] [] [] 0))) (lc_cm lc) /\
    is_lin k (fun i => nth i (map crt rho_c) 0)
      (fun i => lc_x (nth i cms (Lcccs [] [] [] [] [] 0)) ++ [lc_h (nth i cms (Lcccs [] [] [] [] [] 0))]) (lc_x lc ++ [lc_h lc]).
Proof. exact (fold_output P A cs cms ws rho_c rs k). Qed.

Theorem C32_folded_norm gamma k (rho : nat -> C) (fs : nat -> list C) f (A B : nat -> Z) :
  expansion gamma -> is_lin k rho fs f ->
  (forall i, (i < k)%nat -> cnorm_le (A i) (rho i)) -> (forall i, (i < k)%nat -> Forall (cnorm_le (B i)) (fs i)) ->
  Forall (cnorm_le (zsum k (fun i => Z.of_nat dimC * gamma * A i * B i)%Z)) f.
Proof. exact (folded_norm gamma k rho fs f A B). Qed.
Theorem C32_folded_norm_uniform gamma k (rho : list C) (ws : list (witness C R)) f A B :
  (1 <= k)%nat -> expansion gamma -> (1 <= A)%Z -> length rho = (k - 1)%nat -> length ws = k ->
  is_lin k (fun i => nth i (rho ++ [1]) 0) (fun i => w_fc (nth i ws (Witness [] [] [] []))) f ->
  Forall (cnorm_le A) rho -> Forall (wit_norm B) ws ->
  Forall (cnorm_le (Z.of_nat k * (Z.of_nat dimC * gamma * A * B))) f.
Proof. exact (folded_norm_uniform gamma k rho ws f A B). Qed.

(** * C34-C40: the folding scheme *)
Theorem C34_nifs_complete P (A : ajtai R) (cs : ccs R) acc (w_acc : witness C R) cm_i w_i (ts : T) :
  params_ok (p := p) P cs ->
  lcccs_rel P A cs acc w_acc -> Forall (in_range P) (w_fc w_acc) ->
  cccs_rel P A cs cm_i w_i -> Forall (in_range P) (w_fc w_i) ->
  exists lc w pf ts' rho ws,
    nifs_prove P acc w_acc cm_i w_i ts cs A = Ok (lc, w, pf, ts') /\
    nifs_verify P acc cm_i pf ts cs = Ok (lc, ts') /\
    lcccs_rel P A cs lc w /\
    length rho = (2 * dp_K P - 1)%nat /\ Forall drawn rho /\
    length ws = (2 * dp_K P)%nat /\ Forall (wit_norm (Z.of_nat (dp_b P) / 2)) ws /\
    is_lin (2 * dp_K P) (fun i => nth i (rho ++ [1]) 0) (fun i => w_fc (nth i ws (Witness [] [] [] []))) (w_fc w).
Proof. exact (nifs_complete_full P A cs acc w_acc cm_i w_i ts). Qed.

Theorem C35_chain P (A : ajtai R) (cs : ccs R) :
  params_ok (p := p) P cs -> folds_in_range P ->
  forall (steps : list (T * cccs R * witness C R)) acc (w : witness C R),
  lcccs_rel P A cs acc w -> Forall (in_range P) (w_fc w) ->
  Forall (fun st => cccs_rel P A cs (snd (fst st)) (snd st) /\ Forall (in_range P) (w_fc (snd st))) steps ->
  exists accs pfs,
    fold_chain_p P cs A acc w steps = Ok (accs, pfs) /\ length accs = length steps /\ length pfs = length steps /\
    fold_chain_v P cs acc (map fst steps) pfs = Ok (map fst accs) /\
    Forall (fun a => lcccs_rel P A cs (fst a) (snd a) /\ Forall (in_range P) (w_fc (snd a))) accs.
Proof. exact (nifs_chain P A cs). Qed.
(** A numerical condition on the parameters that suffices for the range hypothesis above. *)
Theorem C35_capacity P gamma S : (1 <= dp_K P)%nat ->
  expansion gamma -> (1 <= S)%Z -> (forall c : C, drawn c -> cnorm_le S c) -> capacity P gamma S -> folds_in_range P.
Proof. exact (capacity_in_range P gamma S). Qed.

(** C36 is false: for every incoming instance, openable or not, and every opened accumulator there
    is an accepted proof whose output is opened by a combination of pieces of the accumulator's
    witness alone. *)
Theorem C36_forgery P (A : ajtai R) (cs : ccs R) acc (w_acc : witness C R) (cm_i : cccs R) (ts : T) :
  params_ok (p := p) P cs -> Forall (fun s => s <> []) (c_S cs) ->
  lcccs_rel P A cs acc w_acc -> Forall (in_range P) (w_fc w_acc) ->
  exists pf lc w ts' rho ws,
    nifs_verify P acc cm_i pf ts cs = Ok (lc, ts') /\ lcccs_rel P A cs lc w /\
    length rho = (2 * dp_K P - 1)%nat /\ Forall drawn rho /\
    length ws = (2 * dp_K P)%nat /\ Forall (wit_norm (Z.of_nat (dp_b P) / 2)) ws /\
    is_lin (2 * dp_K P) (fun i => nth i (rho ++ [1]) 0) (fun i => w_fc (nth i ws (Witness [] [] [] []))) (w_fc w).
Proof. exact (nifs_forgery P A cs acc w_acc cm_i ts). Qed.
(** With K components in each decomposition proof the binding holds. *)
Theorem C36_binds_partial P (cs : ccs R) acc cm_i pf (ts : T) lc ts' k :
  (1 <= dp_K P)%nat -> dec_shape P cs (lf_dec_l pf) -> dec_shape P cs (lf_dec_r pf) ->
  Forall (fun y => length y = k) (dp_ys (lf_dec_l pf)) -> Forall (fun y => length y = k) (dp_ys (lf_dec_r pf)) ->
  nifs_verify P acc cm_i pf ts cs = Ok (lc, ts') ->
  let yl := dp_ys (lf_dec_l pf) in let yr := dp_ys (lf_dec_r pf) in
  exists rho : list C, length rho = (2 * dp_K P - 1)%nat /\ Forall drawn rho /\
    is_lin (dp_K P) (fun i => bw P i) (fun i => nth i yl []) (lc_cm acc) /\
    is_lin (dp_K P) (fun i => bw P i) (fun i => nth i yr []) (i_cm cm_i) /\
    is_lin (2 * dp_K P) (fun i => nth i (map crt (rho ++ [1])) 0) (fun i => nth i (yl ++ yr) []) (lc_cm lc).
Proof. exact (nifs_binds P cs acc cm_i pf ts lc ts' k). Qed.

Theorem C37_absorption_refuted (x y : R) (cm_i : cccs R) : exists acc acc' : lcccs R, acc <> acc' /\
  forall ts : T, absorb_public_input acc cm_i ts = absorb_public_input acc' cm_i ts.
Proof. exact (absorbed_not_inj x y cm_i). Qed.
Theorem C37_same_shape_partial (acc acc' : lcccs R) (cm_i cm_i' : cccs R) :
  (forall ts : T, absorb_public_input acc cm_i ts = absorb_slice ts (absorbed acc cm_i)) /\
  (length (lc_r acc) = length (lc_r acc') -> length (lc_v acc) = length (lc_v acc') ->
   length (lc_cm acc) = length (lc_cm acc') -> length (lc_u acc) = length (lc_u acc') ->
   length (lc_x acc) = length (lc_x acc') -> length (i_cm cm_i) = length (i_cm cm_i') ->
   absorbed acc cm_i = absorbed acc' cm_i' -> acc = acc' /\ cm_i = cm_i').
Proof. split; [intros ts; exact (absorb_public_input_spec acc cm_i ts)|exact (absorbed_inj acc cm_i acc' cm_i')]. Qed.

Theorem C39_no_panic_partial P (cs : ccs R) acc cm_i pf (ts : T) :
  (1 <= dp_K P)%nat -> (1 <= dp_b P)%nat -> wf_ccs cs -> (c_l cs < c_n cs)%nat -> (1 <= c_s cs)%nat ->
  char_gt K (c_d cs + 1) -> char_gt K (2 * dp_b P) -> nifs_shape P cs pf ->
  nifs_verify P acc cm_i pf ts cs <> Panic.
Proof. exact (nifs_no_panic P cs acc cm_i pf ts). Qed.

Theorem C40_transcripts_agree P (A : ajtai R) (cs : ccs R) acc (w_acc : witness C R) cm_i w_i (ts : T) :
  params_ok (p := p) P cs ->
  lcccs_rel P A cs acc w_acc -> Forall (in_range P) (w_fc w_acc) ->
  cccs_rel P A cs cm_i w_i -> Forall (in_range P) (w_fc w_i) ->
  exists lc w pf ts' log,
    nifs_prove (TO := log_trans) (HO := log_short) P acc w_acc cm_i w_i (ts, []) cs A = Ok (lc, w, pf, (ts', log)) /\
    nifs_verify (TO := log_trans) (HO := log_short) P acc cm_i pf (ts, []) cs = Ok (lc, (ts', log)).
Proof. exact (nifs_transcripts_agree P A cs acc w_acc cm_i w_i ts). Qed.

(** * C59-C61: soundness of folding and of the folding scheme *)
(** C59 is false for [tau >= 2]: instances whose last witness is antisymmetric are accepted. *)
Theorem C59_antisymmetric_accepted P (A : ajtai R) (cs : ccs R) cms (ws : list (witness C R)) (w : witness C R) (ts : T) r1 r2 :
  sizes_ok p P cs -> char_gt K (2 * dp_b P) -> (2 * Z.of_nat (dp_b P) <= p + 1)%Z -> (2 <= tau)%nat ->
  halves lc_r (dp_K P) cms r1 r2 -> Forall2 (lcccs_rel P A cs) cms (ws ++ [w]) ->
  Forall (wit_norm (Z.of_nat (dp_b P) - 1)) ws -> Forall antisym (w_fc w) ->
  let mzs := zipw (fun lc w => map (Mz_mle (c_s cs) (lcccs_z lc (w_ccs w))) (c_M cs)) cms (ws ++ [w]) in
  exists lc w' pf ts',
    fold_prove P cms (ws ++ [w]) ts cs mzs = Ok (lc, w', pf, ts') /\
    fold_verify P cms pf ts cs = Ok (lc, ts') /\ lcccs_rel P A cs lc w'.
Proof. exact (folding_accepts_antisym P A cs cms ws w ts r1 r2). Qed.

Theorem C60_folding_sound P (A : ajtai R) (cs : ccs R) cms (ws : list (witness C R)) r1 r2 (xs : list K) D :
  sizes_ok p P cs -> char_gt K (2 * dp_b P) -> (2 * Z.of_nat (dp_b P) <= p + 1)%Z ->
  halves lc_r (dp_K P) cms r1 r2 -> length r1 = c_s cs -> length r2 = c_s cs ->
  Forall2 (fun lc w => opens P A cs (lc_cm lc) w /\ length (lc_x lc) = c_l cs) cms ws ->
  NoDup xs -> (D < length xs)%nat -> (tau <= D)%nat -> (c_t cs <= D)%nat ->
  Forall (fun c => length (lc_v c) <= D /\ length (lc_u c) <= D)%nat cms ->
  let fhs := map w_fhat ws in
  let mzs := zipw (fun lc w => map (Mz_mle (c_s cs) (lcccs_z lc (w_ccs w))) (c_M cs)) cms ws in
  ((forall i lc w, nth_error cms i = Some lc -> nth_error ws i = Some w ->
      pad_eq (lc_v lc) (vvec w (lc_r lc)) /\ pad_eq (lc_u lc) (uvec cs lc w (lc_r lc)) /\
      ((i < 2 * dp_K P - 1)%nat \/ tau = 1%nat -> wit_norm (Z.of_nat (dp_b P) - 1) w))) \/
  exists ref : list K, forall (ts : T) pf lc ts',
    fold_verify P cms pf ts cs = Ok (lc, ts') ->
    fp_theta pf = evs fhs (lc_r lc) -> fp_eta pf = evs mzs (lc_r lc) ->
    fold_bad P cs cms fhs mzs r1 r2 D ref ts pf lc.
Proof. exact (folding_sound P A cs cms ws r1 r2 xs D). Qed.

Theorem C61_nifs_sound P (A : ajtai R) (cs : ccs R) acc cm_i lin lcs_l lcs_r (ws_l ws_r : list (witness C R)) (xs : list K) :
  sizes_ok p P cs -> degree_ok cs -> char_gt K (c_d cs + 1) -> char_gt K (2 * dp_b P) -> (2 * Z.of_nat (dp_b P) <= p + 1)%Z ->
  NoDup xs -> (Nat.max tau (c_t cs) < length xs)%nat -> length (lc_r acc) = c_s cs ->
  Forall2 (fun c w => opens P A cs (lc_cm c) w) lcs_l ws_l -> Forall2 (fun c w => opens P A cs (lc_cm c) w) lcs_r ws_r ->
  let cms := lcs_l ++ lcs_r in
  let ws := ws_l ++ ws_r in
  let fhs := map w_fhat ws in
  let mzs := zipw (fun c w => map (Mz_mle (c_s cs) (lcccs_z c (w_ccs w))) (c_M cs)) cms ws in
  let n := ((c_n cs - c_l cs - 1) * dp_L P)%nat in
  exists ref : list K, forall pf (ts : T) lc ts' ts1 ts2 ts3,
    dec_shape P cs (lf_dec_l pf) -> dec_shape P cs (lf_dec_r pf) ->
    nifs_verify P acc cm_i pf ts cs = Ok (lc, ts') ->
    lin_verify cm_i (lf_lin pf) (absorb_public_input acc cm_i ts) cs = Ok (lin, ts1) ->
    dec_verify P acc (lf_dec_l pf) ts1 = Ok (lcs_l, ts2) ->
    dec_verify P lin (lf_dec_r pf) ts2 = Ok (lcs_r, ts3) ->
    fp_theta (lf_fold pf) = evs fhs (lc_r lc) -> fp_eta (lf_fold pf) = evs mzs (lc_r lc) ->
    (lcccs_rel P A cs acc (wsum P n ws_l) /\ cccs_rel P A cs cm_i (wsum P n ws_r) /\
     forall i w, nth_error ws i = Some w -> (i < 2 * dp_K P - 1)%nat \/ tau = 1%nat -> wit_norm (Z.of_nat (dp_b P) - 1) w) \/
    fold_bad P cs cms fhs mzs (lc_r acc) (lc_r lin) (Nat.max tau (c_t cs)) ref ts3 (lf_fold pf) lc \/
    lin_bad cs (i_x cm_i ++ 1 :: w_ccs (wsum P n ws_r)) (absorb_public_input acc cm_i ts) (lf_lin pf) lin.
Proof. exact (nifs_sound P A cs acc cm_i lin lcs_l lcs_r ws_l ws_r xs). Qed.
End P2.
