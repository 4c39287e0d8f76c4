(** Model of nifs/folding.rs, nifs/folding/utils.rs. *)
From Coq Require Import String List Arith Lia ZArith Bool Ring.
From Verif Require Import Prelude Alg MLE Transcript Interp Sumcheck Arith Balanced Rings Linearization.
Import ListNotations.
Local Open Scope rs_scope.

(** latticefold/src/transcript.rs 41-45, trait [TranscriptWithShortChallenges]: the operation that
    draws one short challenge, an arbitrary function here.  Its implementation by the Poseidon
    transcript (transcript/poseidon.rs 69-74) is modelled in Challenge.v. *)
Class ShortOps (T C : Type) := get_short_challenge : T -> C * T.

(** nifs/folding/structs.rs 18-40, struct [FoldingProof] *)
Record fold_proof (R : Type) := FoldProof {
  fp_sc : list (list R); fp_theta : list (list R); fp_eta : list (list R) }.
Arguments FoldProof {R}. Arguments fp_sc {R}. Arguments fp_theta {R}. Arguments fp_eta {R}.

Section MleOps.
Context {R : Type} {RO : RingOps R}.
(** External [DenseMultilinearExtension]: [zero()] has no variables; [+=] returns the other
    operand when one of them is that zero and asserts equal numbers of variables otherwise;
    [*=] by a scalar acts on every entry. *)
Definition mle_zero : mle R := Mle 0 [0].
(** External [is_zero] of [DenseMultilinearExtension]. *)
Definition mle_is_zero (m : mle R) : bool := (mle_nv m =? 0)%nat && (mle_get m 0 =? 0).
(** External [+=] of [DenseMultilinearExtension]. *)
Definition mle_add (a b : mle R) : result (mle R) :=
  if mle_is_zero b then Ok a
  else if mle_is_zero a then Ok b
  else if negb (mle_nv a =? mle_nv b)%nat then Panic
  else Ok (Mle (mle_nv a) (map (fun i => mle_get a i + mle_get b i) (seq 0 (2 ^ mle_nv a)))).
(** External [*=] of [DenseMultilinearExtension]. *)
Definition mle_scale (m : mle R) (c : R) : mle R := Mle (mle_nv m) (map (fun x => x * c) (mle_evals m)).

(** folding.rs 218-222 and folding/utils.rs 534-538: the inner loops. *)
Definition horner_mle (c : R) (ms : list (mle R)) : result (mle R) :=
  fold_left (fun acc m => do a <- acc; do s <- mle_add a m; Ok (mle_scale s c)) (rev ms) (Ok mle_zero).
(** folding.rs 208-226 [calculate_challenged_mz_mle]; folding/utils.rs 531-540: the same loop. *)
Definition challenged_mle (cs : list R) (mss : list (list (mle R))) : result (mle R) :=
  fold_left (fun acc cm => do a <- acc; do h <- horner_mle (fst cm) (snd cm); mle_add a h)
            (combine cs mss) (Ok mle_zero).
End MleOps.

Section Shared.
Context {R : Type} {RO : RingOps R}.
(** [successors(Some(a), |x| Some(a * x)).take(n)] *)
Fixpoint successors (a cur : R) (n : nat) : list R :=
  match n with O => [] | S k => cur :: successors a (a * cur) k end.
(** [successors(Some(a), ..).zip(l).map(product).sum()] *)
Definition pow_sum (a : R) (l : list R) : R := lsum (zipw rmul (successors a a (length l)) l).

(** folding/utils.rs 384-395: theta * prod_{j=1}^{b-1} (theta - j)(theta + j) *)
Definition range_poly (b : nat) (x : R) : R :=
  x * lprod (map (fun j => (x - rofn j) * (x + rofn j)) (seq 1 (b - 1))).

(** folding/utils.rs 300-309: the loop over b with its early exit. *)
Fixpoint range_loop (f2 eval : R) (bs : list nat) : R :=
  match bs with
  | [] => eval
  | b :: bs' => let m := f2 - rofZ (Z.of_nat b * Z.of_nat b) in
                if m =? 0 then 0 else range_loop f2 (eval * m) bs'
  end.
(** folding/utils.rs 285-313: one iteration of the loop over d. *)
Definition inter_step (b : nat) (eqb mu : R) (inter f : R) : R :=
  if f =? 0 then (if inter =? 0 then inter else inter * mu)
  else (inter + range_loop (f * f) eqb (seq 1 (b - 1)) * f) * mu.
End Shared.

Section Fold.
Context {F K C R T : Type} {SO : SOps F K C R} {TO : TransOps T R K} {HO : ShortOps T C}.

(** transcript.rs 46-50 [get_small_challenges] *)
Fixpoint get_small_challenges (ts : T) (n : nat) : list C * T :=
  match n with
  | O => ([], ts)
  | S n' => let '(c, ts1) := get_short_challenge ts in
            let '(cs, ts2) := get_small_challenges ts1 n' in (c :: cs, ts2)
  end.

(** folding/utils.rs 52-95 [squeeze_alpha_beta_zeta_mu].  [2*K - 1] is truncated subtraction (the
    code underflows for K = 0: Overflow.v). *)
Definition squeeze_abzm (P : dparams) (ts : T) (log_m : nat) : list R * list R * list R * list R * T :=
  let '(alpha, ts) := get_challenges (absorb_tag ts "alpha_s") (2 * dp_K P) in
  let '(zeta, ts) := get_challenges (absorb_tag ts "zeta_s") (2 * dp_K P) in
  let '(mu, ts) := get_challenges (absorb_tag ts "mu_s") (2 * dp_K P - 1) in
  let '(beta, ts) := get_challenges (absorb_tag ts "beta_s") log_m in
  (map emb alpha, map emb beta, map emb zeta, map emb mu ++ [1], ts).

(** folding/utils.rs 116-131 [get_rhos] *)
Definition get_rhos (P : dparams) (ts : T) : list C * list R * T :=
  let '(rho, ts) := get_small_challenges (absorb_tag ts "rho_s") (2 * dp_K P - 1) in
  let rho := rho ++ [1] in (rho, map crt rho, ts).

(** folding/utils.rs 524-546 [prepare_g1_and_3_k_mles_list] *)
Definition prepare_g13 (r_eq : mle R) (fhs : list (list (mle R))) (alpha : list R) (chM : mle R)
  : result (list (mle R)) :=
  do c <- challenged_mle alpha fhs;
  do c <- mle_add c chM;
  Ok [r_eq; c].

(** folding/utils.rs 200-259 [create_sumcheck_polynomial] (the block under [cfg(test)] is not part
    of the library build). *)
Definition create_sumcheck_polynomial (P : dparams) (log_m : nat) (fhs : list (list (mle R)))
    (alpha : list R) (chM1 chM2 : mle R) (rs : list (list R)) (beta mu : list R)
  : result (list (mle R) * nat) :=
  let k2 := (2 * dp_K P)%nat in
  if negb (length alpha =? k2)%nat || negb (length fhs =? k2)%nat || negb (length rs =? k2)%nat
     || negb (length beta =? log_m)%nat || negb (length mu =? k2)%nat
  then Err IncorrectLength else
  do r1 <- index rs 0;
  do e1 <- build_eq_x_r r1;
  do l1 <- prepare_g13 e1 (firstn (dp_K P) fhs) (firstn (dp_K P) alpha) chM1;
  do r2 <- index rs (dp_K P);
  do e2 <- build_eq_x_r r2;
  do l2 <- prepare_g13 e2 (skipn (dp_K P) fhs) (skipn (dp_K P) alpha) chM2;
  do eb <- build_eq_x_r beta;
  Ok (l1 ++ l2 ++ eb :: concat fhs, (2 * dp_b P)%nat).

(** folding/utils.rs 273-325 [sumcheck_polynomial_comb_fn] (out-of-range indices read as zero; the
    prover model panics beforehand when the list is too short, see [fold_prove]). *)
Definition fold_comb (P : dparams) (mu : list R) (vals : list R) : R :=
  let v i := nth i vals 0 in
  fold_left (fun result km =>
      let '(k, m) := km in
      result + fold_left (fun inter d => inter_step (dp_b P) (v 4%nat) m inter (v (5 + (k * tau + d))%nat))
                         (rev (seq 0 tau)) 0)
    (combine (seq 0 (length mu)) mu) (v 0%nat * v 1%nat + v 2%nat * v 3%nat).

(** folding/utils.rs 369-412 [compute_sumcheck_claim_expected_value]; the indices are checked. *)
Definition expected_value (P : dparams) (alpha mu : list R) (theta : list (list R)) (estar : R)
    (es : list R) (zeta : list R) (eta : list (list R)) : result R :=
  do summands <- mapM (fun i =>
    do a <- index alpha i; do th <- index theta i; do e <- index es i; do m <- index mu i;
    do z <- index zeta i; do et <- index eta i;
    Ok (lsum (zipw (fun pw t => pw * e * t) (successors a a (length th)) th)
        + estar * lsum (zipw (fun pw t => pw * range_poly (dp_b P) t) (successors m m (length th)) th)
        + e * pow_sum z et)) (seq 0 (2 * dp_K P));
  Ok (lsum summands).

(** folding/utils.rs 460-521 [compute_v0_u0_x0_cm_0] *)
Definition fold_vecs (n : nat) (rho : list R) (vs : list (list R)) : list R :=
  fold_left (fun acc v => zipl radd acc v) (zipw (fun r v => map (rmul r) v) rho vs) (repeat 0 n).
(** folding/utils.rs 460-521 [compute_v0_u0_x0_cm_0] *)
Definition fold_public (rho_c : list C) (rho : list R) (theta : list (list R)) (cms : list (lcccs R))
    (eta : list (list R)) (cs : ccs R) : result (list R * list R * list R * list R) :=
  do v0 <- rot_lin_combination rho_c theta;
  let k := match cms with [] => 0%nat | c :: _ => length (lc_cm c) end in
  let cm0 := fold_left cm_add (zipw (fun r c => cm_scale (lc_cm c) r) rho cms) (cm_zeroed k) in
  let u0 := fold_vecs (c_t cs) rho eta in
  let x0 := fold_vecs (c_l cs + 1) rho (map (fun c => lc_x c ++ [lc_h c]) cms) in
  Ok (v0, cm0, u0, x0).

(** folding.rs 258-268 [compute_f_0] *)
Definition compute_f_0 (rho : list R) (ws : list (witness C R)) : result (list R) :=
  match ws with
  | [] => Panic
  | w0 :: _ => Ok (fold_left (fun acc rw => zipw (fun a x => a + fst rw * x) acc (w_f (snd rw)))
                             (combine rho ws) (repeat 0 (length (w_f w0))))
  end.

(** folding.rs 382-398 [prepare_public_output], with the preceding [x_0.last()] *)
Definition public_output (r0 v0 cm0 u0 x0 : list R) : result (lcccs R) :=
  do h <- of_option (Err IncorrectLength) (last_opt x0);
  Ok (Lcccs r0 v0 cm0 u0 (removelast x0) h).

(** [absorb_slice] in a loop (folding.rs 102-105, 170-177). *)
Definition absorb_slices (ts : T) (l : list (list R)) : T := fold_left absorb_slice l ts.

(** folding.rs 42-130 [prove] *)
Definition fold_prove (P : dparams) (cms : list (lcccs R)) (ws : list (witness C R)) (ts : T)
    (cs : ccs R) (mzs : list (list (mle R))) : result (lcccs R * witness C R * fold_proof R * T) :=
  do _ <- sanity_check cs (dp_L P);
  if negb (length cms =? 2 * dp_K P)%nat then Err IncorrectLength else
  let '(alpha, beta, zeta, mu, ts) := squeeze_abzm P ts (c_s cs) in
  let fhs := map w_fhat ws in
  do _ <- guard (2 * dp_K P <=? length mzs)%nat Panic;
  do chM1 <- challenged_mle (firstn (dp_K P) zeta) (firstn (dp_K P) mzs);
  do chM2 <- challenged_mle (firstn (dp_K P) (skipn (dp_K P) zeta)) (firstn (dp_K P) (skipn (dp_K P) mzs));
  do g <- create_sumcheck_polynomial P (c_s cs) fhs alpha chM1 chM2 (map lc_r cms) beta mu;
  let '(mles, degree) := g in
  do _ <- guard (5 + length mu * tau <=? length mles)%nat Panic;
  do sp <- sc_prove ts mles (c_s cs) degree (fold_comb P mu);
  let '(proof, rs, ts) := sp in
  let r0 := map emb rs in
  do theta <- mapM (fun ms => evaluate_mles_dml ms r0) fhs;
  do eta <- mapM (fun ms => evaluate_mles_dml ms r0) mzs;
  let ts := absorb_slices ts theta in
  let ts := absorb_slices ts eta in
  let '(rho_c, rho, ts) := get_rhos P ts in
  do f0 <- compute_f_0 rho ws;
  do pub <- fold_public rho_c rho theta cms eta cs;
  let '(v0, cm0, u0, x0) := pub in
  do lc <- public_output r0 v0 cm0 u0 x0;
  Ok (lc, wit_from_f P f0, FoldProof proof theta eta, ts).

(** folding.rs 311-343 [calculate_claims], the two claims added *)
Definition claim_sum (alpha zeta : list R) (cms : list (lcccs R)) : R :=
  lsum (zipw pow_sum alpha (map lc_v cms)) + lsum (zipw pow_sum zeta (map lc_u cms)).

(** folding.rs 273-309 [verify_evaluation] *)
Definition verify_evaluation (P : dparams) (alpha beta mu zeta r0 : list R) (s : R)
    (pf : fold_proof R) (cms : list (lcccs R)) : result unit :=
  do estar <- eq_eval beta r0;
  do es <- mapM (fun c => eq_eval (lc_r c) r0) cms;
  do v <- expected_value P alpha mu (fp_theta pf) estar es zeta (fp_eta pf);
  if v =? s then Ok tt else Err SumCheckFailed.

(** folding.rs 136-194 [verify], with 345-369 [verify_sumcheck_proof] inlined *)
Definition fold_verify (P : dparams) (cms : list (lcccs R)) (pf : fold_proof R) (ts : T) (cs : ccs R)
  : result (lcccs R * T) :=
  do _ <- sanity_check cs (dp_L P);
  let '(alpha, beta, zeta, mu, ts) := squeeze_abzm P ts (c_s cs) in
  do sub <- sc_verify ts (c_s cs) (2 * dp_b P) (claim_sum alpha zeta cms) (fp_sc pf);
  let '(point, s, ts) := sub in
  let r0 := map emb point in
  do _ <- verify_evaluation P alpha beta mu zeta r0 s pf cms;
  let ts := absorb_slices ts (fp_theta pf) in
  let ts := absorb_slices ts (fp_eta pf) in
  let '(rho_c, rho, ts) := get_rhos P ts in
  do pub <- fold_public rho_c rho (fp_theta pf) cms (fp_eta pf) cs;
  let '(v0, cm0, u0, x0) := pub in
  do lc <- public_output r0 v0 cm0 u0 x0;
  Ok (lc, ts).
End Fold.
