(** Model of nifs/linearization.rs, nifs/linearization/utils.rs. *)
From Coq Require Import String Ascii List Arith Lia ZArith Bool Ring.
From Verif Require Import Prelude Alg MLE Transcript Interp Sumcheck Arith Rings.
Import ListNotations.
Local Open Scope rs_scope.

(** [from_be_bytes_mod_order(b"...")]: big-endian value of a byte string; the reduction modulo
    the characteristic is [rofZ]. *)
Fixpoint be_val (acc : Z) (s : string) : Z :=
  match s with
  | EmptyString => acc
  | String a s' => be_val (256 * acc + Z.of_N (N_of_ascii a))%Z s'
  end.

(** nifs/linearization/structs.rs, struct [LinearizationProof] *)
Record lin_proof (R : Type) := LinProof { lp_sc : list (list R); lp_v : list R; lp_u : list R }.
Arguments LinProof {R}. Arguments lp_sc {R}. Arguments lp_v {R}. Arguments lp_u {R}.

Section Lin.
Context {C R K T : Type} {RO : RingOps R} {KO : FieldOps K} {E : Embed K R} {TO : TransOps T R K}.

(** Absorption of a domain separation tag ([from_base_prime_field] is a ring homomorphism, so
    the embedding of the prime field is [rofZ] again). *)
Definition absorb_tag (ts : T) (s : string) : T := absorb_field_element ts (rofZ (be_val 0 s) : K).

(** nifs/linearization/utils.rs 114-123 [squeeze_beta_challenges] *)
Definition squeeze_beta (ts : T) (n : nat) : list R * T :=
  let ts := absorb_tag ts "beta_s" in
  let '(cs, ts) := get_challenges ts n in (map emb cs, ts).

(** utils/mle_helpers.rs 137-146 [calculate_Mz_mles] *)
Definition calculate_Mz_mles (cs : ccs R) (z : list R) : result (list (mle R)) :=
  to_mles_err (c_s cs) (map (fun M => mat_vec_mul M z) (c_M cs)).

(** linearization/utils.rs 63-88 [prepare_lin_sumcheck_polynomial]; [S[i]] and [M_mles[j]] panic
    out of bounds. *)
Definition nonzero_idx (c : list R) : list nat :=
  filter (fun i => negb (nth i c 0 =? 0)) (seq 0 (length c)).
(** linearization/utils.rs 63-88 [prepare_lin_sumcheck_polynomial] *)
Definition prepare_lin_poly (c : list R) (d : nat) (M_mles : list (mle R)) (S : list (list nat))
    (beta : list R) : result (list (mle R) * nat) :=
  do Ss <- mapM (index S) (nonzero_idx c);
  do ms <- mapM (index M_mles) (concat Ss);
  do e <- build_eq_x_r beta;
  Ok (ms ++ [e], (d + 1)%nat).

(** linearization/utils.rs 90-107 [sumcheck_polynomial_comb_fn]: the inner loop, [None] for
    [continue 'outer]. *)
Fixpoint lin_term (term : R) (Si : list nat) (vals : list R) : option R :=
  match Si with
  | [] => Some term
  | j :: Si' => if nth j vals 0 =? 0 then None else lin_term (term * nth j vals 0) Si' vals
  end.
(** linearization/utils.rs 90-107 [sumcheck_polynomial_comb_fn] *)
Definition lin_comb (cs : ccs R) (vals : list R) : R :=
  fold_left (fun result i =>
      let c := nth i (c_c cs) 0 in
      if c =? 0 then result
      else match lin_term c (nth i (c_S cs) []) vals with
           | Some term => result + term
           | None => result
           end) (seq 0 (length (c_c cs))) 0
  * nth (length vals - 1) vals 0.
(** [vals[j]] panics when [j] is not an index of the table list.  Simplification: the model panics
    whenever some index is out of range, also if every evaluation would leave the inner loop
    earlier because of a zero. *)
Definition lin_comb_safe (cs : ccs R) (nvals : nat) : bool :=
  forallb (fun i => forallb (fun j => (j <? nvals)%nat) (nth i (c_S cs) [])) (nonzero_idx (c_c cs)).

(** nifs/linearization.rs 80-103 [construct_polynomial_g] *)
Definition construct_polynomial_g (z : list R) (ts : T) (cs : ccs R)
  : result (list (mle R) * nat * list (mle R) * T) :=
  let '(beta, ts) := squeeze_beta ts (c_s cs) in
  do Mz <- calculate_Mz_mles cs z;
  do g <- prepare_lin_poly (c_c cs) (c_d cs) Mz (c_S cs) beta;
  Ok (fst g, snd g, Mz, ts).

(** nifs/linearization.rs 145-189 [prove], with 106-122 [generate_sumcheck_proof] and 126-139
    [compute_evaluation_vectors] inlined. *)
Definition lin_prove (cm_i : cccs R) (wit : witness C R) (ts : T) (cs : ccs R)
  : result (lcccs R * lin_proof R * T) :=
  let z := cccs_z cm_i (w_ccs wit) in
  do g <- construct_polynomial_g z ts cs;
  let '(mles, degree, Mz, ts) := g in
  do _ <- guard (lin_comb_safe cs (length mles)) Panic;
  do sp <- sc_prove ts mles (c_s cs) degree (lin_comb cs);
  let '(proof, rs, ts) := sp in
  let r := map emb rs in
  do v <- evaluate_mles_dml (w_fhat wit) r;
  do u <- evaluate_mles_dml Mz r;
  let ts := absorb_slice ts v in
  let ts := absorb_slice ts u in
  Ok (Lcccs r v (i_cm cm_i) u (i_x cm_i) 1, LinProof proof v u, ts).

(** nifs/linearization.rs 220-243 [verify_evaluation_claim] *)
Definition lin_check_claim (beta r : list R) (s : R) (proof : lin_proof R) (cs : ccs R) : result unit :=
  do e <- eq_eval r beta;
  do terms <- mapM (fun ic => do Si <- index (c_S cs) (fst ic);
                              do us <- mapM (index (lp_u proof)) Si;
                              Ok (snd ic * lprod us))
                   (combine (seq 0 (length (c_c cs))) (c_c cs));
  if e * lsum terms =? s then Ok tt else Err SumCheckFailed.

(** nifs/linearization.rs 264-284 [verify], with 193-214 [verify_sumcheck_proof] and 245-258
    [prepare_verifier_output] inlined. *)
Definition lin_verify (cm_i : cccs R) (proof : lin_proof R) (ts : T) (cs : ccs R)
  : result (lcccs R * T) :=
  let '(beta, ts) := squeeze_beta ts (c_s cs) in
  do sub <- sc_verify ts (c_s cs) (c_d cs + 1) 0 (lp_sc proof);
  let '(point, s, ts) := sub in
  let r := map emb point in
  do _ <- lin_check_claim beta r s proof cs;
  let ts := absorb_slice ts (lp_v proof) in
  let ts := absorb_slice ts (lp_u proof) in
  Ok (Lcccs r (lp_v proof) (i_cm cm_i) (lp_u proof) (i_x cm_i) 1, ts).
End Lin.
