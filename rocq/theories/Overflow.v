(** Machine integers in the decomposition and the folding step: the powers of [B_SMALL] as u128 and the
    subtraction 2K - 1 in usize, with overflow checks (debug builds: panic) and without (release builds:
    reduction modulo the word size).  The other files compute them as unbounded integers. *)
From Coq Require Import String List Arith Lia ZArith Bool.
From Verif Require Import Prelude Alg Poly MLE Transcript Sumcheck Arith Balanced Rings Linearization Decomposition.
Import ListNotations.
Local Open Scope rs_scope.

(** [u128::pow] of the Rust standard library, by its documentation: the result, or overflow.  *)
Definition u128_pow_checked (b e : Z) : result Z := if (b ^ e <? 2 ^ 128)%Z then Ok (b ^ e)%Z else Panic.
(** [u128::pow] without overflow checks (release build). *)
Definition u128_pow_wrapping (b e : Z) : Z := (b ^ e mod 2 ^ 128)%Z.
(** [i as u32] of a usize: truncation. *)
Definition as_u32 (i : nat) : Z := (Z.of_nat i mod 2 ^ 32)%Z.
(** folding/utils.rs 78 and 127: [(2 * P::K) - 1] in usize (64 bits); wraps to the largest word for K = 0. *)
Definition two_k_minus_1_checked (k : nat) : result nat := match (2 * k)%nat with O => Panic | S n => Ok n end.
(** [(2 * P::K) - 1] in a release build. *)
Definition two_k_minus_1_wrapping (k : nat) : Z := ((2 * Z.of_nat k - 1) mod 2 ^ 64)%Z.

Section O.
Context {F K C R T : Type} {SO : SOps F K C R} {TO : TransOps T R K}.
(** decomposition.rs 288-292 [calculate_b_s] in a debug build and in a release build *)
Definition b_s_checked (P : dparams) : result (list R) :=
  mapM (fun i => do w <- u128_pow_checked (Z.of_nat (dp_b P)) (as_u32 i); Ok (rofZ w)) (seq 0 (dp_K P)).
(** decomposition.rs 288-292 [calculate_b_s] in a release build *)
Definition b_s_wrapping (P : dparams) : list R :=
  map (fun i => rofZ (u128_pow_wrapping (Z.of_nat (dp_b P)) (as_u32 i))) (seq 0 (dp_K P)).
(** decomposition.rs 94-155 [verify] with the weights as a parameter *)
Definition dec_verify_w (bs : list R) (cm_i : lcccs R) (pf : dec_proof R) (ts : T)
  : result (list (lcccs R) * T) :=
  do res <- dec_absorb (lc_r cm_i) ts (zip4 (dp_xs pf) (dp_ys pf) (dp_us pf) (dp_vs pf));
  do y <- recompose_commitment (dp_ys pf) bs;
  if negb (leqb y (lc_cm cm_i)) then Err RecomposedError else
  do v <- recompose_vecs (dp_vs pf) bs;
  if negb (leqb v (lc_v cm_i)) then Err RecomposedError else
  do u <- recompose_vecs (dp_us pf) bs;
  if negb (leqb u (lc_u cm_i)) then Err RecomposedError else
  do xw <- recompose_vecs (dp_xs pf) bs;
  do h <- of_option (Err IncorrectLength) (last_opt xw);
  if negb (leqb (removelast xw) (lc_x cm_i)) then Err RecomposedError else
  if negb (h =? lc_h cm_i) then Err RecomposedError else
  Ok res.
(** [verify] in a debug build and in a release build *)
Definition dec_verify_debug (P : dparams) (cm_i : lcccs R) (pf : dec_proof R) (ts : T) : result (list (lcccs R) * T) :=
  do _ <- dec_absorb (lc_r cm_i) ts (zip4 (dp_xs pf) (dp_ys pf) (dp_us pf) (dp_vs pf));
  do bs <- b_s_checked P; dec_verify_w bs cm_i pf ts.
(** decomposition.rs [verify] in a release build *)
Definition dec_verify_release (P : dparams) (cm_i : lcccs R) (pf : dec_proof R) (ts : T) : result (list (lcccs R) * T) :=
  dec_verify_w (b_s_wrapping P) cm_i pf ts.
End O.
