(** Model of utils/sumcheck/verifier.rs [interpolate_uni_poly]. *)
From Coq Require Import List Arith Lia ZArith Bool Ring.
From Verif Require Import Prelude Alg Transcript.
Import ListNotations.
Local Open Scope rs_scope.

(** Checked machine integers: an out-of-range product is an overflow panic (debug build)
    or a wrong value (release build); the model makes it [Panic]. *)
Definition chk_u (w : Z) (z : Z) : result Z :=
  if ((0 <=? z) && (z <? 2 ^ w))%Z then Ok z else Panic.
(** The same for signed integers ([i64], [i128]). *)
Definition chk_i (w : Z) (z : Z) : result Z :=
  if ((- 2 ^ (w - 1) <=? z) && (z <? 2 ^ (w - 1)))%Z then Ok z else Panic.

(** verifier.rs 281-287 [u64_factorial] ([w = 64]) and 271-277 [u128_factorial] ([w = 128]):
    [res] runs through 1*1, *2, ..., *a. *)
Fixpoint uw_factorial (w : Z) (a : nat) : result Z :=
  match a with
  | O => Ok 1%Z
  | S k => do r <- uw_factorial w k; chk_u w (r * Z.of_nat (S k))
  end.

Section Interp.
Context {R K : Type} {RO : RingOps R} {KO : FieldOps K} {E : Embed K R}.

(** verifier.rs 261-267 [field_factorial] *)
Fixpoint field_factorial (a : nat) : K :=
  match a with O => 1 | S k => field_factorial k * rofn (S k) end.

(** [a / b] on field elements: panics on a zero divisor. *)
Definition fdiv (a b : K) : result K := if b =? 0 then Panic else Ok (a * finv b).

(** verifier.rs 145-165: the scan which returns early if [x] is one of 0..len-1 (here
    [inl j]) and otherwise yields [evals] and [prod].  [k] iterations remain and the next
    loop index is [i]; at the end [i = len]. *)
Fixpoint interp_scan (k : nat) (x check prod : K) (evals : list K) (i : nat)
  : nat + list K * K :=
  match k with
  | O => if x =? check then inl (i - 1)%nat else inr (evals, prod)
  | S k' =>
    if x =? check then inl (i - 1)%nat
    else let check := check + 1 in
         let tmp := x - check in
         interp_scan k' x check (prod * tmp) (evals ++ [tmp]) (i + 1)
  end.

(** verifier.rs 190-237: the loop over [i = n-1, ..., 0] with machine integers of width
    [w] (64: lines 188-212, 128: lines 213-237); [S i] indices remain. *)
Fixpoint interp_int_loop (w : Z) (len : nat) (p : list R) (evals : list K)
    (prod last_denom : K) (n : nat) (num enum : Z) (res : R) : result R :=
  match n with
  | O => Ok res
  | S i =>
    do numf <- (if (num <? 0)%Z then do a <- chk_i w (- num); Ok (- rofZ a) else Ok (rofZ num));
    do x <- fdiv (prod * rofZ enum) (last_denom * numf * nth i evals 0);
    let res := res + nth i p 0 * emb x in
    if (i =? 0)%nat then Ok res
    else
      do num' <- chk_i w (num * - (Z.of_nat len - Z.of_nat i));
      do enum' <- chk_u w (enum * Z.of_nat i);
      interp_int_loop w len p evals prod last_denom i num' enum' res
  end.

(** verifier.rs 238-254: the loop in the field. *)
Fixpoint interp_field_loop (len : nat) (p : list R) (evals : list K) (prod : K)
    (n : nat) (up down : K) (res : R) : result R :=
  match n with
  | O => Ok res
  | S i =>
    do x <- fdiv (prod * down) (up * nth i evals 0);
    let res := res + nth i p 0 * emb x in
    if (i =? 0)%nat then Ok res
    else interp_field_loop len p evals prod i (up * - rofn (len - i)) (down * rofn i) res
  end.

(** verifier.rs 139-257 [interpolate_uni_poly].  On an empty list [len - 1] underflows. *)
Definition interpolate (p : list R) (x : K) : result R :=
  let len := length p in
  match len with
  | O => Panic
  | S k =>
    match interp_scan k x 0 x [x] 1 with
    | inl j => match nth_error p j with Some v => Ok v | None => Panic end
    | inr (evals, prod) =>
      if (len <=? 20)%nat then
        do f <- uw_factorial 64 (len - 1);
        interp_int_loop 64 len p evals prod (rofZ f) len 1 1 0
      else if (len <=? 33)%nat then
        do f <- uw_factorial 128 (len - 1);
        interp_int_loop 128 len p evals prod (rofZ f) len 1 1 0
      else
        interp_field_loop len p evals prod len (field_factorial (len - 1)) 1 0
    end
  end.
End Interp.
