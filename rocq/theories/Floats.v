(** Floating-point computations: [estimate_bound] (latticefold-plus/src/utils.rs 102-112) and
    latticefold/src/utils/security_check.rs, over Flocq's IEEE 754 binary64. *)
From Coq Require Import ZArith Bool Lia.
From Flocq Require Import Core IEEE754.BinarySingleNaN.
From Verif Require Import Prelude.
Local Open Scope Z_scope.

(** Rust's [f64]. *)
Definition f64 := binary_float 53 1024.
(** The precision of [f64] is positive. *)
Definition prec53 : Prec_gt_0 53 := eq_refl.
(** The precision of [f64] is below its largest exponent. *)
Definition prec_emax : Prec_lt_emax 53 1024 := eq_refl.
#[global] Existing Instance prec53.
#[global] Existing Instance prec_emax.
(** [x as f64] of an integer, and num-traits' [to_f64] of [u128] and [BigUint]: to nearest, ties to even. *)
Definition f_ofZ (z : Z) : f64 := binary_normalize 53 1024 prec53 prec_emax mode_NE z 0 false.
(** [+] of [f64]. *)
Definition f_add (x y : f64) : f64 := Bplus mode_NE x y.
(** [*] of [f64]. *)
Definition f_mul (x y : f64) : f64 := Bmult mode_NE x y.
(** [/] of [f64]. *)
Definition f_div (x y : f64) : f64 := Bdiv mode_NE x y.
(** [f64::sqrt]. *)
Definition f_sqrt (x : f64) : f64 := Bsqrt mode_NE x.
(** [f64::ceil]. *)
Definition f_ceil (x : f64) : f64 := Bnearbyint mode_UP x.
(** [x as u64] and [x as u128] (n = 64, 128): truncates, saturates, and sends NaN to 0. *)
Definition f_toU (n : Z) (x : f64) : Z :=
  match x with
  | B754_nan => 0
  | B754_infinity s => if s then 0 else 2 ^ n - 1
  | _ => Z.max 0 (Z.min (2 ^ n - 1) (Btrunc x))
  end.
(** [x < y]; false if one of them is NaN. *)
Definition f_lt (x y : f64) : bool := Bltb x y.

(** A checked [usize] result: panics when it does not fit in 64 bits (with overflow checks, as in debug builds). *)
Definition usz (z : Z) : result Z := if z <? 2 ^ 64 then Ok z else Panic.

(** latticefold-plus/src/utils.rs 102-112 [estimate_bound] on [usize] arguments. *)
Definition estimate_bound_f64 (sop L d k : Z) : result Z :=
  do a <- usz (sop * L);
  do dk <- usz (d * k);
  do c0 <- usz (d / 2 + dk);
  do c <- usz (c0 + 1);
  do aa <- usz (a * a);
  do a4 <- usz (4 * a);
  do a4c <- usz (a4 * c);
  do dd <- usz (aa + a4c);
  let discriminant := f_ofZ dd in
  let sqrt_discriminant := f_sqrt discriminant in
  let b := f_div (f_add (f_ofZ a) sqrt_discriminant) (f_ofZ 2) in
  Ok (f_toU 128 (f_ceil b)).

Section Security.
(** The platform's [f64::powf] and [f64::ln], and the literal [1.0045_f64]; nothing is assumed about them. *)
Variables (powf : f64 -> f64 -> f64) (ln : f64 -> f64) (delta : f64).

(** security_check.rs 5-15 [calculate_bound_l2]: the float, and its ceiling as a [u64]. *)
Definition bound_l2 (degree kappa : Z) (ring_modulus_log2 : f64) : f64 :=
  powf (f_ofZ 2)
    (f_mul (f_mul (f_ofZ 2) (f_sqrt (f_div (ln delta) (ln (f_ofZ 2)))))
           (f_sqrt (f_mul (f_mul (f_ofZ degree) (f_ofZ kappa)) ring_modulus_log2))).
(** security_check.rs 5-15 [calculate_bound_l2] *)
Definition calculate_bound_l2 (degree kappa : Z) (ring_modulus_log2 : f64) : Z :=
  f_toU 64 (f_ceil (bound_l2 degree kappa ring_modulus_log2)).

(** security_check.rs 17-45 [check_ring_modulus_128_bits_security]; [BigUint::bits] is the bit length (0 for 0) and
    [l as u32] keeps the low 32 bits. *)
Definition bits (q : Z) : Z := if q =? 0 then 0 else Z.log2 q + 1.
(** security_check.rs 17-45 [check_ring_modulus_128_bits_security] *)
Definition check_128 (ring_modulus kappa degree num_cols b l : Z) (already_under_bound : bool) : bool :=
  let ring_modulus_log2 := f_ofZ (bits ring_modulus) in
  let ring_modulus_half := ring_modulus / 2 in
  let bound_l2_bigint := calculate_bound_l2 degree kappa ring_modulus_log2 in
  let bound_l2_check := bound_l2_bigint <? ring_modulus_half in
  let bound_inf := f_div (f_ofZ bound_l2_bigint) (f_sqrt (f_mul (f_ofZ degree) (f_ofZ num_cols))) in
  let b_check := f_lt (f_ofZ b) bound_inf in
  let b_pow_l_check := if already_under_bound && (l =? 1) then true
                       else ring_modulus_half <? b ^ (l mod 2 ^ 32) in
  bound_l2_check && b_check && b_pow_l_check.
End Security.
