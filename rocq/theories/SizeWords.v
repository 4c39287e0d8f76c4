(** Machine integers in the size checks: [usize] of 64 bits with overflow checks (debug builds: panic) and without (release builds).
    Arith.v computes the same quantities as unbounded integers and panics when n <= l. *)
From Coq Require Import String List Arith Lia ZArith Bool.
From Verif Require Import Prelude Alg Poly MLE Transcript Sumcheck Arith.
Import ListNotations.
Local Open Scope Z_scope.

Definition word (x : Z) : Prop := 0 <= x < 2 ^ 64.
(** Subtraction and multiplication of [usize]: checked ([chk]), or modulo 2^64. *)
Definition w_sub (chk : bool) (a b : Z) : result Z := if b <=? a then Ok (a - b) else if chk then Panic else Ok ((a - b) mod 2 ^ 64).
Definition w_mul (chk : bool) (a b : Z) : result Z := if a * b <? 2 ^ 64 then Ok (a * b) else if chk then Panic else Ok (a * b mod 2 ^ 64).
(** [usize::next_power_of_two] by its documentation: beyond 2^63 it panics in debug builds and returns 0 in release builds. *)
Definition w_next_pow2 (chk : bool) (a : Z) : result Z := if a <=? 2 ^ 63 then Ok (2 ^ Z.log2_up a) else if chk then Panic else Ok 0.
(** [usize::max((ccs.n - ccs.l - 1) * L, ccs.m).next_power_of_two()] in nifs.rs 168, decomposition.rs 298, folding.rs 375, arith.rs 146 *)
Definition w_size (chk : bool) (n l m L : Z) : result Z :=
  do a <- w_sub chk n l; do b <- w_sub chk a 1; do c <- w_mul chk b L; w_next_pow2 chk (Z.max c m).
(** nifs.rs 165-173, decomposition.rs 295-303, folding.rs 372-380 [sanity_check]; the error carries no sizes here *)
Definition w_sanity (chk : bool) (n l m L : Z) : result bool := do s <- w_size chk n l m L; Ok (m =? s).
(** arith.rs 144-149 and 162-171: the number of rows after [from_r1cs_padded] *)
Definition w_padded (chk : bool) (n l m L : Z) : result Z :=
  do s <- w_size chk n l m L; do s' <- w_next_pow2 chk s; Ok (if m <? s' then s' else m).
