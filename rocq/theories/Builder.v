(** The functions with which linear combinations and constraint systems are made: arith/r1cs.rs. *)
From Coq Require Import String List Arith Bool.
From Verif Require Import Prelude Alg Arith.
Import ListNotations.
Local Open Scope rs_scope.

Section Builder.
Context {R : Type} {RO : RingOps R}.
(** r1cs.rs 323-326 [LinearCombination::new], also [default] 316-320 *)
Definition lc_new : lincomb R := [].
(** r1cs.rs 329-333 [single_term]; the conversion [coeff.into()] is done by the caller of the model. *)
Definition lc_single (c : R) (i : nat) : lincomb R := [(c, i)].
(** r1cs.rs 336-339 [add_term]; conversion as in [lc_single] *)
Definition lc_add_term (lc : lincomb R) (c : R) (i : nat) : lincomb R := lc ++ [(c, i)].
(** r1cs.rs 342-345 [add_terms]: [push] for each term in turn *)
Definition lc_add_terms (lc : lincomb R) (ts : list (R * nat)) : lincomb R := fold_left (fun lc t => lc ++ [t]) ts lc.
(** r1cs.rs 399-406 [ConstraintSystem::new], also [default] 391-395; without the variable map as in [csys] *)
Definition cs_new : csys R := Csys 0 0 [].
(** Assignments to the public fields [ninputs] (r1cs.rs 382) and [nauxs] (r1cs.rs 384) *)
Definition cs_set_ninputs (s : csys R) (n : nat) : csys R := Csys n (s_nauxs s) (s_cons s).
(** Second of the two, r1cs.rs 384 *)
Definition cs_set_nauxs (s : csys R) (n : nat) : csys R := Csys (s_ninputs s) n (s_cons s).
(** r1cs.rs 414-416 [nconstraints] *)
Definition cs_nconstraints (s : csys R) : nat := length (s_cons s).
(** r1cs.rs 419-422 [add_constraint]; [Constraint::new] (373-375) is [Constr] *)
Definition cs_add (s : csys R) (k : constr R) : csys R := Csys (s_ninputs s) (s_nauxs s) (s_cons s ++ [k]).
(** r1cs.rs 61-63 [R1CS::constraint]; indexing panics *)
Definition r1cs_constraint (r : r1cs R) (i : nat) : result (lincomb R * lincomb R * lincomb R) :=
  do a <- index (m_coeffs (r_A r)) i; do b <- index (m_coeffs (r_B r)) i; do c <- index (m_coeffs (r_C r)) i; Ok (a, b, c).
End Builder.
