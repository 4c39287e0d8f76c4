(** Model of the "suitable ring" interface (cyclotomic-rings/src/rings.rs, [SuitableRing]) on
    top of the external stark-rings traits, and of Ajtai commitments, witnesses and instances. *)
From Coq Require Import List Arith Lia ZArith Bool Ring.
From Verif Require Import Prelude Alg MLE Transcript Arith Balanced.
Import ListNotations.
Local Open Scope rs_scope.

(** Operations of a suitable ring.  [F] is the base prime field, [K] the base ring of the NTT
    form (an extension field of F), [C] the coefficient form, [R] the NTT form.
    cyclotomic-rings/src/rings.rs 33-63 and the stark-rings traits [PolyRing], [OverField],
    [CRT], [ICRT], [Cyclotomic] (external). *)
Class SOps (F K C R : Type) := {
  s_F :> FieldOps F;
  s_K :> FieldOps K;
  s_C :> RingOps C;
  s_R :> RingOps R;
  s_emb :> Embed K R;               (* From<BaseRing> *)
  embFK : F -> K;                   (* Field::from_base_prime_field *)
  embFC : F -> C;                   (* constants of the coefficient form *)
  dimN : nat;                       (* NTT::dimension() *)
  tau : nat;                        (* CoefficientRepresentation::dimension() / NTT::dimension() *)
  slots : R -> list K;              (* coeffs() of the NTT form *)
  of_slots : list K -> R;
  coeffs : C -> list F;             (* coeffs() of the coefficient form *)
  of_coeffs : list F -> C;
  crt : C -> R;
  icrt : R -> C;
  rotX : C -> C;                    (* one step of into_rot_iter: multiplication by X *)
  signed : F -> Z                   (* centred integer representative *)
}.

(** CoefficientRepresentation::dimension() *)
Definition dimC {F K C R} {SO : SOps F K C R} : nat := (dimN * tau)%nat.

(** What is assumed of a suitable ring.  [p] is the characteristic. *)
Class SLaws (F K C R : Type) {SO : SOps F K C R} (p : Z) : Prop := {
  l_F :> FieldLaws F;
  l_K :> FieldLaws K;
  l_C :> RingLaws C;
  l_R :> RingLaws R;
  l_E :> EmbedLaws K R;
  embFK_hom : ring_hom (embFK : F -> K);
  embFC_hom : ring_hom (embFC : F -> C);
  dimN_pos : (1 <= dimN)%nat;
  tau_pos : (1 <= tau)%nat;
  slots_length : forall x : R, length (slots x) = dimN;
  slots_of : forall l, length l = dimN -> slots (of_slots l : R) = l;
  of_slots_slots : forall x : R, of_slots (slots x) = x;
  slots_add : forall x y : R, slots (x + y) = zipw radd (slots x) (slots y);
  slots_mul : forall x y : R, slots (x * y) = zipw rmul (slots x) (slots y);
  slots_emb : forall k, slots (emb k : R) = repeat k dimN;
  coeffs_length : forall c : C, length (coeffs c) = dimC;
  coeffs_of : forall l, length l = dimC -> coeffs (of_coeffs l : C) = l;
  of_coeffs_coeffs : forall c : C, of_coeffs (coeffs c) = c;
  coeffs_add : forall a b : C, coeffs (a + b) = zipw radd (coeffs a) (coeffs b);
  coeffs_scale : forall x (c : C), coeffs (embFC x * c) = map (rmul x) (coeffs c);
  rotX_mul : forall a b : C, rotX (a * b) = rotX a * b;
  coeffs_X : forall c : C, c = sumn dimC (fun j => embFC (nth j (coeffs c) 0) * Nat.iter j rotX 1);
  crt_hom : ring_hom (crt : C -> R);
  crt_icrt : forall x : R, crt (icrt x) = x;
  icrt_crt : forall c : C, icrt (crt c) = c;
  p_odd : (2 < p)%Z;
  signed_val : forall x : F, rofZ (signed x) = x;
  signed_bound : forall x : F, (2 * Z.abs (signed x) < p)%Z;
  signed_small : forall z, (2 * Z.abs z < p)%Z -> signed (rofZ z : F) = z
}.

(** latticefold/src/decomposition_parameters.rs 12-21 *)
Record dparams := DParams { dp_B : Z; dp_L : nat; dp_b : nat; dp_K : nat }.

(** latticefold/src/commitment/commitment_scheme.rs 17-19; external [Matrix]. *)
Record ajtai (R : Type) := Ajtai { a_ncols : nat; a_rows : list (list R) }.
Arguments Ajtai {R}. Arguments a_ncols {R}. Arguments a_rows {R}.

Section Commit.
Context {R : Type} {RO : RingOps R}.
(** commitment_scheme.rs 30-32 [rand]: a single sample cloned into every entry.  The external
    conversion from nested vectors takes the number of columns from the first row. *)
Definition ajtai_rand (sample : R) (kappa n : nat) : ajtai R :=
  Ajtai (match kappa with O => 0%nat | _ => n end) (repeat (repeat sample n) kappa).
(** External [Matrix::checked_mul_vec]: None on length mismatch. *)
Definition checked_mul_vec (A : ajtai R) (f : list R) : option (list R) :=
  if (a_ncols A =? length f)%nat then Some (map (fun row => lsum (zipw rmul row f)) (a_rows A)) else None.
(** commitment_scheme.rs 37-54 [commit], 75-77 [commit_ntt] *)
Definition commit (A : ajtai R) (f : list R) : result (list R) :=
  if negb (length f =? a_ncols A)%nat then Err (WrongWitnessLength (length f) (a_ncols A))
  else of_option (Err (WrongWitnessLength (length f) (a_ncols A))) (checked_mul_vec A f).
(** commitment_scheme.rs 59-61 *)
Definition kappa (A : ajtai R) : nat := length (a_rows A).

(** commitment/homomorphic_commitment.rs 21-25 *)
Definition cm_zeroed (k : nat) : list R := repeat 0 k.
(** homomorphic_commitment.rs 54-61, 63-70, 72-76 and the derived operators (macros/mod.rs):
    the left operand is updated in place, surplus entries are left alone. *)
Definition cm_add (a b : list R) : list R := zipl radd a b.
(** homomorphic_commitment.rs 63-70 [sub_assign] *)
Definition cm_sub (a b : list R) : list R := zipl rsub a b.
(** homomorphic_commitment.rs 72-76 [mul_assign] *)
Definition cm_scale (a : list R) (c : R) : list R := map (fun x => x * c) a.
End Commit.

(** arith.rs 180-185 *)
Record cccs (R : Type) := Cccs { i_cm : list R; i_x : list R }.
Arguments Cccs {R}. Arguments i_cm {R}. Arguments i_x {R}.
(** arith.rs 193-206 *)
Record lcccs (R : Type) := Lcccs {
  lc_r : list R; lc_v : list R; lc_cm : list R; lc_u : list R; lc_x : list R; lc_h : R }.
Arguments Lcccs {R}. Arguments lc_r {R}. Arguments lc_v {R}. Arguments lc_cm {R}.
Arguments lc_u {R}. Arguments lc_x {R}. Arguments lc_h {R}.
(** arith.rs 214-223 *)
Record witness (C R : Type) := Witness {
  w_ccs : list R; w_f : list R; w_fc : list C; w_fhat : list (mle R) }.
Arguments Witness {C R}. Arguments w_ccs {C R}. Arguments w_f {C R}. Arguments w_fc {C R}.
Arguments w_fhat {C R}.

(** arith.rs 400-408 and 412-420 [get_z_vector] *)
Definition cccs_z {R} {RO : RingOps R} (i : cccs R) (w : list R) : list R := i_x i ++ 1 :: w.
(** arith.rs 412-420 [get_z_vector] of [LCCCS] *)
Definition lcccs_z {R} (i : lcccs R) (w : list R) : list R := lc_x i ++ lc_h i :: w.

(** External [recompose(v, b)]: sum of v_i * b^i, by Horner's rule. *)
Definition recompose {R} {RO : RingOps R} (v : list R) (b : R) : R :=
  fold_right (fun x acc => x + b * acc) 0 v.

Section W.
Context {F K C R : Type} {SO : SOps F K C R}.

(** External [Decompose for PolyRing]: digit [i] of a ring element has the [i]-th digits of
    its coefficients. *)
Definition decompose_c (b : Z) (k : nat) (c : C) : list C :=
  let ds := map (fun x => decompose_z k b (signed x)) (coeffs c) in
  map (fun i => of_coeffs (map (fun d => rofZ (nth i d 0%Z)) ds)) (seq 0 k).
(** External [GadgetDecompose::gadget_decompose], and [decompose_to_vec(..).flatten()]. *)
Definition gadget_decompose (b : Z) (k : nat) (v : list C) : list C :=
  flat_map (decompose_c b k) v.
(** External [gadget_recompose] on NTT vectors. *)
Definition gadget_recompose (b : Z) (k : nat) (v : list R) : list R :=
  map (fun ch => recompose ch (rofZ b)) (chunks k v).

(** arith.rs 286-289: writing one coefficient chunk into the slots of an NTT element. *)
Definition chunk_elem (ch : list F) : R :=
  of_slots (zipl (fun _ c => embFK c) (repeat 0 dimN) ch).
(** arith.rs 273-297 [get_fhat].  [truncate_lnze] only drops trailing zeros of the table. *)
Definition get_fhat (f : list C) : list (mle R) :=
  let nv := ark_log2 (next_pow2 (length f)) in
  map (fun j => Mle nv (resize (2 ^ nv) 0
                  (map (fun fi => chunk_elem (nth j (chunks dimN (coeffs fi)) [])) f)))
      (seq 0 tau).

(** arith.rs 230-248 [from_w_ccs] *)
Definition wit_from_w_ccs (P : dparams) (w : list R) : witness C R :=
  let fc := gadget_decompose (dp_B P) (dp_L P) (map icrt w) in
  Witness w (map crt fc) fc (get_fhat fc).
(** arith.rs 299-313 [from_f] *)
Definition wit_from_f (P : dparams) (f : list R) : witness C R :=
  let fc := map icrt f in
  Witness (gadget_recompose (dp_B P) (dp_L P) f) f fc (get_fhat fc).
(** arith.rs 324-338 [from_f_coeff] *)
Definition wit_from_f_coeff (P : dparams) (fc : list C) : witness C R :=
  let f := map crt fc in
  Witness (gadget_recompose (dp_B P) (dp_L P) f) f fc (get_fhat fc).
(** arith.rs 357-362 [commit] *)
Definition wit_commit (A : ajtai R) (w : witness C R) : result (list R) := commit A (w_f w).
(** arith.rs 372-386 [within_bound] ([coeffs] compared as canonical residues 0..p-1; [bz] is the
    residue of the bound) *)
Definition within_bound (p : Z) (w : witness C R) (b : Z) : bool :=
  forallb (fun c => forallb (fun x => ((signed x) mod p <? b mod p)%Z) (coeffs c)) (map icrt (w_f w)).

(** commitment_scheme.rs 81-86, 90-101, 106-113 *)
Definition commit_coeff (A : ajtai R) (f : list C) : result (list R) := commit A (map crt f).
(** commitment_scheme.rs 90-101 *)
Definition decompose_and_commit_coeff (A : ajtai R) (P : dparams) (f : list C) : result (list R) :=
  commit_coeff A (gadget_decompose (dp_B P) (dp_L P) f).
(** commitment_scheme.rs 106-113 *)
Definition decompose_and_commit_ntt (A : ajtai R) (P : dparams) (w : list R) : result (list R) :=
  decompose_and_commit_coeff A P (map icrt w).

(** External [flatten_to_coeffs] / [promote_from_coeffs] ([None] unless the length is a multiple
    of the dimension). *)
Definition flatten_to_coeffs (v : list R) : list K := flat_map slots v.
(** External [promote_from_coeffs]. *)
Definition promote_from_coeffs (l : list K) : option (list R) :=
  if (length l mod dimN =? 0)%nat then Some (map of_slots (chunks dimN l)) else None.

(** cyclotomic-rings/src/rotation.rs 45-60 [rot_sum] *)
Fixpoint rot_sum_loop (a : C) (b acc : list K) : list K :=
  match b with
  | [] => acc
  | bi :: b' => rot_sum_loop (rotX a) b' (zipl (fun acc x => acc + embFK x * bi) acc (coeffs a))
  end.
(** cyclotomic-rings/src/rotation.rs 45-60 [rot_sum]; panics unless the lengths agree. *)
Definition rot_sum (a : C) (b : list K) : result (list K) :=
  if negb (length b =? dimC)%nat then Panic
  else Ok (rot_sum_loop a b (repeat 0 dimC)).
(** rotation.rs 84-104 [rot_lin_combination]: [res[i] += x] is out of bounds when the sum is
    longer than [res]. *)
Definition rot_lin_combination (rhos : list C) (thetas : list (list R)) : result (list R) :=
  if negb (length rhos =? length thetas)%nat then Panic
  else match thetas with
  | [] => Panic
  | th0 :: _ =>
    do res <- fold_left (fun acc rt =>
        do res <- acc;
        do sum <- rot_sum (fst rt) (flatten_to_coeffs (snd rt));
        if (length res <? length sum)%nat then Panic else Ok (zipl radd res sum))
      (combine rhos thetas) (Ok (flatten_to_coeffs (repeat 0 (length th0))));
    of_option Panic (promote_from_coeffs res)
  end.
End W.
