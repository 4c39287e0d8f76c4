(** Model of the ring interface used by latticefold-plus: [CoeffRing] with [BaseRing : Zq]
    (stark-rings, external), and of latticefold-plus/src/utils.rs, transcript.rs. *)
From Coq Require Import String List Arith Lia ZArith Bool Ring.
From Verif Require Import Prelude Alg MLE Transcript Arith Balanced Rings.
Import ListNotations.
Local Open Scope rs_scope.

(** Operations: [K] is the base ring (a prime field), [R] the ring in coefficient form.
    [pcoeffs]/[pof_coeffs] are [coeffs()] and [From<Vec<BaseRing>>]; [psigned] the centred
    representative; [pexp]/[ppsi] the external functions [exp] (None on out-of-range input) and
    [psi]. *)
Class POps (K R : Type) := {
  p_K :> FieldOps K;
  p_R :> RingOps R;
  p_emb :> Embed K R;
  pdim : nat;
  pcoeffs : R -> list K;
  pof_coeffs : list K -> R;
  psigned : K -> Z;
  pexp : K -> option R;
  ppsi : R
}.

(** [ct()]: the constant term. *)
Definition pct {K R} {PO : POps K R} (x : R) : K := nth 0 (pcoeffs x) 0.
(** External [unit_monomial(i)] = X^i: coefficient 1 at position [i]. *)
Definition unit_vec {K} {KO : RingOps K} (d i : nat) : list K := map (fun j => if (j =? i)%nat then 1 else 0) (seq 0 d).
(** External [unit_monomial(i)]. *)
Definition pmono {K R} {PO : POps K R} (i : nat) : R := pof_coeffs (unit_vec pdim i).
(** The set of unit monomials and zero. *)
Definition in_monos {K R} {PO : POps K R} (x : R) : Prop :=
  x = 0 \/ exists i, (i < pdim)%nat /\ x = pmono i.

(** What is assumed.  [exp] and [psi] are characterised by the identity the protocol relies on:
    for |a| < d/2, [exp a] is zero or a unit monomial and the constant term of [psi * exp a] is
    [a]; and [psi] sends every unit monomial to a constant term below d/2. *)
Class PLaws (K R : Type) {PO : POps K R} (p : Z) : Prop := {
  pl_K :> FieldLaws K;
  pl_R :> RingLaws R;
  pl_E :> EmbedLaws K R;
  pdim_pos : (1 <= pdim)%nat;
  pcoeffs_length : forall x : R, length (pcoeffs x) = pdim;
  pcoeffs_of : forall l, length l = pdim -> pcoeffs (pof_coeffs l : R) = l;
  pof_coeffs_coeffs : forall x : R, pof_coeffs (pcoeffs x) = x;
  pcoeffs_add : forall x y : R, pcoeffs (x + y) = zipw radd (pcoeffs x) (pcoeffs y);
  pcoeffs_scale : forall k (x : R), pcoeffs (emb k * x) = map (rmul k) (pcoeffs x);
  pcoeffs_one : pcoeffs (1 : R) = unit_vec pdim 0;
  pp_odd : (2 < p)%Z;
  psigned_val : forall x : K, rofZ (psigned x) = x;
  psigned_bound : forall x : K, (2 * Z.abs (psigned x) < p)%Z;
  psigned_small : forall z, (2 * Z.abs z < p)%Z -> psigned (rofZ z : K) = z;
  pexp_ok : forall a : K, (2 * Z.abs (psigned a) < Z.of_nat pdim)%Z ->
    exists m : R, pexp a = Some m /\ in_monos m /\ pct (ppsi * m) = a;
  ppsi_mono : forall i, (i < pdim)%nat -> exists z, (2 * Z.abs z < Z.of_nat pdim)%Z /\ pct (ppsi * (pmono i : R)) = rofZ z
}.

(** [unwrap]/[expect]. *)
Definition unwrap {A} (r : result A) : result A := match r with Ok a => Ok a | _ => Panic end.

(** [for_each]/[map] threading the transcript. *)
Fixpoint mapT {A B T} (f : A -> T -> result (B * T)) (l : list A) (ts : T) : result (list B * T) :=
  match l with
  | [] => Ok ([], ts)
  | a :: l' => do bt <- f a ts; let '(b, ts1) := bt in
               do rest <- mapT f l' ts1; let '(bs, ts2) := rest in Ok (b :: bs, ts2)
  end.

Section Lin.
Context {R : Type} {RO : RingOps R}.
(** External [Matrix::try_mul_vec(..).unwrap()]: panics on a length mismatch. *)
Definition dm_mul_vec (A : ajtai R) (f : list R) : result (list R) := of_option Panic (checked_mul_vec A f).
(** External [Matrix::try_mul_mat(..).unwrap()]: product with a matrix given by its rows. *)
Definition dm_mul_mat (A : ajtai R) (ncols : nat) (M : list (list R)) : result (list (list R)) :=
  if (a_ncols A =? length M)%nat
  then Ok (map (fun row => map (fun j => lsum (zipw rmul row (column 0 j M))) (seq 0 ncols)) (a_rows A))
  else Panic.
(** External [SparseMatrix::try_mul_vec(..).unwrap()]. *)
Definition sm_mul_vec (M : smat R) (v : list R) : result (list R) := unwrap (mat_vec_mul M v).
(** External [SparseMatrix::transpose()] followed by writing row [j] of the transpose into a zero
    vector (setchk.rs 101-106, 208-209, 227-230): column [j] as a dense vector; if a row has several
    entries for the column the last one wins. *)
Definition sm_col (M : smat R) (j : nat) : list R :=
  map (fun row => fold_left (fun acc vc => if (snd vc =? j)%nat then fst vc else acc) row 0) (m_coeffs M).
(** All columns of a matrix (setchk.rs 82-107). *)
Definition sm_cols (M : smat R) : list (list R) := map (sm_col M) (seq 0 (m_ncols M)).
(** External [SparseMatrix::from_dense]: the nonzero entries of each row; the number of columns is
    that of the dense matrix. *)
Definition sm_from_dense (ncols : nat) (rows : list (list R)) : smat R :=
  SMat (length rows) ncols
    (map (fun row => filter (fun vc => negb (fst vc =? 0)) (combine row (seq 0 (length row)))) rows).
(** [DenseMultilinearExtension::from_evaluations_vec(nv, v).evaluate(p).unwrap()] *)
Definition eval_vec (nv : nat) (v : list R) (p : list R) : result R :=
  do m <- mle_from_vec nv v; of_option Panic (mle_evaluate m p).

(** utils.rs 49-67 [tensor_product] *)
Definition tensor_product (a b : list R) : list R :=
  match a, b with
  | [], _ => b
  | _, [] => a
  | _, _ => flat_map (fun x => map (fun y => x * y) b) a
  end.
(** utils.rs 73-85 [tensor] *)
Definition tensor (r : list R) : list R :=
  fold_left (fun res ri => tensor_product res [1 - ri; ri]) r [1].
End Lin.

Section U.
Context {K R T : Type} {PO : POps K R} {TO : TransOps T R K}.

(** External [Decompose] for ring elements: digit [i] of an element has the [i]-th digits of its
    coefficients; [decompose_to_vec] and [gadget_decompose] list the digits of the entries. *)
Definition pdecompose (b : Z) (k : nat) (x : R) : list R :=
  let ds := map (fun c => decompose_z k b (psigned c)) (pcoeffs x) in
  map (fun i => pof_coeffs (map (fun d => rofZ (nth i d 0%Z)) ds)) (seq 0 k).
(** External [gadget_decompose] of a vector: the digits of each entry side by side. *)
Definition pgadget (b : Z) (k : nat) (v : list R) : list R := flat_map (pdecompose b k) v.

(** utils.rs 12-43 [split], on the rows of the matrix. *)
Definition split (com : list (list R)) (n : nat) (b : Z) (k : nat) : result (list K) :=
  let tau := flat_map pcoeffs (concat (map (pgadget b k) com)) in
  if (length tau <? n)%nat then Ok (resize n 0 tau) else Panic.

(** utils.rs 87-100 [short_challenge]: [2usize.pow(lambda / d)] overflows (and the remainder by the
    wrapped value 0 panics) when the exponent is 64 or more. *)
Definition short_challenge (lambda : nat) (ts : T) : result (R * T) :=
  let e := (lambda / pdim)%nat in
  if (64 <=? e)%nat then Panic
  else
    let u := (2 ^ Z.of_nat e)%Z in
    let '(bytes, ts) := squeeze_bytes ts pdim in
    Ok (pof_coeffs (map (fun b => rofZ (b mod u)%Z - rofZ (u / 2)%Z) bytes), ts).

(** cm.rs 69-71, 73-79: [n] short challenges in a row. *)
Definition short_challenges (lambda n : nat) (ts : T) : result (list R * T) :=
  mapT (fun _ ts => short_challenge lambda ts) (seq 0 n) ts.
End U.
