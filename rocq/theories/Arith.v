(** Model of arith.rs (CCS), arith/utils.rs, arith/r1cs.rs. *)
From Coq Require Import String List Arith Lia ZArith Bool Ring.
From Verif Require Import Prelude Alg.
Import ListNotations.
Local Open Scope rs_scope.

(** External stark-rings-linalg [SparseMatrix]: [coeffs] is one list of (value, column)
    pairs per row. *)
Record smat (R : Type) := SMat { m_nrows : nat; m_ncols : nat; m_coeffs : list (list (R * nat)) }.
Arguments SMat {R}. Arguments m_nrows {R}. Arguments m_ncols {R}. Arguments m_coeffs {R}.

(** External [SparseMatrix::pad_rows(n)]: appends empty rows up to [n] rows. *)
Definition pad_rows {R} (n : nat) (M : smat R) : smat R :=
  if (m_nrows M <? n)%nat
  then SMat n (m_ncols M) (m_coeffs M ++ repeat [] (n - length (m_coeffs M)))
  else M.

(** Vec indexing: out of bounds panics. *)
Definition index {A} (l : list A) (i : nat) : result A := of_option Panic (nth_error l i).

Section Arith.
Context {R : Type} {RO : RingOps R}.

(** arith/utils.rs 24-34 [vec_add] *)
Definition vec_add (a b : list R) : result (list R) :=
  if negb (length a =? length b)%nat then Err (LengthsNotEqual (length a) (length b))
  else Ok (zipw radd a b).
(** arith/utils.rs 36-38 [vec_scalar_mul] *)
Definition vec_scalar_mul (v : list R) (c : R) : list R := map (fun a => a * c) v.
(** arith/utils.rs 40-50 [hadamard] *)
Definition hadamard (a b : list R) : result (list R) :=
  if negb (length a =? length b)%nat then Err (LengthsNotEqual (length a) (length b))
  else Ok (zipw rmul a b).

(** arith/utils.rs 63: one row of the product. *)
Definition row_mul (row : list (R * nat)) (z : list R) : result R :=
  do vs <- mapM (fun vc => do zc <- index z (snd vc); Ok (fst vc * zc)) row; Ok (lsum vs).
(** arith/utils.rs 52-65 [mat_vec_mul] *)
Definition mat_vec_mul (M : smat R) (z : list R) : result (list R) :=
  if negb (m_ncols M =? length z)%nat then Err (LengthsNotEqual (m_ncols M) (length z))
  else mapM (fun row => row_mul row z) (m_coeffs M).

(** [iter().position(|x| ..)] *)
Fixpoint position {A} (f : A -> bool) (l : list A) : option nat :=
  match l with
  | [] => None
  | a :: l' => if f a then Some 0%nat else option_map S (position f l')
  end.

(** arith.rs 51-74, struct [CCS] *)
Record ccs := Ccs {
  c_m : nat; c_n : nat; c_l : nat; c_t : nat; c_q : nat; c_d : nat; c_s : nat; c_sp : nat;
  c_M : list (smat R); c_S : list (list nat); c_c : list R }.

(** arith.rs 83-94: one step of the loop over the multisets (lines 84-93 compute the
    Hadamard product of the rows of the matrices of S_i). *)
Definition ccs_term (cs : ccs) (z : list R) (i : nat) : result (list R) :=
  do Si <- index (c_S cs) i;
  do Ms <- mapM (index (c_M cs)) Si;
  do had <- fold_left (fun acc Mj => do had <- acc;
                         do res <- mat_vec_mul Mj z;
                         hadamard had (resize (c_m cs) 0 res)) Ms (Ok (repeat 1 (c_m cs)));
  do ci <- index (c_c cs) i;
  Ok (vec_scalar_mul had ci).

(** arith.rs 78-105 [CCS::check_relation] *)
Definition ccs_check (cs : ccs) (z : list R) : result unit :=
  do res <- fold_left (fun acc i => do result <- acc; do t <- ccs_term cs z i; vec_add result t)
              (seq 0 (c_q cs)) (Ok (repeat 0 (c_m cs)));
  match position (fun x => negb (x =? 0)) res with
  | None => Ok tt
  | Some i => Err (NotSatisfied i)
  end.

(** arith/r1cs.rs 16-25, struct [R1CS] *)
Record r1cs := R1cs { r_l : nat; r_A : smat R; r_B : smat R; r_C : smat R }.

(** arith/r1cs.rs 29-40 [R1CS::check_relation] *)
Definition r1cs_check (r : r1cs) (z : list R) : result unit :=
  do Az <- mat_vec_mul (r_A r) z;
  do Bz <- mat_vec_mul (r_B r) z;
  do Cz <- mat_vec_mul (r_C r) z;
  do AzBz <- hadamard Az Bz;
  match position (fun p => negb (fst p =? snd p)) (combine AzBz Cz) with
  | None => Ok tt
  | Some i => Err (NotSatisfied i)
  end.

(** arith/r1cs.rs 71-84, struct [RelaxedR1CS] *)
Record relaxed := Relaxed { x_l : nat; x_A : smat R; x_B : smat R; x_C : smat R; x_u : R; x_E : list R }.
(** arith/r1cs.rs 44-53 [relax] *)
Definition relax (r : r1cs) : relaxed :=
  Relaxed (r_l r) (r_A r) (r_B r) (r_C r) 1 (repeat 0 (m_nrows (r_A r))).
(** arith/r1cs.rs 88-101 [RelaxedR1CS::check_relation] *)
Definition relaxed_check (x : relaxed) (z : list R) : result unit :=
  do Az <- mat_vec_mul (x_A x) z;
  do Bz <- mat_vec_mul (x_B x) z;
  do Cz <- mat_vec_mul (x_C x) z;
  do uCzE <- vec_add (vec_scalar_mul Cz (x_u x)) (x_E x);
  do AzBz <- hadamard Az Bz;
  match position (fun p => negb (fst p =? snd p)) (combine AzBz uCzE) with
  | None => Ok tt
  | Some i => Err (NotSatisfied i)
  end.

(** arith.rs 122-140 [CCS::from_r1cs] *)
Definition ccs_from_r1cs (r : r1cs) (W : nat) : ccs :=
  let n := m_ncols (r_A r) in
  Ccs W n (r_l r) 3 2 2 (ark_log2 W) (ark_log2 n) [r_A r; r_B r; r_C r]
      [[0; 1]; [2]]%nat [1; - (1)].

(** arith.rs 162-171 [pad_rows_to] *)
Definition pad_rows_to (cs : ccs) (size : nat) : ccs :=
  let size := next_pow2 size in
  if (c_m cs <? size)%nat
  then Ccs size (c_n cs) (c_l cs) (c_t cs) (c_q cs) (c_d cs) (ark_log2 size) (c_sp cs)
           (map (pad_rows size) (c_M cs)) (c_S cs) (c_c cs)
  else cs.

(** arith.rs 144-149 [from_r1cs_padded]; [ccs.n - ccs.l - 1] underflows when n <= l.
    Overflow of [next_power_of_two] beyond 2^63 is not modelled. *)
Definition ccs_from_r1cs_padded (r : r1cs) (W L : nat) : result ccs :=
  let cs := ccs_from_r1cs r W in
  if (c_n cs <=? c_l cs)%nat then Panic
  else Ok (pad_rows_to cs (next_pow2 (Nat.max ((c_n cs - c_l cs - 1) * L) (c_m cs)))).

(** arith.rs 153-160 [to_r1cs] *)
Definition ccs_to_r1cs (cs : ccs) : result r1cs :=
  do A <- index (c_M cs) 0; do B <- index (c_M cs) 1; do C <- index (c_M cs) 2;
  Ok (R1cs (c_l cs) A B C).

(** [usize::to_le_bytes] on a 64-bit target. *)
Fixpoint le_bytes (n : nat) (v : Z) : list Z :=
  match n with
  | O => []
  | S k => (v mod 256)%Z :: le_bytes k (v / 256)%Z
  end.
(** arith.rs 107-117 [params_to_le_bytes] *)
Definition params_to_le_bytes (cs : ccs) : list Z :=
  List.concat (map (fun v => le_bytes 8 (Z.of_nat v))
                   [c_l cs; c_m cs; c_n cs; c_t cs; c_q cs; c_d cs]).

(** *** nifs.rs 165-173, nifs/decomposition.rs 295-303, nifs/folding.rs 372-380
    [sanity_check] (the same code three times): error unless
    m = max((n-l-1)*L, m).next_power_of_two(). *)
Definition sanity_check (cs : ccs) (L : nat) : result unit :=
  if (c_n cs <=? c_l cs)%nat then Panic
  else if negb (c_m cs =? next_pow2 (Nat.max ((c_n cs - c_l cs - 1) * L) (c_m cs)))%nat
  then Err (InvalidSizeBounds (c_m cs) (c_n cs) L)
  else Ok tt.

(** *** arith/r1cs.rs 310-376: [LinearCombination], [Constraint] *)
Definition lincomb := list (R * nat).
(** r1cs.rs 348-352 [evaluate] *)
Definition lc_evaluate (lc : lincomb) (z : list R) : result R :=
  fold_left (fun acc t => do acc <- acc; do zi <- index z (snd t); Ok (acc + fst t * zi)) lc (Ok 0).
(** r1cs.rs 355-357 [is_valid] *)
Definition lc_valid (lc : lincomb) (nvars : nat) : bool := forallb (fun t => (snd t <? nvars)%nat) lc.
(** r1cs.rs 361-369 [Constraint] *)
Record constr := Constr { k_a : lincomb; k_b : lincomb; k_c : lincomb }.

(** r1cs.rs 380-389 [ConstraintSystem] without the variable map, which none of the
    functions below reads. *)
Record csys := Csys { s_ninputs : nat; s_nauxs : nat; s_cons : list constr }.
(** r1cs.rs 409-411 [nvars] *)
Definition s_nvars (s : csys) : nat := (s_ninputs s + s_nauxs s)%nat.
(** r1cs.rs 425-440 [is_valid] *)
Definition csys_valid (s : csys) : bool :=
  negb (s_nvars s <? s_ninputs s)%nat &&
  forallb (fun k => lc_valid (k_a k) (s_nvars s) && lc_valid (k_b k) (s_nvars s)
                    && lc_valid (k_c k) (s_nvars s)) (s_cons s).

(** r1cs.rs 467-480: [try_for_each] over the enumerated constraints. *)
Fixpoint csys_check_from (i : nat) (cons : list constr) (z : list R) : result unit :=
  match cons with
  | [] => Ok tt
  | k :: cons' =>
    do a <- lc_evaluate (k_a k) z;
    do b <- lc_evaluate (k_b k) z;
    do c <- lc_evaluate (k_c k) z;
    if negb (a * b =? c) then Err (NotSatisfied i) else csys_check_from (S i) cons' z
  end.
(** r1cs.rs 443-481 [is_satisfied] *)
Definition csys_satisfied (s : csys) (primary aux : list R) : result unit :=
  if negb (length primary =? s_ninputs s)%nat
  then Err (LengthsNotEqual (length primary) (s_ninputs s))
  else if negb (length primary + length aux =? s_nvars s)%nat
  then Err (LengthsNotEqual (length primary + length aux) (s_nvars s))
  else csys_check_from 0 (s_cons s) (primary ++ aux).

(** r1cs.rs 487-500: which variables occur in the given linear combinations. *)
Definition touched (n : nat) (lcs : list lincomb) : result (list bool) :=
  if forallb (fun lc => forallb (fun t => (snd t <? n)%nat) lc) lcs
  then Ok (map (fun i => existsb (fun lc => existsb (fun t => (snd t =? i)%nat) lc) lcs) (seq 0 n))
  else Panic.
(** r1cs.rs 484-507 [swap_AB_if_beneficial] *)
Definition csys_swap (s : csys) : result csys :=
  do tA <- touched (s_nvars s + 1) (map k_a (s_cons s));
  do tB <- touched (s_nvars s + 1) (map k_b (s_cons s));
  if (length (filter (fun x => x) tA) <? length (filter (fun x => x) tB))%nat
  then Ok (Csys (s_ninputs s) (s_nauxs s) (map (fun k => Constr (k_b k) (k_a k) (k_c k)) (s_cons s)))
  else Ok s.

(** r1cs.rs 510-552 [to_r1cs] *)
Definition csys_to_r1cs (s : csys) : r1cs :=
  let mk f := SMat (length (s_cons s)) (s_nvars s) (map f (s_cons s)) in
  R1cs (s_ninputs s) (mk k_a) (mk k_b) (mk k_c).
End Arith.
Arguments ccs : clear implicits. Arguments r1cs : clear implicits. Arguments relaxed : clear implicits.
Arguments csys : clear implicits. Arguments constr : clear implicits. Arguments lincomb : clear implicits.

(** arith/r1cs.rs 556-602, [VariableMap].  The BTreeMap is an association list with unique
    keys; iteration order ([vars]) is not modelled. *)
Record varmap := VarMap { vm_map : list (string * (nat * nat)); vm_one : nat; vm_total : nat }.
(** r1cs.rs 569-575 [new] *)
Definition vm_new : varmap := VarMap [] 0 1.
(** External [BTreeMap::insert]: overwrites the value of a key that is present. *)
Fixpoint map_insert (k : string) (v : nat * nat) (m : list (string * (nat * nat))) :=
  match m with
  | [] => [(k, v)]
  | (k', v') :: m' => if String.eqb k k' then (k, v) :: m' else (k', v') :: map_insert k v m'
  end.
(** External [BTreeMap::get]. *)
Fixpoint map_get (k : string) (m : list (string * (nat * nat))) : option (nat * nat) :=
  match m with
  | [] => None
  | (k', v') :: m' => if String.eqb k k' then Some v' else map_get k m'
  end.
(** r1cs.rs 577-580 [add] *)
Definition vm_add (vm : varmap) (name : string) (index len : nat) : varmap :=
  VarMap (map_insert name (index, len) (vm_map vm)) (vm_one vm) (vm_total vm + len).
(** r1cs.rs 582-584 [get] *)
Definition vm_get (vm : varmap) (name : string) : option (nat * nat) := map_get name (vm_map vm).
(** r1cs.rs 586-589 [set_one] *)
Definition vm_set_one (vm : varmap) (index : nat) : varmap :=
  VarMap (vm_map vm) index (vm_total vm).
