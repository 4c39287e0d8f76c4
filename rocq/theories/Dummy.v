(** The generators of systems and vectors for tests, benches and examples that are part of the library:
    arith/r1cs.rs 153-306, arith/ccs.rs. *)
From Coq Require Import String List Arith Lia ZArith Bool.
From Verif Require Import Prelude Alg Transcript Arith Balanced Rings.
Import ListNotations.
Local Open Scope rs_scope.

(** [usize] arithmetic in a build with overflow checks, for nonnegative values. *)
Definition usize_ok (z : Z) : result Z := if (z <? 2 ^ 64)%Z then Ok z else Panic.

Section D.
Context {R : Type} {RO : RingOps R}.
(** arith/r1cs.rs 188-201 [create_dummy_identity_sparse_matrix] *)
Definition dummy_identity (rows columns : nat) : smat R := SMat rows columns (map (fun i => [(1, i)]) (seq 0 rows)).
(** arith/r1cs.rs 204-223 [create_dummy_squaring_sparse_matrix] *)
Definition dummy_squaring (rows columns : nat) (witness : list R) : result (smat R) :=
  if negb (rows =? length witness)%nat then Panic
  else Ok (SMat rows columns (map (fun i => [(nth i witness 0, i)]) (seq 0 rows))).
(** arith/ccs.rs 145-164 [create_dummy_cubing_sparse_matrix] *)
Definition dummy_cubing (rows columns : nat) (witness : list R) : result (smat R) :=
  if negb (rows =? length witness)%nat then Panic
  else Ok (SMat rows columns (map (fun i => [(nth i witness 0 * nth i witness 0, i)]) (seq 0 rows))).
(** arith/r1cs.rs 155-166 [get_test_dummy_r1cs] *)
Definition dummy_r1cs (x_len wit_len rows : nat) : r1cs R :=
  let A := dummy_identity rows (x_len + wit_len + 1) in R1cs 1 A A A.
(** arith/r1cs.rs 170-186 [get_test_dummy_r1cs_non_scalar] *)
Definition dummy_r1cs_non_scalar (x_len wit_len rows : nat) (witness : list R) : result (r1cs R) :=
  let A := dummy_identity rows (x_len + wit_len + 1) in
  do C <- dummy_squaring rows (x_len + wit_len + 1) witness;
  Ok (R1cs 1 A A C).
(** arith/r1cs.rs 279-285 [get_test_dummy_z_split] *)
Definition dummy_z_split (x_len wit_len : nat) : R * list R * list R := (1, repeat 1 x_len, repeat 1 wit_len).
(** arith/ccs.rs 14-43 [get_test_dummy_degree_three_ccs_non_scalar]; [ccs.n - ccs.l - 1] underflows when x_len + wit_len = 0. *)
Definition dummy_degree_three (witness : list R) (x_len n wit_len L n_rows : nat) : result (ccs R) :=
  let A := dummy_identity n_rows (x_len + wit_len + 1) in
  do D <- dummy_cubing n_rows (x_len + wit_len + 1) witness;
  let cs := Ccs n (x_len + wit_len + 1) 1 4 2 3 (ark_log2 n) (x_len + wit_len + 1) [A; A; A; D]
                [[0; 1; 2]; [3]]%nat [1; - (1)] in
  if (c_n cs <=? c_l cs)%nat then Panic
  else Ok (pad_rows_to cs (next_pow2 (Nat.max ((c_n cs - c_l cs - 1) * L) (c_m cs)))).
(** arith/ccs.rs 45-54 [get_test_degree_three_z]; [input * input] is not larger than [input * input * input]. *)
Definition degree_three_z (input : Z) : result (list R) :=
  do c <- usize_ok (input * input * input);
  do d <- usize_ok (c + input);
  do e <- usize_ok (d + 5);
  Ok (map rofZ [input; 1; c; d; e]%Z).
(** External [SparseMatrix::from_dense] on small matrices (arith/r1cs.rs 105-113 [to_F_matrix]): the entries that are not zero. *)
Definition sparse_of (rows : list (list Z)) : smat R :=
  SMat (length rows) (length (hd [] rows))
    (map (fun r => map (fun i => (rofZ (nth i r 0%Z), i)) (filter (fun i => negb (nth i r 0%Z =? 0)%Z) (seq 0 (length r)))) rows).
(** arith/ccs.rs 94-131 [get_test_degree_three_ccs] *)
Definition degree_three_ccs : ccs R :=
  Ccs 3 5 1 4 2 3 (ark_log2 3) (ark_log2 5)
    [sparse_of [[1; 0; 0; 0; 0]; [1; 0; 1; 0; 0]; [0; 5; 0; 1; 0]]%Z;
     sparse_of [[1; 0; 0; 0; 0]; [0; 1; 0; 0; 0]; [0; 1; 0; 0; 0]]%Z;
     sparse_of [[1; 0; 0; 0; 0]; [0; 1; 0; 0; 0]; [0; 1; 0; 0; 0]]%Z;
     sparse_of [[0; 0; 1; 0; 0]; [0; 0; 0; 1; 0]; [0; 0; 0; 0; 1]]%Z]
    [[0; 1; 2]; [3]]%nat [1; - (1)].
(** arith/r1cs.rs 126-149 [get_test_r1cs] (compiled for tests only, but the vectors of [get_test_z] are public and made for it) *)
Definition cubic_r1cs : r1cs R :=
  R1cs 1
    (sparse_of [[1; 0; 0; 0; 0; 0]; [0; 0; 0; 1; 0; 0]; [1; 0; 0; 0; 1; 0]; [0; 5; 0; 0; 0; 1]]%Z)
    (sparse_of [[1; 0; 0; 0; 0; 0]; [1; 0; 0; 0; 0; 0]; [0; 1; 0; 0; 0; 0]; [0; 1; 0; 0; 0; 0]]%Z)
    (sparse_of [[0; 0; 0; 1; 0; 0]; [0; 0; 0; 0; 1; 0]; [0; 0; 0; 0; 0; 1]; [0; 0; 1; 0; 0; 0]]%Z).
(** arith/r1cs.rs 225-235 [get_test_z]; the first product and sum formed are the largest ones. *)
Definition cubic_z (input : Z) : result (list R) :=
  do c <- usize_ok (input * input * input);
  do d <- usize_ok (c + input);
  do e <- usize_ok (d + 5);
  Ok (map rofZ [input; 1; e; input * input; c; d]%Z).
(** arith/r1cs.rs 264-267 [get_test_z_split], arith/ccs.rs 82-86 [get_test_degree_three_z_split]: out of range indices and slices panic. *)
Definition split_z (z : list R) : result (R * list R * list R) :=
  do o <- index z 1; do x <- index z 0; if (length z <? 2)%nat then Panic else Ok (o, [x], skipn 2 z).
End D.

Section N.
Context {F K C R : Type} {SO : SOps F K C R}.
(** arith/r1cs.rs 289-306 [get_test_dummy_z_split_ntt] *)
Definition dummy_z_split_ntt (x_len wit_len : nat) : R * list R * list R :=
  (1, repeat 1 x_len, repeat (of_slots (map (fun i => rofZ (Z.of_nat i)) (seq 0 dimN))) wit_len).
(** arith/ccs.rs 56-80 [get_test_degree_three_z_non_scalar]: the vector of [degree_three_z] for each slot (numbers below the
    dimension do not overflow). *)
Definition degree_three_z_non_scalar : list R :=
  map (fun f : Z -> Z => of_slots (map (fun i => rofZ (f (Z.of_nat i))) (seq 0 dimN)))
    [fun x => x; fun _ => 1; fun x => x * x * x; fun x => x * x * x + x; fun x => x * x * x + x + 5]%Z.
(** arith/r1cs.rs 237-260 [get_test_z_ntt]: the same with the vector of [cubic_z]. *)
Definition cubic_z_ntt : list R :=
  map (fun f : Z -> Z => of_slots (map (fun i => rofZ (f (Z.of_nat i))) (seq 0 dimN)))
    [fun x => x; fun _ => 1; fun x => x * x * x + x + 5; fun x => x * x; fun x => x * x * x; fun x => x * x * x + x]%Z.
End N.
