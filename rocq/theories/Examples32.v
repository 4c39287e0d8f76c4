(** Concrete cases for the theorems of Properties36.v. *)
From Coq Require Import String List Arith Lia ZArith Bool.
From Verif Require Import Prelude Alg Poly MLE Transcript Sumcheck Arith Arith_Proofs Inst5 Toy SizeWords Properties36.
Import ListNotations.
Local Open Scope Z_scope.

(** The system of Toy.v: n = 6, l = 1, m = 4; with L = 1 both builds admit it, with L = 2 both reject it and pad to 8 rows. *)
Example ex_C120_agrees chk : (c_l exCs < c_n exCs)%nat /\ Z.of_nat (Nat.max ((c_n exCs - c_l exCs - 1) * 2) (c_m exCs)) <= 2 ^ 63 /\
  w_sanity chk (Z.of_nat (c_n exCs)) (Z.of_nat (c_l exCs)) (Z.of_nat (c_m exCs)) 1 = Ok true /\
  w_sanity chk (Z.of_nat (c_n exCs)) (Z.of_nat (c_l exCs)) (Z.of_nat (c_m exCs)) 2 = Ok false /\
  w_padded chk (Z.of_nat (c_n exCs)) (Z.of_nat (c_l exCs)) (Z.of_nat (c_m exCs)) 2 = Ok 8.
Proof. split; [cbn; lia|]. split; [vm_compute; discriminate|]. destruct chk; vm_compute; auto. Qed.
(** 2^62 columns and L = 4: the product is 0 in a release build. *)
Example ex_C120_wraps : w_sanity false (2 ^ 62 + 1) 0 4 4 = Ok true /\ w_sanity true (2 ^ 62 + 1) 0 4 4 = Panic /\ ~ sizes_fit (2 ^ 62 + 1) 0 4 4.
Proof. split; [vm_compute; reflexivity|]. split; [vm_compute; reflexivity|]. intros (_ & _ & H). lia. Qed.
(** A fitting system of 2^20 rows in a debug build. *)
Example ex_C120_debug : sizes_fit (2 ^ 18 + 3) 2 (2 ^ 20) 4 /\ w_sanity true (2 ^ 18 + 3) 2 (2 ^ 20) 4 = Ok true.
Proof. split; [|vm_compute; reflexivity]. split; [lia|]. split; [exists 20; lia|lia]. Qed.
(** One column, which is the public input. *)
Example ex_C120_underflow : w_sanity true 1 1 4 4 = Panic /\ w_sanity false 1 1 4 4 = Ok false /\ w_padded false 1 1 4 4 = Ok 4.
Proof. vm_compute. auto. Qed.
