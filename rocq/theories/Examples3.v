(** Concrete cases for Properties3.v: the byte strings of the unit tests (goldilocks.rs 77-112,
    babybear.rs 77-112). *)
From Coq Require Import List Arith Lia ZArith Bool.
From Verif Require Import Prelude Challenge Challenge_Proofs Properties3.
Import ListNotations.
Local Open Scope Z_scope.

Definition test_bytes : list Z :=
  [123;75;229;142;229;17;210;208;156;34;186;46;235;168;186;53;242;24].
Definition test_coeffs : list Z :=
  [27;13;-12;25;-18;-10;-2;-28;-14;-29;-19;7;2;8;11;-21;11;3;10;14;21;-24;-17;-26].
Example ex_gold_test : bytes 18 test_bytes /\ gold_challenge test_bytes = Ok (map (fun x => x mod gold_p) test_coeffs).
Proof. split; [split; [reflexivity|unfold test_bytes, is_byte; repeat (apply Forall_cons; [lia|]); apply Forall_nil]|]. vm_compute. reflexivity. Qed.
Example ex_bb_test : bb_challenge test_bytes = Ok (map (fun x => x mod bb_p) test_coeffs ++ repeat 0 48).
Proof. vm_compute. reflexivity. Qed.
Example ex_frog_test : frog_challenge (map Z.of_nat (seq 120 16)) = Ok (map (fun x => (Z.of_nat x - 128) mod frog_p) (seq 120 16)).
Proof. vm_compute. reflexivity. Qed.
Example ex_short_squeeze :
  poseidon_short (fun (s : Z) n => (map (fun i => (s + Z.of_nat i) mod 256) (seq 0 n), s + 1)) gold_challenge 17 5
  = Panic.
Proof. vm_compute. reflexivity. Qed.
Example ex_short_squeeze_ok :
  exists c, poseidon_short (fun (s : Z) n => (map (fun i => (s + Z.of_nat i) mod 256) (seq 0 n), s + 1)) stark_challenge 16 250
  = Ok (c, 251) /\ nth 7 c 0 = 1.
Proof. eexists. split; vm_compute; reflexivity. Qed.
