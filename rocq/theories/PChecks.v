(** Computations on the tables of PoseidonParams.v. *)
From Coq Require Import List Arith Lia ZArith Bool.
From Verif Require Import Prelude Alg Challenge PolyInst RealRings Poseidon PoseidonParams PoseidonCert Poseidon_Proofs.
Import ListNotations.

Lemma cfg24_ok : cfg_ok cfg24.
Proof. split; [vm_compute; reflexivity|cbn; lia]. Qed.
Lemma cfg_stark_ok : cfg_ok cfg_stark.
Proof. split; [vm_compute; reflexivity|cbn; lia]. Qed.
Lemma gold_cauchy : cauchy_check (p := gold_p) cfg24 gold_cx gold_cy = true.
Proof. vm_compute. reflexivity. Qed.
Lemma bb_inv : inv_check (p := bb_p) cfg24 bb_minv = true.
Proof. vm_compute. reflexivity. Qed.
Lemma frog_inv : inv_check (p := frog_p) cfg24 frog_minv = true.
Proof. vm_compute. reflexivity. Qed.
Lemma stark_minors : minors3 (p := stark_p) cfg_stark = true.
Proof. vm_compute. reflexivity. Qed.
