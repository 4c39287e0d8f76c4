(** Final statements, part 3: short challenges.  Proofs are one-line references. *)
From Coq Require Import List Arith Lia ZArith Bool.
From Verif Require Import Prelude Challenge Challenge_Proofs.
Import ListNotations.
Local Open Scope Z_scope.

(** * C41: range, failure condition and injectivity of the four decoders *)
Theorem C41_decoders :
  good_decoder gold_challenge 18 gold_p 24 (-32) 32 /\
  good_decoder bb_challenge 18 bb_p 72 (-32) 32 /\
  good_decoder frog_challenge 16 frog_p 16 (-128) 128 /\
  good_decoder stark_challenge 16 stark_p 16 0 256.
Proof. exact (conj gold_good (conj bb_good (conj frog_good stark_good))). Qed.
Theorem C41_get_short_challenge {T} (squeeze : T -> nat -> list Z * T) decode n p d lo hi ts :
  good_decoder decode n p d lo hi -> bytes n (fst (squeeze ts n)) ->
  exists c, poseidon_short squeeze decode n ts = Ok (c, snd (squeeze ts n)) /\ short_vec p d lo hi c.
Proof. exact (poseidon_short_ok squeeze decode n p d lo hi ts). Qed.

(** * C42: every vector of the documented range is reachable (all rings but BabyBear) *)
Theorem C42_onto_partial :
  onto_decoder gold_challenge 18 gold_p 24 (-32) 32 /\
  onto_decoder frog_challenge 16 frog_p 16 (-128) 128 /\
  onto_decoder stark_challenge 16 stark_p 16 0 256.
Proof. exact (conj gold_onto (conj frog_onto stark_onto)). Qed.
(** BabyBear: only the first 24 of 72 coefficients are ever nonzero. *)
Theorem C42_babybear_tail bs c i : bytes 18 bs -> bb_challenge bs = Ok c -> (24 <= i)%nat -> nth i c 0 = 0.
Proof. exact (bb_tail_zero bs c i). Qed.
Theorem C42_babybear_refuted : exists c, short_vec bb_p 72 (-32) 32 c /\
  forall bs, bytes 18 bs -> bb_challenge bs <> Ok c.
Proof.
  exists (repeat 0 24 ++ [1] ++ repeat 0 47). split.
  - exists (repeat 0 24 ++ [1] ++ repeat 0 47). split; [reflexivity|]. split; [|vm_compute; reflexivity].
    apply Forall_forall. intros x Hx. repeat apply in_app_or in Hx as [Hx|Hx]; try (apply repeat_spec in Hx; lia).
    destruct Hx as [<-|[]]. lia.
  - intros bs Hb E. pose proof (bb_tail_zero bs _ 24 Hb E (le_n 24)) as H. vm_compute in H. discriminate.
Qed.
