(** C112 for the shipped rings and parameter sets, on the system "x is the square of w". *)
From Coq Require Import String List Arith Lia ZArith Bool.
From Verif Require Import Prelude Alg Zippel Counting Transcript Arith Rings Relations NIFS
  PolyInst CycInst Sampling Shipped Properties13 Examples13 SoundErr Properties16 Properties28.
Import ListNotations.
Local Open Scope rs_scope.
Example ex_C112 {p K} (y : cyc p K) decode need W G P : forall SH : shipped p K y decode need W G, In P (W ++ G) ->
  forall A acc opn adv, length (lc_r acc) = Nat.log2_up (dp_L P) ->
  let U := list_prod (tuples (n_coins P (sq_cs y P) + (2 * dp_K P - 1)) (all_challenges y)) (tuples (2 * dp_K P - 1) (byte_strings need)) in
  forall L, NoDup L -> Forall (fun zs => In zs (tuples 1000 U) /\ good y decode P A (sq_cs y P) opn adv [] acc zs /\ ~ claims y decode P A (sq_cs y P) opn adv [] acc zs) L ->
    (2 ^ 109 * Z.of_nat (length L) <= Z.of_nat (length U) ^ 1000)%Z.
Proof.
  intros SH HP A acc opn adv Hr U L H1 H2.
  assert (2 ^ 119 * Z.of_nat (length L) <= Z.of_nat 1000 * Z.of_nat (length U) ^ Z.of_nat 1000)%Z as H.
  { apply (C112_shipped y decode need W G SH P HP A (sq_cs y P) acc opn adv); auto; try (cbn [sq_cs c_d c_t]; lia).
    - apply (sq_good y decode need W G SH P HP). apply (ex_L y decode need W G P SH HP).
    - assert (forallb (fun P => (Z.of_nat (Nat.log2_up (dp_L P)) <=? 2 ^ 32)%Z) (W ++ G) = true) as HF by (clear - SH; destruct SH; vm_compute; reflexivity).
      rewrite forallb_forall in HF. apply Z.leb_le. exact (HF P HP). }
  change (Z.of_nat 1000) with 1000%Z in H. set (X := (Z.of_nat (length U) ^ 1000)%Z) in *. clearbody X. change (2 ^ 119)%Z with (2 ^ 109 * 1024)%Z in H. set (T := (2 ^ 109)%Z) in *.
  assert (0 <= X)%Z. { assert (0 <= T * 1024 * Z.of_nat (length L))%Z by (unfold T; lia). lia. }
  nia.
Qed.
