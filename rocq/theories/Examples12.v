(** Concrete cases for the theorems of Properties12.v. *)
From Coq Require Import String List Arith Lia ZArith Bool Ring Znumtheory.
From Verif Require Import Prelude Alg MLE Transcript Rings Rings_Proofs Challenge Challenge_Proofs PolyInst Primes FieldExt CycInst RealRings ShortDual Sampling Properties9 Properties12.
Import ListNotations.
Local Open Scope rs_scope.

(** ** C80: two Goldilocks challenges which differ in the last byte *)
Definition exBs : list Z := [0; 1; 2; 3; 4; 5; 6; 7; 8; 9; 10; 11; 12; 13; 14; 15; 16; 17]%Z.
Definition exBs' : list Z := [0; 1; 2; 3; 4; 5; 6; 7; 8; 9; 10; 11; 12; 13; 14; 15; 16; 255]%Z.
Lemma ex_bytes : bytes 18 exBs /\ bytes 18 exBs'.
Proof. split; (split; [reflexivity|]); unfold exBs, exBs'; repeat (apply Forall_cons; [unfold is_byte; lia|]); apply Forall_nil. Qed.
Example ex_decoded : exists c c', gold_challenge exBs = Ok c /\ gold_challenge exBs' = Ok c' /\
  map (ctr gold_p) c = [-32; -28; 0; -32; -29; -16; -16; -31; -26; -4; -32; -30; -23; 8; 16; -30; -20; 20; 0; -29; -17; -32; -15; -28]%Z /\
  map (ctr gold_p) c' = [-32; -28; 0; -32; -29; -16; -16; -31; -26; -4; -32; -30; -23; 8; 16; -30; -20; 20; 0; -29; -17; -32; 17; 31]%Z.
Proof. eexists _, _. split; [vm_compute; reflexivity|]. split; [vm_compute; reflexivity|]. vm_compute. auto. Qed.
Example ex_C80 : exists c c' u, gold_challenge exBs = Ok c /\ gold_challenge exBs' = Ok c' /\
  @rmul _ (c_ops gold_cyc) u (@rsub _ (c_ops gold_cyc) (elt_of gold_p (cy_d gold_cyc) c) (elt_of gold_p (cy_d gold_cyc) c')) = @rone _ (c_ops gold_cyc).
Proof.
  destruct ex_decoded as (c & c' & E1 & E2 & _). destruct ex_bytes as [B1 B2].
  destruct (C80_strong_sampling gold_cyc gold_challenge 18 ring_gold exBs exBs' _ _ B1 B2 ltac:(discriminate) E1 E2) as [u Hu].
  exists c, c', u. split; [exact E1|]. split; [exact E2|]. exact Hu.
Qed.
(** Larger elements can be zero divisors: in the first slot of Goldilocks X^3 = 256, so 256 - X^3 is not a unit although its
    coefficients are at most 256. *)
Definition exNonUnit : pol (fp gold_p) (cy_d gold_cyc) := elt_of gold_p (cy_d gold_cyc) [256; 0; 0; -1]%Z.
Example ex_non_unit u : @rmul _ (c_ops gold_cyc) u exNonUnit <> @rone _ (c_ops gold_cyc).
Proof.
  intros E. assert (2 < gold_p)%Z as H2 by reflexivity. assert (0 < cy_k gold_cyc)%nat as Hk by (cbn; lia).
  assert (ev gold_cyc (root gold_cyc 0) exNonUnit = @rzero cub (@fld_ring _ (cy_KO gold_cyc))) as H0.
  { rewrite (ev_list gold_cyc gold_xl). vm_compute. apply f_equal3; apply fp_ext; reflexivity. }
  apply (f_equal (ev gold_cyc (root gold_cyc 0))) in E.
  rewrite (ev_mul gold_cyc H2 gold_xl gold_check 0 u exNonUnit Hk), (ev_1 gold_cyc H2 gold_xl gold_check), H0 in E.
  pose proof (xl_K _ gold_xl) as KL. rewrite (@rmul_0_r _ _ (fld_laws (FieldLaws := KL))) in E. vm_compute in E. discriminate E.
Qed.

(** ** C82: squeezers which redraw exactly one of three challenges *)
Definition exSQ (j : nat) (s : Z) : list Z * Z := (if (Z.of_nat j =? s + 1)%Z then exBs' else exBs, (s + 1)%Z).
Example ex_forked : forked 18 3 (fun j => draws (exSQ j) 0%Z 3).
Proof.
  destruct ex_bytes as [B1 B2]. split.
  - intros j Hj. split; [apply draws_length|]. cbn [draws exSQ].
    repeat (apply Forall_cons; [match goal with |- bytes _ (if ?b then _ else _) => destruct b end; assumption|]). constructor.
  - intros i k Hi Hk. do 3 (destruct i as [|i]; [do 3 (destruct k as [|k]; [cbn; split; intros H; [first [lia|discriminate H]|first [reflexivity|lia]]|]); lia|]). lia.
Qed.
