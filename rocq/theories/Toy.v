(** A concrete transcript over the ring of Inst5.v and small concrete systems, used for examples
    and counterexamples. *)
From Coq Require Import List Arith Lia ZArith Bool Ring.
From Verif Require Import Prelude Alg MLE Transcript Arith Balanced Rings Inst5.
Import ListNotations.
Local Open Scope rs_scope.

Definition f5z (x : f5) : Z := Z.of_nat (f5n x).
Definition z5 (z : Z) : f5 := nf5 (Z.to_nat (z mod 5)).
Definition f25z (x : f25) : Z := (f5z (k0 x) + 5 * f5z (k1 x))%Z.
Definition r2z (x : r2) : Z := (f25z (s0 x) + 25 * f25z (s1 x))%Z.
(** A toy sponge: the state is an integer modulo 10007. *)
Definition tmix (s z : Z) : Z := ((s * 613 + z * 91 + 17) mod 10007)%Z.
Fixpoint tbytes (s : Z) (n : nat) : list Z :=
  match n with O => [] | S k => (tmix s 3 mod 256)%Z :: tbytes (tmix s 3) k end.
#[export] Instance toy_trans : TransOps Z r2 f25 :=
  {| absorb := fun s x => tmix s (r2z x);
     get_challenge := fun s => (K2 (z5 s) (z5 (s / 5)), tmix s 1);
     squeeze_bytes := fun s n => (tbytes s n, tmix s (Z.of_nat n)) |}.

Definition rz (z : Z) : r2 := rofZ z.
(** An element that is not an integer. *)
Definition xi : r2 := R2 (K2 a1 a1) (K2 a2 a3).

(** Parameters: base 4 with one digit covers Z/5; base 2 with two digits covers base 4. *)
Definition exP : dparams := DParams 4 1 2 2.
(** y = x^3 + x + 1 as an R1CS over z = (x, 1, x^2, x^3, x^3+x, x^3+x+1). *)
Definition i1 : r2 := 1.
Definition exR : r1cs r2 :=
  R1cs 1
    (SMat 4 6 [[(i1, 0)]; [(i1, 2)]; [(i1, 3); (i1, 0)]; [(i1, 4); (i1, 1)]]%nat)
    (SMat 4 6 [[(i1, 0)]; [(i1, 0)]; [(i1, 1)]; [(i1, 1)]]%nat)
    (SMat 4 6 [[(i1, 2)]; [(i1, 3)]; [(i1, 4)]; [(i1, 5)]]%nat).
Definition exCs : ccs r2 := Eval vm_compute in
  match ccs_from_r1cs_padded exR 4 1 with Ok cs => cs | _ => ccs_from_r1cs exR 4 end.
Definition exW (x : r2) : list r2 := [x * x; x * x * x; x * x * x + x; x * x * x + x + 1].
Definition exWit (x : r2) : witness c4 r2 := wit_from_w_ccs exP (exW x).
Definition exA : ajtai r2 := Ajtai 4 [[rz 1; xi; rz 2; xi * xi]; [xi + 1; rz 3; xi * rz 2; rz 1]].
Definition exI (x : r2) : cccs r2 :=
  Cccs (match commit exA (w_f (exWit x)) with Ok c => c | _ => [] end) [x].
#[export] Instance emb5_laws : @EmbedLaws f25 r2 f25_ops r2_ops (@s_emb f5 f25 c4 r2 sops5) := @l_E f5 f25 c4 r2 sops5 5 slaws5.
#[export] Existing Instance s_emb.
