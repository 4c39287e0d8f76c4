(** Concrete instances for C93 and C94. *)
From Coq Require Import ZArith Bool Lia Reals Lra.
From Flocq Require Import Core IEEE754.BinarySingleNaN.
From Verif Require Import Prelude Floats Floats_Proofs Challenge Properties17.
Local Open Scope Z_scope.

(** plus.rs 162-170 [test_prove] and 220-226 [test_prove_multi] with the Frog ring (d = 16). *)
Example ex_C93 : estimate_bound_f64 (16 * 128) 3 16 2 = Ok 6185 /\ estimate_bound_f64 (16 * 128) 3 16 4 = Ok 6217 /\
  (let a := 16 * 128 * 3 in let c := 16 / 2 + 16 * 2 + 1 in a * a + 4 * a * c < 2 ^ 50).
Proof. split; [vm_compute; reflexivity|split; vm_compute; reflexivity]. Qed.
(** a^2 no longer fits a [usize]. *)
Example ex_C93_overflow : estimate_bound_f64 (2 ^ 32) 1 16 2 = Panic.
Proof. reflexivity. Qed.

(** A platform whose [powf] returns 2^40: Goldilocks, degree 24, 2^10 columns, base 2^16, four digits. *)
Example ex_C94 : let powf := fun _ _ => f_ofZ (2 ^ 40) in
  check_128 powf (fun x => x) (f_ofZ 1) gold_p 10 24 (2 ^ 10) (2 ^ 16) 4 false = true /\
  B2R (bound_l2 powf (fun x => x) (f_ofZ 1) 24 10 (f_ofZ (bits gold_p))) = IZR (2 ^ 40) /\
  is_finite (bound_l2 powf (fun x => x) (f_ofZ 1) 24 10 (f_ofZ (bits gold_p))) = true /\ Zceil (IZR (2 ^ 40)) < 2 ^ 64.
Proof.
  cbv zeta. split; [vm_compute; reflexivity|]. unfold bound_l2. destruct (f_ofZ_fin (2 ^ 40) 40 ltac:(lia) ltac:(lia)) as [E F].
  split; [|split; [exact F|rewrite Zceil_IZR; lia]]. rewrite E. apply rnd_Z. lia.
Qed.
(** The same base 2^16 is too large for a smaller bound. *)
Example ex_C94_reject : check_128 (fun _ _ => f_ofZ (2 ^ 20)) (fun x => x) (f_ofZ 1) gold_p 10 24 (2 ^ 10) (2 ^ 16) 4 false = false.
Proof. vm_compute. reflexivity. Qed.
(** Hypotheses of [C94_saturation_refuted]: a platform whose [powf] returns 2^300. *)
Example ex_C94_saturation : let yf := bound_l2 (fun _ _ => f_ofZ (2 ^ 300)) (fun x => x) (f_ofZ 1) 16 1000 (f_ofZ (bits stark_p)) in
  is_finite yf = true /\ (IZR (stark_p / 2) <= B2R yf)%R.
Proof.
  cbv zeta. unfold bound_l2. destruct (f_ofZ_fin (2 ^ 300) 300 ltac:(lia) ltac:(lia)) as [E F]. split; [exact F|].
  rewrite E, <- bpow_IZR by lia. rewrite rnd_bpow by lia. rewrite bpow_IZR by lia. apply IZR_le. vm_compute. discriminate.
Qed.
