(** Fermat's little theorem, Pocklington's criterion, and the primality of the characteristics of the four rings
    (the constants of Challenge.v; the fields themselves are external, ark_ff via stark-rings). *)
From Coq Require Import List Arith Lia ZArith Bool Znumtheory Permutation.
From Verif Require Import Prelude Challenge PolyInst.
Import ListNotations.
Local Open Scope Z_scope.

(** Binary exponentiation modulo [p]. *)
Fixpoint powm (p a : Z) (n : positive) : Z :=
  match n with
  | xH => a mod p
  | xO m => let x := powm p a m in (x * x) mod p
  | xI m => let x := powm p a m in (((x * x) mod p) * a) mod p
  end.
Lemma powm_spec p a n : powm p a n = (a ^ Zpos n) mod p.
Proof.
  induction n as [n IH|n IH|]; cbn [powm].
  - rewrite IH. replace (Zpos n~1) with (Zpos n + Zpos n + 1) by lia. rewrite !Z.pow_add_r, Z.pow_1_r by lia.
    rewrite <- Zmult_mod. rewrite Zmult_mod_idemp_l. reflexivity.
  - rewrite IH. replace (Zpos n~0) with (Zpos n + Zpos n) by lia. rewrite !Z.pow_add_r by lia. rewrite <- Zmult_mod. reflexivity.
  - rewrite Z.pow_1_r. reflexivity.
Qed.
Definition zpowm (p a n : Z) : Z := match n with Zpos k => powm p a k | _ => 1 mod p end.
Lemma zpowm_spec p a n : 0 <= n -> zpowm p a n = (a ^ n) mod p.
Proof. intros H. destruct n; [reflexivity|apply powm_spec|lia]. Qed.

(** * Fermat *)
Definition zprod (l : list Z) : Z := fold_right Z.mul 1 l.
Lemma zprod_perm l l' : Permutation l l' -> zprod l = zprod l'.
Proof. intros H. induction H; unfold zprod in *; cbn [fold_right]; lia. Qed.
Lemma zprod_scale q a l : zprod (map (fun x => (a * x) mod q) l) mod q = (a ^ Z.of_nat (length l) * zprod l) mod q.
Proof.
  induction l as [|x l IH]; [reflexivity|]. cbn [map length]. unfold zprod in *. cbn [fold_right]. rewrite Nat2Z.inj_succ, Z.pow_succ_r by lia.
  rewrite Zmult_mod, IH, Zmod_mod, <- Zmult_mod. f_equal. ring.
Qed.
Lemma zprod_prime q l : prime q -> (q | zprod l) -> exists x, In x l /\ (q | x).
Proof.
  intros Hq. induction l as [|x l IH]; unfold zprod in *; cbn [fold_right]; intros H.
  - exfalso. pose proof (prime_ge_2 q Hq). apply Z.divide_1_r_nonneg in H; lia.
  - apply prime_mult in H as [H|H]; auto; [exists x; split; [left|]; auto|]. apply IH in H as (y & ? & ?). exists y. split; [right|]; auto.
Qed.
Theorem fermat q a : prime q -> ~ (q | a) -> a ^ (q - 1) mod q = 1.
Proof.
  intros Hq Ha. pose proof (prime_ge_2 q Hq) as H2.
  set (l := map (fun i => Z.of_nat i) (seq 1 (Z.to_nat (q - 1)))).
  assert (Hl : forall x, In x l <-> 1 <= x < q).
  { intros x. unfold l. rewrite in_map_iff. split.
    - intros (i & <- & Hi). apply in_seq in Hi. lia.
    - intros Hx. exists (Z.to_nat x). rewrite in_seq. lia. }
  assert (Hnd : NoDup l) by (apply FinFun.Injective_map_NoDup; [intros i j; lia|apply seq_NoDup]).
  assert (Hlen : length l = Z.to_nat (q - 1)) by (unfold l; rewrite map_length, seq_length; auto).
  assert (Hinj : forall x y, In x l -> In y l -> (a * x) mod q = (a * y) mod q -> x = y).
  { intros x y Hx Hy E. apply Hl in Hx, Hy.
    assert ((q | a * (x - y))) as D.
    { apply Z.mod_divide; [lia|]. rewrite Z.mul_sub_distr_l, Zminus_mod, E, Z.sub_diag. apply Z.mod_0_l. lia. }
    apply prime_mult in D as [D|D]; auto; [contradiction|]. destruct D as [k Hk]. assert (k = 0) by nia. lia. }
  assert (P : Permutation (map (fun x => (a * x) mod q) l) l).
  { apply NoDup_Permutation_bis.
    - clear Hlen. assert (forall m, incl m l -> NoDup m -> NoDup (map (fun x => (a * x) mod q) m)) as G.
      { induction m as [|x m IH]; intros Hi Hm; cbn [map]; [constructor|]. inversion Hm; subst. constructor.
        - rewrite in_map_iff. intros (y & E & Hy). apply Hinj in E; [subst; contradiction|apply Hi; right; auto|apply Hi; left; auto].
        - apply IH; auto. intros z Hz. apply Hi. right. auto. }
      apply G; auto. intros z; auto.
    - rewrite map_length. auto.
    - intros z Hz. apply in_map_iff in Hz as (x & <- & Hx). apply Hl. pose proof (Z.mod_pos_bound (a * x) q ltac:(lia)) as B.
      assert ((a * x) mod q <> 0); [|lia]. intros E. apply Z.mod_divide in E; [|lia]. apply prime_mult in E as [E|E]; auto.
      apply Hl in Hx. apply Z.divide_pos_le in E; lia. }
  apply zprod_perm in P. pose proof (zprod_scale q a l) as S. rewrite P, Hlen, Z2Nat.id in S by lia.
  assert ((q | zprod l * (a ^ (q - 1) - 1))) as D.
  { apply Z.mod_divide; [lia|]. replace (zprod l * (a ^ (q - 1) - 1)) with (a ^ (q - 1) * zprod l - zprod l) by ring.
    rewrite Zminus_mod, <- S, Z.sub_diag. apply Z.mod_0_l. lia. }
  apply prime_mult in D as [D|D]; auto.
  - exfalso. apply zprod_prime in D as (x & Hx & D); auto. apply Hl in Hx. apply Z.divide_pos_le in D; lia.
  - destruct D as [k Hk]. replace (a ^ (q - 1)) with (1 + k * q) by lia. rewrite Z_mod_plus_full. apply Z.mod_small. lia.
Qed.

(** * Pocklington *)
Lemma pow_mod_1 q a n m : 0 <= n -> 0 <= m -> a ^ n mod q = 1 -> 1 < q -> a ^ (n * m) mod q = 1.
Proof.
  intros Hn Hm H Hq. rewrite Z.pow_mul_r by auto. rewrite <- (Z2Nat.id m) by auto. induction (Z.to_nat m) as [|k IH].
  - apply Z.mod_small. lia.
  - rewrite Nat2Z.inj_succ, Z.pow_succ_r by lia. rewrite Zmult_mod, H, IH. apply Z.mod_small. lia.
Qed.
(** Exponents killing [a] modulo [q] are closed under gcd. *)
Lemma pow_gcd q a : 1 < q -> forall k n m, (Z.to_nat (n + m) <= k)%nat -> 0 <= n -> 0 <= m -> a ^ n mod q = 1 -> a ^ m mod q = 1 -> a ^ (Z.gcd n m) mod q = 1.
Proof.
  intros Hq. induction k as [|k IH]; intros n m Hk Hn Hm H1 H2.
  - assert (n = 0) as -> by lia. assert (m = 0) as -> by lia. apply H1.
  - assert (forall x y, 0 < x <= y -> a ^ x mod q = 1 -> a ^ y mod q = 1 -> a ^ (y - x) mod q = 1) as St.
    { intros x y Hx E1 E2. replace y with (x + (y - x)) in E2 by lia. rewrite Z.pow_add_r, Zmult_mod, E1, Z.mul_1_l, Zmod_mod in E2 by lia. auto. }
    destruct (Z.eq_dec n 0) as [->|Hn0]; [rewrite Z.gcd_0_l, Z.abs_eq by lia; auto|].
    destruct (Z.eq_dec m 0) as [->|Hm0]; [rewrite Z.gcd_0_r, Z.abs_eq by lia; auto|].
    destruct (Z.le_gt_cases n m).
    + replace (Z.gcd n m) with (Z.gcd n (m - n)) by (rewrite Z.gcd_sub_diag_r; auto). apply IH; auto; try lia. apply St; auto; lia.
    + rewrite Z.gcd_comm. replace (Z.gcd m n) with (Z.gcd m (n - m)) by (rewrite Z.gcd_sub_diag_r; auto). apply IH; auto; try lia. apply St; auto; lia.
Qed.
Lemma pocklington_step n l e a q : prime l -> 0 <= e -> (l ^ e | n - 1) -> 1 < n ->
  a ^ (n - 1) mod n = 1 -> Z.gcd (a ^ ((n - 1) / l) - 1) n = 1 -> (l | n - 1) -> prime q -> (q | n) -> (l ^ e | q - 1).
Proof.
  intros Hl He Hle Hn H1 H2 Hln Hq Hqn. pose proof (prime_ge_2 q Hq) as Q2. pose proof (prime_ge_2 l Hl) as L2.
  assert (forall x, x mod n = 1 -> x mod q = 1) as Red.
  { intros x Hx. destruct Hqn as [k Hk]. pose proof (Z.div_mod x n ltac:(lia)) as D. rewrite Hx in D. rewrite D, Hk.
    replace (k * q * (x / (k * q)) + 1) with (1 + (k * (x / (k * q))) * q) by ring. rewrite Z_mod_plus_full. apply Z.mod_small. lia. }
  apply Red in H1.
  assert (~ (q | a)) as Ha.
  { intros [k Hk]. replace (n - 1) with (1 + (n - 2)) in H1 by lia. rewrite Z.pow_add_r, Z.pow_1_r, Hk in H1 by lia.
    replace (k * q * (k * q) ^ (n - 2)) with ((k * (k * q) ^ (n - 2)) * q) in H1 by ring. rewrite Z_mod_mult in H1. lia. }
  pose proof (fermat q a Hq Ha) as Hf.
  pose proof (pow_gcd q a ltac:(lia) (Z.to_nat (n - 1 + (q - 1))) (n - 1) (q - 1) ltac:(lia) ltac:(lia) ltac:(lia) H1 Hf) as Hg.
  set (g := Z.gcd (n - 1) (q - 1)) in *.
  destruct (Z.gcd_divide_l (n - 1) (q - 1)) as [h Hh]. fold g in Hh.
  assert (0 <= g) as Hg0 by apply Z.gcd_nonneg. assert (g <> 0) as Hgn by (intros E; rewrite E in Hh; lia).
  assert (0 < g) as Hgp by lia. assert (0 < h) as Hhp by (destruct (Z.le_gt_cases h 0); [exfalso; assert (h * g <= 0) by (apply Z.mul_nonpos_nonneg; lia); lia|lia]).
  destruct (Zdivide_dec l h) as [[k Hk]|Hlh].
  - exfalso. assert ((n - 1) / l = g * k) as E. { symmetry. apply Z.div_unique_exact; [lia|]. rewrite Hh, Hk. ring. }
    rewrite E in H2. assert (0 < k) by nia. pose proof (pow_mod_1 q a g k Hg0 ltac:(lia) Hg ltac:(lia)) as H3.
    assert ((q | 1)) as D.
    { rewrite <- H2. apply Z.gcd_greatest; auto. apply Z.mod_divide; [lia|]. rewrite Zminus_mod, H3, (Z.mod_small 1) by lia. apply Z.mod_0_l. lia. }
    apply Z.divide_1_r_nonneg in D; lia.
  - apply Z.divide_trans with g; [|apply Z.gcd_divide_r]. apply Gauss with h.
    + rewrite <- Hh. auto.
    + apply rel_prime_sym. rewrite <- (Z2Nat.id e) by auto. clear - Hl Hlh L2. induction (Z.to_nat e) as [|k IH].
      * apply rel_prime_sym. apply rel_prime_1.
      * rewrite Nat2Z.inj_succ, Z.pow_succ_r by lia. apply rel_prime_mult; auto. apply rel_prime_sym. apply prime_rel_prime; auto.
Qed.
(** With a single prime power exceeding the square root. *)
Theorem pocklington n l e a : prime l -> 0 < e -> 1 < n -> (n - 1) mod (l ^ e) = 0 -> n < (l ^ e + 1) * (l ^ e + 1) ->
  zpowm n a (n - 1) = 1 -> Z.gcd (zpowm n a ((n - 1) / l) - 1) n = 1 -> prime n.
Proof.
  intros Hl He Hn Hdiv Hbig H1 H2. pose proof (prime_ge_2 l Hl) as L2.
  assert (0 < l ^ e) as Hpos by (apply Z.pow_pos_nonneg; lia).
  apply Z.mod_divide in Hdiv; [|lia].
  assert ((l | n - 1)) as Hln. { apply Z.divide_trans with (l ^ e); auto. replace e with (1 + (e - 1)) by lia. rewrite Z.pow_add_r, Z.pow_1_r by lia. apply Z.divide_factor_l. }
  rewrite zpowm_spec in H1 by lia. rewrite zpowm_spec in H2 by (apply Z.div_pos; lia).
  assert (Z.gcd (a ^ ((n - 1) / l) - 1) n = 1) as H3.
  { set (x := a ^ ((n - 1) / l)) in *. assert (x - 1 = x mod n - 1 + (x / n) * n) as -> by (pose proof (Z.div_mod x n ltac:(lia)); lia).
    rewrite Z.gcd_comm, Z.gcd_add_mult_diag_r, Z.gcd_comm. exact H2. }
  assert (forall q, prime q -> (q | n) -> l ^ e < q) as Hall.
  { intros q Hq Hqn. pose proof (pocklington_step n l e a q Hl ltac:(lia) Hdiv Hn H1 H3 Hln Hq Hqn) as Hk. pose proof (prime_ge_2 q Hq). apply Z.divide_pos_le in Hk; lia. }
  (* smallest prime factor *)
  assert (forall k m, (Z.to_nat m <= k)%nat -> 1 < m -> exists q, prime q /\ (q | m)) as Hex.
  { induction k as [|k IH]; intros m Hm H1m; [lia|]. destruct (prime_dec m) as [Hp|Hp]; [exists m; split; auto; apply Z.divide_refl|].
    apply not_prime_divide in Hp as (d & Hd & Hdm); auto. destruct (IH d ltac:(lia) ltac:(lia)) as (q & Hq & Hqd). exists q. split; auto. apply Z.divide_trans with d; auto. }
  destruct (prime_dec n) as [|Hp]; auto. exfalso. apply not_prime_divide in Hp as (d & Hd & [k Hk]); auto.
  assert (1 < k) by nia.
  destruct (Hex (Z.to_nat d) d ltac:(lia) ltac:(lia)) as (q & Hq & Hqd). destruct (Hex (Z.to_nat k) k ltac:(lia) ltac:(lia)) as (q' & Hq' & Hqk).
  assert (l ^ e < q) by (apply Hall; auto; rewrite Hk; apply Z.divide_mul_r; auto).
  assert (l ^ e < q') by (apply Hall; auto; rewrite Hk; apply Z.divide_mul_l; auto).
  apply Z.divide_pos_le in Hqd; [|lia]. apply Z.divide_pos_le in Hqk; [|lia]. nia.
Qed.

(** * The four characteristics *)
Ltac pocklington_with l e a Hl :=
  apply (pocklington _ l e a Hl); [reflexivity|reflexivity|vm_compute; reflexivity|vm_compute; reflexivity|vm_compute; reflexivity|vm_compute; reflexivity].
Lemma gold_prime : prime gold_p.
Proof. pocklington_with 2 32 7 prime_2. Qed.
Lemma bb_prime : prime bb_p.
Proof. pocklington_with 2 27 11 prime_2. Qed.
Lemma stark_prime : prime stark_p.
Proof. pocklington_with 2 192 3 prime_2. Qed.
Lemma prime_633927373 : prime 633927373.
Proof. apply (prime_by_trial 633927373 (Z.to_nat 25200)); [reflexivity|rewrite Z2Nat.id by lia; reflexivity|vm_cast_no_check (eq_refl true)]. Qed.
Lemma prime_319007468350553 : prime 319007468350553.
Proof. pocklington_with 633927373 1 2 prime_633927373. Qed.
Lemma frog_prime : prime frog_p.
Proof. pocklington_with 319007468350553 1 2 prime_319007468350553. Qed.
