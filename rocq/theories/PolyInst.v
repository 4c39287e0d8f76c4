(** The ring interface [PLaws] of latticefold-plus is satisfied by F_p[X]/(X^d + 1) in coefficient form, for every odd
    prime [p] and every even [d] >= 2 (stark-rings' power-of-two cyclotomic rings, e.g. frog with d = 16; external code). *)
From Coq Require Import String List Arith Lia ZArith Bool Ring Znumtheory.
From Coq Require Import Eqdep_dec.
From Verif Require Import Prelude Alg MLE_Proofs Transcript Rings PlusRing PlusUtils_Proofs Plus_Norm.
Import ListNotations.

(** * The prime field *)
Record fp (p : Z) : Set := Fp { fpz : Z; fp_ok : (fpz mod p =? fpz)%Z = true }.
Arguments Fp {p}. Arguments fpz {p}. Arguments fp_ok {p}.
Lemma fp_ext {p} (x y : fp p) : fpz x = fpz y -> x = y.
Proof. destruct x as [a Ha], y as [b Hb]. cbn. intros ->. f_equal. apply UIP_dec. apply bool_dec. Qed.
Lemma fp_mod_ok p z : ((z mod p) mod p =? z mod p)%Z = true.
Proof. apply Z.eqb_eq. apply Zmod_mod. Qed.
Definition zp (p z : Z) : fp p := Fp (z mod p)%Z (fp_mod_ok p z).
Lemma fpz_mod {p} (x : fp p) : (fpz x mod p)%Z = fpz x.
Proof. apply Z.eqb_eq. apply fp_ok. Qed.
Lemma fpz_bound {p} (x : fp p) : (0 < p)%Z -> (0 <= fpz x < p)%Z.
Proof. intros H. rewrite <- fpz_mod. apply Z.mod_pos_bound. auto. Qed.

(** Extended Euclid: [u] with [u * a = gcd a b] modulo [b]. *)
Fixpoint egcd (n : nat) (a b : Z) : Z * Z :=
  match n with
  | O => (1, 0)%Z
  | S n' => if (b =? 0)%Z then (1, 0)%Z else let '(u, v) := egcd n' b (a mod b)%Z in (v, u - (a / b) * v)%Z
  end.
Lemma egcd_spec n : forall a b, (0 <= b)%Z -> (0 <= a)%Z -> (a * b < 2 ^ Z.of_nat n)%Z -> (b <= a)%Z ->
  let '(u, v) := egcd n a b in (u * a + v * b = Z.gcd a b)%Z.
Proof.
  induction n as [|n IH]; intros a b Hb Ha H Hle.
  - cbn [egcd]. change (2 ^ Z.of_nat 0)%Z with 1%Z in H. assert (b = 0 \/ 0 < b)%Z as [->|Hp] by lia.
    + rewrite Z.gcd_0_r. lia.
    + exfalso. nia.
  - cbn [egcd]. destruct (Z.eqb_spec b 0) as [->|Hb0]; [rewrite Z.gcd_0_r; lia|].
    pose proof (Z.mod_pos_bound a b ltac:(lia)) as Hm. pose proof (Z.div_mod a b Hb0) as Hd.
    specialize (IH b (a mod b)%Z ltac:(lia) ltac:(lia)).
    destruct (egcd n b (a mod b)) as [u v]. rewrite (Z.gcd_comm b), Z.gcd_mod in IH by auto. rewrite <- (Z.gcd_comm b a), <- IH.
    + nia.
    + rewrite Nat2Z.inj_succ, Z.pow_succ_r in H by lia.
      assert (1 <= a / b)%Z by (apply Z.div_le_lower_bound; lia). assert (2 * (a mod b) <= a)%Z by nia. nia.
    + lia.
Qed.
Definition zinv (p a : Z) : Z := snd (egcd (S (2 * Z.to_nat (Z.log2_up p))) p a).
#[export] Instance fp_ops p : FieldOps (fp p) :=
  {| fld_ring := {| rzero := zp p 0; rone := zp p 1; radd := fun x y => zp p (fpz x + fpz y); rmul := fun x y => zp p (fpz x * fpz y);
                    rsub := fun x y => zp p (fpz x - fpz y); ropp := fun x => zp p (- fpz x); req := fun x y => (fpz x =? fpz y)%Z |};
     finv := fun x => zp p (zinv p (fpz x)) |}.
Lemma zinv_ok p a : prime p -> (0 < a < p)%Z -> (a * zinv p a mod p = 1)%Z.
Proof.
  intros Hp Ha. unfold zinv. set (n := S (2 * Z.to_nat (Z.log2_up p))).
  assert (p * a < 2 ^ Z.of_nat n)%Z as Hn.
  { pose proof (Z.log2_up_nonneg p). pose proof (Z.log2_log2_up_spec p ltac:(lia)) as [_ HL]. unfold n. rewrite Nat2Z.inj_succ, Nat2Z.inj_mul, Z2Nat.id by auto.
    rewrite Z.pow_succ_r by lia. change (Z.of_nat 2) with 2%Z. rewrite Z.mul_comm, Z.pow_mul_r by lia.
    replace (2 ^ 2)%Z with 4%Z by reflexivity. replace 4%Z with (2 * 2)%Z by reflexivity. rewrite Z.pow_mul_l. nia. }
  pose proof (egcd_spec n p a ltac:(lia) ltac:(lia) Hn ltac:(lia)) as H. destruct (egcd n p a) as [u v]. cbn [snd].
  assert (Z.gcd p a = 1)%Z as E.
  { apply Zgcd_1_rel_prime. apply prime_rel_prime; auto. intros [k Hk]. assert (k < 1)%Z by nia. assert (0 < k)%Z by nia. lia. }
  rewrite E in H. replace (a * v)%Z with (1 + (- u) * p)%Z by lia. rewrite Z_mod_plus_full. apply Z.mod_small. pose proof (prime_ge_2 p Hp). lia.
Qed.
#[export] Instance fp_rlaws p : RingLaws (fp p).
Proof.
  split.
  - split; intros; apply fp_ext; cbn [radd rmul rsub ropp rzero rone fp_ops fld_ring fpz zp].
    + rewrite Zplus_mod_idemp_l. rewrite Z.add_0_l. apply fpz_mod.
    + f_equal; lia.
    + rewrite Zplus_mod_idemp_r, Zplus_mod_idemp_l. f_equal; lia.
    + rewrite Zmult_mod_idemp_l. rewrite Z.mul_1_l. apply fpz_mod.
    + f_equal; lia.
    + rewrite Zmult_mod_idemp_r, Zmult_mod_idemp_l. f_equal; lia.
    + rewrite Zmult_mod_idemp_l, Zplus_mod_idemp_r, Zplus_mod_idemp_l. f_equal; lia.
    + rewrite Zplus_mod_idemp_r. f_equal; lia.
    + rewrite Zplus_mod_idemp_r. f_equal; lia.
  - intros x y. cbn [req fp_ops fld_ring]. rewrite Z.eqb_eq. split; [apply fp_ext|congruence].
Qed.
Lemma fp_laws p : prime p -> FieldLaws (fp p).
Proof.
  intros Hp. pose proof (prime_ge_2 p Hp) as H2. split.
  - apply fp_rlaws.
  - intros x Hx. apply fp_ext. cbn [rmul finv rone fp_ops fld_ring fpz zp]. rewrite Zmult_mod_idemp_r.
    pose proof (fpz_bound x ltac:(lia)) as B. assert (fpz x <> 0%Z) as H0.
    { intros E; apply Hx; apply fp_ext; rewrite E. cbn [rzero fp_ops fld_ring fpz zp]. rewrite Z.mod_0_l by lia. reflexivity. }
    rewrite zinv_ok by (auto; lia). rewrite Z.mod_small; lia.
  - intros H. apply (f_equal fpz) in H. cbn [rone rzero fp_ops fld_ring fpz zp] in H. rewrite Z.mod_0_l, Z.mod_small in H by lia. discriminate.
Qed.
Local Open Scope rs_scope.
Lemma fpz_add p (x y : fp p) : fpz (x + y) = ((fpz x + fpz y) mod p)%Z.
Proof. reflexivity. Qed.
Lemma fpz_opp p (x : fp p) : fpz (- x) = ((- fpz x) mod p)%Z.
Proof. reflexivity. Qed.
Lemma rofZ_fp p z : fpz (rofZ z : fp p) = (z mod p)%Z.
Proof.
  assert (forall n, fpz (rofZ (Zpos n) : fp p) = (Zpos n mod p)%Z) as HP.
  { intros n. pattern n. apply Pos.peano_ind; clear n; [reflexivity|].
    intros n IH. rewrite Pos2Z.inj_succ. unfold Z.succ. rewrite rofZ_add.
    rewrite fpz_add, IH, rofZ_1. change (fpz (1 : fp p)) with (1 mod p)%Z.
    rewrite Zplus_mod_idemp_r, Zplus_mod_idemp_l. reflexivity. }
  destruct z as [|n|n]; [reflexivity|apply HP|].
  change (rofZ (Zneg n) : fp p) with (- (rofZ (Zpos n) : fp p)). rewrite fpz_opp, HP.
  rewrite <- Z.sub_0_l, Zminus_mod_idemp_r. reflexivity.
Qed.

(** * Polynomials modulo X^d + 1 over a commutative ring *)
Record pol (K : Type) (d : nat) : Type := Pol { pl_l : list K; pl_ok : (length pl_l =? d)%nat = true }.
Arguments Pol {K d}. Arguments pl_l {K d}. Arguments pl_ok {K d}.
Section Pol.
Context {K : Type} {KO : RingOps K} {KL : RingLaws K} {d : nat} (Hd : (1 <= d)%nat).
Add Ring Kring55 : (@rlaws_th K _ KL).
Notation R := (pol K d).
Definition co (x : R) (i : nat) : K := nth i (pl_l x) 0.
Lemma mk_ok (f : nat -> K) : (length (map f (seq 0 d)) =? d)%nat = true.
Proof. apply Nat.eqb_eq. rewrite map_length, seq_length. auto. Qed.
Definition mk (f : nat -> K) : R := Pol (map f (seq 0 d)) (mk_ok f).
Lemma co_mk f i : (i < d)%nat -> co (mk f) i = f i.
Proof. intros H. unfold co, mk. cbn [pl_l]. apply nth_seq_map. auto. Qed.
Lemma pol_len (x : R) : length (pl_l x) = d.
Proof. apply Nat.eqb_eq. apply pl_ok. Qed.
Lemma pol_eq (x y : R) : pl_l x = pl_l y -> x = y.
Proof. destruct x as [a Ha], y as [b Hb]. cbn. intros ->. f_equal. apply UIP_dec. apply bool_dec. Qed.
Lemma pol_ext (x y : R) : (forall i, (i < d)%nat -> co x i = co y i) -> x = y.
Proof. intros H. apply pol_eq. apply (list_ext 0); [rewrite !pol_len; auto|]. intros i Hi. rewrite pol_len in Hi. apply H. auto. Qed.

Definition padd (x y : R) : R := mk (fun i => co x i + co y i).
Definition psc (c : K) (x : R) : R := mk (fun i => c * co x i).
Definition pzero : R := mk (fun _ => 0).
Definition punit (j : nat) : R := mk (fun i => if (i =? j)%nat then 1 else 0).
(** X^i * y for i <= d. *)
Definition prot (i : nat) (y : R) : R := mk (fun k => if (i <=? k)%nat then co y (k - i) else - co y (d + k - i)).
Definition pmul (x y : R) : R := mk (fun k => sumn d (fun i => co x i * (if (i <=? k)%nat then co y (k - i) else - co y (d + k - i)))).
Definition pops : RingOps R :=
  {| rzero := pzero; rone := punit 0; radd := padd; rmul := pmul;
     rsub := fun x y => mk (fun i => co x i - co y i); ropp := fun x => mk (fun i => - co x i);
     req := fun x y => forallb (fun ab => fst ab =? snd ab) (combine (pl_l x) (pl_l y)) |}.

Lemma co_punit j i : (i < d)%nat -> co (punit j) i = if (i =? j)%nat then 1 else 0.
Proof. apply co_mk. Qed.
Lemma co_padd x y i : (i < d)%nat -> co (padd x y) i = co x i + co y i.
Proof. apply co_mk. Qed.
Lemma co_psc c x i : (i < d)%nat -> co (psc c x) i = c * co x i.
Proof. apply co_mk. Qed.
Lemma co_prot i y k : (k < d)%nat -> co (prot i y) k = if (i <=? k)%nat then co y (k - i) else - co y (d + k - i).
Proof. apply co_mk. Qed.
Lemma co_pmul x y k : (k < d)%nat -> co (pmul x y) k = sumn d (fun i => co x i * co (prot i y) k).
Proof. intros H. unfold pmul. rewrite co_mk by auto. apply sumn_ext. intros i Hi. unfold prot. rewrite co_mk by auto. auto. Qed.
Lemma prot_0 y : prot 0 y = y.
Proof. apply pol_ext. intros k Hk. unfold prot. rewrite co_mk by auto. cbn [Nat.leb]. rewrite Nat.sub_0_r. auto. Qed.
Lemma prot_S i y : (i < d)%nat -> prot (S i) y = prot 1 (prot i y).
Proof.
  intros Hi. apply pol_ext. intros k Hk. unfold prot. rewrite !co_mk by auto.
  destruct (Nat.leb_spec 1 k) as [H1|H1].
  - rewrite co_mk by lia. destruct (Nat.leb_spec (S i) k) as [H2|H2], (Nat.leb_spec i (k - 1)) as [H3|H3]; try lia; [f_equal; lia|f_equal; f_equal; lia].
  - assert (k = 0)%nat as -> by lia. rewrite co_mk by lia. destruct (Nat.leb_spec (S i) 0) as [H2|H2]; [lia|].
    destruct (Nat.leb_spec i (d + 0 - 1)) as [H3|H3]; [|lia]. f_equal. f_equal. lia.
Qed.
Lemma prot_d y : prot d y = psc (- (1)) y.
Proof. apply pol_ext. intros k Hk. unfold prot, psc. rewrite !co_mk by auto. destruct (Nat.leb_spec d k); [lia|]. replace (d + k - d)%nat with k by lia. ring. Qed.
Lemma prot_add i x y : (i <= d)%nat -> prot i (padd x y) = padd (prot i x) (prot i y).
Proof.
  intros Hi. apply pol_ext. intros k Hk. rewrite co_prot, (co_padd (prot i x)), !co_prot by auto.
  destruct (Nat.leb_spec i k); rewrite co_padd by lia; ring.
Qed.
Lemma prot_sc i c x : (i <= d)%nat -> prot i (psc c x) = psc c (prot i x).
Proof.
  intros Hi. apply pol_ext. intros k Hk. rewrite co_prot, (co_psc c (prot i x)), !co_prot by auto.
  destruct (Nat.leb_spec i k); rewrite co_psc by lia; ring.
Qed.
Lemma prot_comm i y : (i <= d)%nat -> prot i (prot 1 y) = prot 1 (prot i y).
Proof.
  induction i as [|i IH]; intros Hi; [rewrite !prot_0; auto|]. rewrite (prot_S i), IH by lia. rewrite <- (prot_S i y) by lia. auto.
Qed.
Lemma pmul_add_l x y z : pmul (padd x y) z = padd (pmul x z) (pmul y z).
Proof.
  apply pol_ext. intros k Hk. unfold padd at 2. rewrite co_mk, !co_pmul by auto. rewrite <- sumn_add. apply sumn_ext. intros i Hi.
  unfold padd. rewrite co_mk by auto. ring.
Qed.
Lemma pmul_sc_l c x z : pmul (psc c x) z = psc c (pmul x z).
Proof.
  apply pol_ext. intros k Hk. unfold psc at 2. rewrite co_mk, !co_pmul by auto. rewrite <- sumn_mul_l. apply sumn_ext. intros i Hi.
  unfold psc. rewrite co_mk by auto. ring.
Qed.
Lemma pmul_add_r x y z : pmul x (padd y z) = padd (pmul x y) (pmul x z).
Proof.
  apply pol_ext. intros k Hk. unfold padd at 2. rewrite co_mk, !co_pmul by auto. rewrite <- sumn_add. apply sumn_ext. intros i Hi.
  rewrite prot_add by lia. unfold padd. rewrite co_mk by auto. ring.
Qed.
Lemma pmul_sc_r c x z : pmul x (psc c z) = psc c (pmul x z).
Proof.
  apply pol_ext. intros k Hk. unfold psc at 2. rewrite co_mk, !co_pmul by auto. rewrite <- sumn_mul_l. apply sumn_ext. intros i Hi.
  rewrite prot_sc by lia. unfold psc. rewrite co_mk by auto. ring.
Qed.
(** The value of X * x at [k] as a linear functional. *)
Lemma pmul_prot_r x y : pmul x (prot 1 y) = prot 1 (pmul x y).
Proof.
  apply pol_ext. intros k Hk. unfold prot at 2. rewrite co_mk, co_pmul by auto.
  rewrite (sumn_ext d _ (fun i => co x i * co (prot 1 (prot i y)) k)) by (intros i Hi; rewrite prot_comm by lia; auto).
  destruct (Nat.leb_spec 1 k).
  - rewrite co_pmul by lia. apply sumn_ext. intros i Hi. f_equal. unfold prot at 1. rewrite co_mk by auto. destruct (Nat.leb_spec 1 k); [auto|lia].
  - rewrite co_pmul by lia. transitivity ((- (1)) * sumn d (fun i => co x i * co (prot i y) (d + k - 1))); [|ring].
    rewrite <- sumn_mul_l. apply sumn_ext. intros i Hi. unfold prot at 1. rewrite co_mk by auto. destruct (Nat.leb_spec 1 k); [lia|]. ring.
Qed.
Lemma pmul_prot_l x y : pmul (prot 1 x) y = prot 1 (pmul x y).
Proof.
  rewrite <- pmul_prot_r. apply pol_ext. intros k Hk. rewrite !co_pmul by auto.
  rewrite (sumn_ext d (fun i => co x i * co (prot i (prot 1 y)) k) (fun i => co x i * co (prot (S i) y) k)).
  2:{ intros i Hi. rewrite (prot_S i y), prot_comm by lia. auto. }
  assert (exists e, d = S e) as [e Ed] by (exists (d - 1)%nat; lia).
  assert (forall f : nat -> K, sumn d f = f 0%nat + sumn e (fun i => f (S i))) as A1 by (intros f; rewrite Ed at 1; apply sumn_S_first).
  assert (forall f : nat -> K, sumn d f = sumn e f + f e) as A2 by (intros f; rewrite Ed at 1; reflexivity).
  rewrite A1, A2. replace (S e) with d by auto. rewrite prot_d. rewrite co_psc by auto. rewrite prot_0.
  assert (co (prot 1 x) 0 = - co x e) as ->. { unfold prot. rewrite co_mk by lia. cbn [Nat.leb]. f_equal. f_equal. lia. }
  rewrite (sumn_ext e (fun i => co (prot 1 x) (S i) * co (prot (S i) y) k) (fun i => co x i * co (prot (S i) y) k)); [ring|].
  intros i Hi. f_equal. unfold prot. rewrite co_mk by lia. cbn [Nat.leb]. f_equal. lia.
Qed.
Lemma pmul_prot_l_n i x y : (i <= d)%nat -> pmul (prot i x) y = prot i (pmul x y).
Proof. induction i as [|i IH]; intros Hi; [rewrite !prot_0; auto|]. rewrite (prot_S i x), (prot_S i (pmul x y)) by lia. rewrite pmul_prot_l, IH by lia. auto. Qed.
Lemma pmul_prot_r_n i x y : (i <= d)%nat -> pmul x (prot i y) = prot i (pmul x y).
Proof. induction i as [|i IH]; intros Hi; [rewrite !prot_0; auto|]. rewrite (prot_S i y), (prot_S i (pmul x y)) by lia. rewrite pmul_prot_r, IH by lia. auto. Qed.
Lemma pmul_assoc x y z : pmul x (pmul y z) = pmul (pmul x y) z.
Proof.
  apply pol_ext. intros k Hk. rewrite (co_pmul x), (co_pmul (pmul x y)) by auto.
  rewrite (sumn_ext d (fun i => co x i * co (prot i (pmul y z)) k) (fun i => sumn d (fun j => co x i * (co (prot i y) j * co (prot j z) k)))).
  2:{ intros i Hi. rewrite <- pmul_prot_l_n by lia. rewrite co_pmul by auto. rewrite sumn_mul_l. auto. }
  rewrite sumn_swap. apply sumn_ext. intros j Hj. rewrite co_pmul by auto. rewrite <- sumn_mul_r. apply sumn_ext. intros i Hi. ring.
Qed.
Lemma prot_unit i : (i < d)%nat -> prot i (punit 0) = punit i.
Proof.
  intros Hi. apply pol_ext. intros k Hk. rewrite co_prot, (co_punit i) by auto.
  destruct (Nat.leb_spec i k); rewrite co_punit by lia; destruct (Nat.eqb_spec k i); destruct (Nat.eqb_spec (k - i) 0); destruct (Nat.eqb_spec (d + k - i) 0); try lia; auto; ring.
Qed.
Lemma pmul_1_r x : pmul x (punit 0) = x.
Proof.
  apply pol_ext. intros k Hk. rewrite co_pmul by auto. rewrite (sumn_single d k); auto.
  - rewrite prot_unit by auto. unfold punit. rewrite co_mk, Nat.eqb_refl by auto. ring.
  - intros i Hi Hne. rewrite prot_unit by auto. unfold punit. rewrite co_mk by auto. destruct (Nat.eqb_spec k i); [congruence|]. ring.
Qed.
Lemma pmul_comm x y : pmul x y = pmul y x.
Proof.
  (* y = y * 1, and left multiplication by x commutes with every power of X *)
  apply pol_ext. intros k Hk. rewrite (co_pmul y) by auto.
  assert (forall m, (m <= d)%nat -> forall w : R, (forall i, (m <= i < d)%nat -> co w i = 0) ->
     co (pmul x w) k = sumn m (fun i => co w i * co (prot i x) k)) as H.
  { induction m as [|m IH]; intros Hm w Hw.
    - cbn [sumn]. rewrite co_pmul by auto. apply sumn_0. intros i Hi. unfold prot. rewrite co_mk by auto.
      destruct (Nat.leb_spec i k); rewrite Hw by lia; ring.
    - set (w' := mk (fun i => if (i <? m)%nat then co w i else 0)).
      assert (w = padd w' (psc (co w m) (punit m))) as E.
      { apply pol_ext. intros i Hi. unfold padd, psc, punit, w'. repeat rewrite co_mk by auto.
        destruct (Nat.ltb_spec i m), (Nat.eqb_spec i m); subst; try lia; try ring. rewrite Hw by lia. ring. }
      rewrite E at 1. rewrite pmul_add_r, pmul_sc_r, <- (prot_unit m), pmul_prot_r_n, pmul_1_r by lia.
      unfold padd. rewrite co_mk by auto. unfold psc. rewrite co_mk by auto. cbn [sumn]. rewrite (IH ltac:(lia) w').
      + f_equal. apply sumn_ext. intros i Hi. unfold w'. rewrite co_mk by lia. destruct (Nat.ltb_spec i m); [auto|lia].
      + intros i Hi. unfold w'. rewrite co_mk by lia. destruct (Nat.ltb_spec i m); [lia|auto]. }
  apply H; auto. intros i Hi. lia.
Qed.
Lemma pol_laws : @RingLaws R pops.
Proof.
  split.
  - split; intros; cbn [radd rmul rsub ropp rzero rone pops].
    + apply pol_ext. intros i Hi. unfold padd, pzero. repeat rewrite co_mk by auto. ring.
    + apply pol_ext. intros i Hi. unfold padd. repeat rewrite co_mk by auto. ring.
    + apply pol_ext. intros i Hi. unfold padd. repeat rewrite co_mk by auto. ring.
    + rewrite pmul_comm. apply pmul_1_r.
    + apply pmul_comm.
    + apply pmul_assoc.
    + apply pmul_add_l.
    + apply pol_ext. intros i Hi. unfold padd. repeat rewrite co_mk by auto. ring.
    + apply pol_ext. intros i Hi. unfold padd, pzero. repeat rewrite co_mk by auto. ring.
  - intros x y. cbn [req pops]. rewrite forallb_forall. split.
    + intros H. apply pol_ext. intros i Hi. unfold co. specialize (H (nth i (pl_l x) 0, nth i (pl_l y) 0)). cbn [fst snd] in H. apply req_true, H.
      rewrite <- combine_nth by (rewrite !pol_len; auto). apply nth_In. rewrite combine_length, !pol_len. lia.
    + intros -> [a b] Hin. apply (In_nth _ _ (0, 0)) in Hin as (i & Hi & E). rewrite combine_nth in E by auto. injection E as <- <-. apply req_true. auto.
Qed.
End Pol.

(** * The instance *)
Section Inst.
Context (p : Z) (d : nat) (Hp : prime p) (Hp2 : (2 < p)%Z) (Hd : (2 <= d)%nat) (He : (2 * (d / 2) = d)%nat).
Notation K := (fp p).
Notation R := (pol (fp p) d).
Definition zsigned (x : K) : Z := if (2 * fpz x <? p)%Z then fpz x else (fpz x - p)%Z.
(** [exp a] = sgn(a) X^a, and zero for a = 0, for |a| < d/2. *)
Definition poly_exp (a : K) : option R :=
  let z := zsigned a in
  if (z =? 0)%Z then Some pzero
  else if (2 * Z.abs z <? Z.of_nat d)%Z then Some (punit (if (0 <? z)%Z then Z.to_nat z else d - Z.to_nat (- z))) else None.
(** psi: X^j with coefficient j below d/2 and j - d above. *)
Definition poly_psi : R := mk (fun j => if (2 * j =? d)%nat then 0 else if (2 * j <? d)%nat then rofn j else - rofn (d - j)).
Definition poly_ops : POps K R :=
  {| p_K := fp_ops p; p_R := pops; p_emb := (fun c => psc c (punit 0)) : Embed K R; pdim := d;
     pcoeffs := fun x : R => pl_l x;
     pof_coeffs := fun l => mk (fun i => nth i l 0);
     psigned := zsigned; pexp := poly_exp; ppsi := poly_psi |}.
Local Existing Instance poly_ops.
Add Ring Kring56 : (@rlaws_th K _ (fp_rlaws p)).
Lemma zsigned_val (x : K) : rofZ (zsigned x) = x.
Proof.
  apply fp_ext. rewrite rofZ_fp. unfold zsigned. pose proof (fpz_bound x ltac:(lia)). destruct (Z.ltb_spec (2 * fpz x) p); [apply Z.mod_small; lia|].
  symmetry. apply Z.mod_unique with (-1)%Z; lia.
Qed.
Lemma odd_p : (p mod 2 = 1)%Z.
Proof.
  destruct (Z.eq_dec (p mod 2) 0) as [E|E]; [|pose proof (Z.mod_pos_bound p 2); lia].
  exfalso. apply Z.mod_divide in E; [|lia]. apply prime_divisors in E; auto. lia.
Qed.
Lemma pmono_unit i : (pmono i : R) = punit i.
Proof.
  apply pol_ext. intros j Hj. unfold pmono. cbn [pof_coeffs poly_ops pdim]. rewrite co_mk, co_punit by auto. unfold unit_vec. rewrite nth_seq_map by auto. auto.
Qed.
Lemma pmul_unit i (x : R) : (i < d)%nat -> pmul (punit i) x = prot i x.
Proof. intros Hi. rewrite <- prot_unit by lia. rewrite pmul_prot_l_n by lia. rewrite pmul_comm, pmul_1_r by lia. auto. Qed.
Lemma psi_unit i : (i < d)%nat -> pct (ppsi * (punit i : R)) = rofZ (if (2 * i =? d)%nat then 0%Z else if (2 * i <? d)%nat then Z.of_nat i else (Z.of_nat i - Z.of_nat d)%Z) :> K.
Proof.
  intros Hi. unfold pct. cbn [pcoeffs poly_ops ppsi rmul p_R pops]. change (nth 0 (pl_l (pmul poly_psi (punit i))) 0) with (co (pmul poly_psi (punit i)) 0).
  rewrite pmul_comm, pmul_unit by lia. unfold prot. rewrite co_mk by lia. destruct (Nat.leb_spec i 0) as [H0|H0].
  - assert (i = 0)%nat as -> by lia. cbn [Nat.sub]. unfold poly_psi. rewrite co_mk by lia. cbn [Nat.mul Nat.add].
    destruct (Nat.eqb_spec 0 d); [lia|]. destruct (Nat.ltb_spec 0 d); [|lia]. reflexivity.
  - unfold poly_psi. rewrite co_mk by lia. replace (d + 0 - i)%nat with (d - i)%nat by lia.
    destruct (Nat.eqb_spec (2 * (d - i)) d), (Nat.eqb_spec (2 * i) d); try lia.
    + change (rofZ 0 : K) with (0 : K). ring.
    + destruct (Nat.ltb_spec (2 * (d - i)) d), (Nat.ltb_spec (2 * i) d); try lia; unfold rofn.
      * rewrite <- (rofZ_opp (R := K)). f_equal. lia.
      * replace (d - (d - i))%nat with i by lia. ring.
Qed.
Lemma poly_laws : PLaws K R p.
Proof.
  assert (1 <= d)%nat as Hd1 by lia.
  split.
  - apply fp_laws. auto.
  - exact (pol_laws Hd1).
  - split; intros; unfold emb; cbn [p_emb poly_ops p_R p_K radd rmul rsub ropp rzero rone pops].
    + apply pol_ext. intros i Hi. rewrite co_psc, co_punit by auto. unfold pzero. rewrite co_mk by auto. ring.
    + apply pol_ext. intros i Hi. rewrite co_psc by auto. ring.
    + apply pol_ext. intros i Hi. rewrite co_padd, !co_psc by auto. ring.
    + rewrite pmul_sc_l, pmul_sc_r, pmul_1_r by lia. apply pol_ext. intros i Hi. rewrite !co_psc by auto. ring.
    + apply pol_ext. intros i Hi. rewrite co_mk, !co_psc by auto. ring.
    + apply pol_ext. intros i Hi. rewrite co_mk, !co_psc by auto. ring.
  - cbn. lia.
  - intros x. apply pol_len.
  - intros l Hl. cbn [pdim poly_ops] in Hl. cbn [pcoeffs pof_coeffs poly_ops]. apply (list_ext 0); [rewrite pol_len; auto|].
    intros i Hi. rewrite pol_len in Hi. apply (co_mk (fun i => nth i l 0)). auto.
  - intros x. apply pol_ext. intros i Hi. cbn [pcoeffs pof_coeffs poly_ops]. rewrite co_mk by auto. reflexivity.
  - intros x y. cbn [pcoeffs poly_ops p_R p_K radd pops]. apply (list_ext 0).
    + rewrite pol_len, zipw_length, !pol_len. lia.
    + intros i Hi. rewrite pol_len in Hi. rewrite (nth_zipw _ _ _ _ 0 0) by (rewrite pol_len; auto). apply co_padd. auto.
  - intros k x. unfold emb. cbn [pcoeffs poly_ops p_emb p_R p_K rmul pops]. rewrite pmul_sc_l, pmul_comm, pmul_1_r by lia.
    apply (list_ext 0); [rewrite pol_len, map_length, pol_len; auto|]. intros i Hi. rewrite pol_len in Hi. rewrite (nth_map_lt _ _ _ 0) by (rewrite pol_len; auto).
    apply co_psc. auto.
  - cbn [pcoeffs poly_ops p_R rone pops pdim]. reflexivity.
  - exact Hp2.
  - exact zsigned_val.
  - intros x. cbn [psigned poly_ops]. unfold zsigned. pose proof (fpz_bound x ltac:(lia)). pose proof odd_p. pose proof (Z.div_mod p 2 ltac:(lia)).
    destruct (Z.ltb_spec (2 * fpz x) p); lia.
  - intros z Hz. cbn [psigned poly_ops p_K]. unfold zsigned. rewrite rofZ_fp. destruct (Z.le_gt_cases 0 z) as [H|H].
    + rewrite Z.mod_small by lia. destruct (Z.ltb_spec (2 * z) p); lia.
    + assert (z mod p = z + p)%Z as -> by (symmetry; apply Z.mod_unique with (-1)%Z; lia). destruct (Z.ltb_spec (2 * (z + p)) p); lia.
  - intros a. cbn [psigned poly_ops pdim pexp]. intros Ha. unfold poly_exp. cbv zeta. destruct (Z.eqb_spec (zsigned a) 0) as [E|E].
    + exists pzero. split; [reflexivity|]. split; [left; reflexivity|]. rewrite <- (zsigned_val a), E.
      unfold pct. cbn [pcoeffs poly_ops ppsi rmul p_R p_K pops]. change (co (pmul poly_psi pzero) 0 = 0). rewrite co_pmul by lia. apply sumn_0.
      intros i Hi. rewrite co_prot by lia. unfold pzero. destruct (Nat.leb_spec i 0); rewrite co_mk by lia; ring.
    + destruct (Z.ltb_spec (2 * Z.abs (zsigned a)) (Z.of_nat d)); [|lia].
      eexists. split; [reflexivity|]. split.
      * right. eexists. split; [|symmetry; apply pmono_unit]. cbn [pdim poly_ops]. destruct (Z.ltb_spec 0 (zsigned a)); lia.
      * rewrite psi_unit by (destruct (Z.ltb_spec 0 (zsigned a)); lia). transitivity (rofZ (zsigned a) : K); [|apply zsigned_val]. f_equal.
        destruct (Z.ltb_spec 0 (zsigned a)).
        -- destruct (Nat.eqb_spec (2 * Z.to_nat (zsigned a)) d), (Nat.ltb_spec (2 * Z.to_nat (zsigned a)) d); lia.
        -- destruct (Nat.eqb_spec (2 * (d - Z.to_nat (- zsigned a))) d), (Nat.ltb_spec (2 * (d - Z.to_nat (- zsigned a))) d); lia.
  - intros i Hi. cbn [pdim poly_ops] in *. rewrite pmono_unit, psi_unit by auto. eexists. split; [|reflexivity].
    destruct (Nat.eqb_spec (2 * i) d), (Nat.ltb_spec (2 * i) d); lia.
Qed.
(** Rotation does not enlarge coefficients. *)
Lemma psigned_opp_abs (a : K) : Z.abs (zsigned (- a)) = Z.abs (zsigned a).
Proof.
  unfold zsigned. rewrite fpz_opp. pose proof (fpz_bound a ltac:(lia)). destruct (Z.eq_dec (fpz a) 0) as [E|E].
  - rewrite E. change (- 0)%Z with 0%Z. rewrite Z.mod_0_l by lia. auto.
  - assert ((- fpz a) mod p = p - fpz a)%Z as -> by (symmetry; apply Z.mod_unique with (-1)%Z; lia).
    pose proof odd_p. pose proof (Z.div_mod p 2 ltac:(lia)).
    destruct (Z.ltb_spec (2 * (p - fpz a)) p), (Z.ltb_spec (2 * fpz a) p); lia.
Qed.
Lemma poly_isometry : @mono_isometry K R poly_ops.
Proof.
  intros i x n Hi Hn Hx j. cbn [pdim poly_ops] in Hi. rewrite pmono_unit. cbn [psigned pcoeffs poly_ops p_R rmul pops].
  rewrite pmul_unit by auto. change (Z.abs (zsigned (co (prot i x) j)) <= n)%Z. destruct (Nat.lt_ge_cases j d) as [Hj|Hj].
  - rewrite co_prot by auto. destruct (Nat.leb_spec i j); [apply Hx|]. rewrite psigned_opp_abs. apply Hx.
  - unfold co. rewrite nth_overflow by (rewrite pol_len; auto). unfold zsigned. cbn [rzero fp_ops fld_ring zp fpz]. rewrite Z.mod_0_l by lia.
    destruct (Z.ltb_spec (2 * 0) p); lia.
Qed.
Lemma poly_char n : (Z.of_nat n < p)%Z -> char_gt K n.
Proof. intros Hn i Hi E. apply (f_equal fpz) in E. unfold rofn in E. rewrite rofZ_fp in E. cbn [rzero fp_ops fld_ring zp fpz] in E. rewrite Z.mod_0_l, Z.mod_small in E by lia. lia. Qed.
End Inst.

(** Trial division. *)
Fixpoint no_divisor (fuel : nat) (p a : Z) : bool :=
  match fuel with O => true | S f => negb (p mod a =? 0)%Z && no_divisor f p (a + 1)%Z end.
Lemma no_divisor_ok fuel p a m : no_divisor fuel p a = true -> (a <= m < a + Z.of_nat fuel)%Z -> (p mod m <> 0)%Z.
Proof.
  revert a; induction fuel as [|f IH]; intros a H Hm; [lia|]. cbn [no_divisor] in H. apply andb_true_iff in H as [H1 H2].
  destruct (Z.eq_dec m a) as [->|Hne]; [apply negb_true_iff, Z.eqb_neq in H1; auto|]. apply (IH (a + 1)%Z); auto. lia.
Qed.
Lemma prime_by_trial p fuel : (1 < p)%Z -> (p < (Z.of_nat fuel + 2) * (Z.of_nat fuel + 2))%Z -> no_divisor fuel p 2 = true -> prime p.
Proof.
  intros Hp Hf H. apply prime_alt. split; [lia|]. intros n Hn Hdiv. destruct Hdiv as [m Hm].
  destruct (Z.le_gt_cases n m) as [Hle|Hlt].
  - apply (no_divisor_ok fuel p 2 n H); [nia|]. apply Z.mod_divide; [lia|]. exists m. auto.
  - apply (no_divisor_ok fuel p 2 m H); [nia|]. apply Z.mod_divide; [nia|]. exists n. lia.
Qed.
