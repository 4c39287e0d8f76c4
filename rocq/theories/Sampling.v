(** The short challenges of the four rings form a strong sampling set: the difference of two different challenges is a unit.
    Decoders: Challenge.v (cyclotomic-rings/src/rings/{goldilocks,babybear,frog,stark}.rs 41-67 / 37-55); rings: RealRings.v. *)
From Coq Require Import List Arith Lia ZArith Bool Ring Znumtheory.
From Verif Require Import Prelude Alg Poly MLE Transcript Rings Folding Challenge Challenge_Proofs PlusUtils_Proofs PolyInst Primes FieldExt CycInst RealRings ShortDual.
Import ListNotations.

(** * Congruence of roots *)
Lemma pow_congr p a b n : (p | a - b)%Z -> (p | a ^ Z.of_nat n - b ^ Z.of_nat n)%Z.
Proof.
  intros H. induction n as [|n IH].
  - cbn [Z.of_nat]. rewrite !Z.pow_0_r. apply Z.divide_0_r.
  - rewrite Nat2Z.inj_succ, !Z.pow_succ_r by lia.
    replace (a * a ^ Z.of_nat n - b * b ^ Z.of_nat n)%Z with (a * (a ^ Z.of_nat n - b ^ Z.of_nat n) + (a - b) * b ^ Z.of_nat n)%Z by ring.
    apply Z.divide_add_r; [apply Z.divide_mul_r|apply Z.divide_mul_l]; auto.
Qed.
Lemma no_small_congr p a b k B : (p | a - b)%Z -> no_small p a k B -> no_small p b k B.
Proof.
  intros H HN z Hz HS. apply HN; auto.
  rewrite (zsum_ext k _ (fun m => z m * b ^ Z.of_nat m + z m * (a ^ Z.of_nat m - b ^ Z.of_nat m))%Z) by (intros; ring).
  rewrite zsum_add. apply Z.divide_add_r; auto. apply zsum_divide. intros m _. apply Z.divide_mul_r. apply pow_congr. auto.
Qed.

(** * From residues to integers *)
Local Open Scope rs_scope.
Section Sum.
Context (p : Z).
Notation F := (fp p).
Lemma zp_add a b : zp p a + zp p b = zp p (a + b).
Proof. apply fp_ext. cbn [radd fp_ops fld_ring fpz zp]. symmetry. apply Zplus_mod. Qed.
Lemma zp_mul a b : zp p a * zp p b = zp p (a * b).
Proof. apply fp_ext. cbn [rmul fp_ops fld_ring fpz zp]. symmetry. apply Zmult_mod. Qed.
Lemma zp_fpz (x : F) : zp p (fpz x) = x.
Proof. apply fp_ext. cbn [fpz zp]. apply fpz_mod. Qed.
Lemma zp_pow a n : rpow (zp p a) n = zp p (a ^ Z.of_nat n).
Proof. induction n as [|n IH]; [reflexivity|]. cbn [rpow]. rewrite IH, zp_mul, Nat2Z.inj_succ, Z.pow_succ_r by lia. reflexivity. Qed.
Lemma zp_sumn n (f : nat -> Z) : sumn n (fun i => zp p (f i)) = zp p (zsum n f).
Proof. induction n as [|n IH]; [reflexivity|]. cbn [sumn zsum]. rewrite IH, zp_add. reflexivity. Qed.
Lemma zp_0 z : p <> 0%Z -> zp p z = 0 -> (p | z)%Z.
Proof. intros Hp H. apply (f_equal fpz) in H. cbn [fpz zp rzero fp_ops fld_ring] in H. rewrite Z.mod_0_l in H by auto. apply Z.mod_divide; auto. Qed.
End Sum.

(** * The generic argument *)
(** The ring element with integer coefficients [l] (reduced modulo p). *)
Definition elt_of (p : Z) (d : nat) (l : list Z) : pol (fp p) d := mk (fun i => zp p (nth i l 0%Z)).
Section Strong.
Context {p : Z} {K : Type} (y : cyc p K) (Hp : prime p) (Hp2 : (2 < p)%Z) (XL : ext_laws y) (CK : cyc_check y = true).
#[local] Hint Extern 0 (FieldOps K) => exact (cy_KO y) : typeclass_instances.
Notation C := (pol (fp p) (cy_d y)).
Context (k' : nat) (B : Z) (Hk' : (k' <= cy_k y)%nat) (NS : forall j, (j < cy_k y)%nat -> no_small p (fpz (nth j (cy_rr y) 0)) k' B).
Lemma small_unit (c : C) (z : nat -> Z) : (forall t, (t < cy_d y)%nat -> co c t = zp p (z t)) ->
  (forall t, (t < cy_d y)%nat -> (Z.abs (z t) <= B)%Z) -> (forall t, (k' * cy_e y <= t)%nat -> (t < cy_d y)%nat -> z t = 0%Z) ->
  (exists t, (t < cy_d y)%nat /\ z t <> 0%Z) -> exists u : C, @rmul C (c_ops y) u c = @rone C (c_ops y).
Proof.
  intros Hc HB Ht (t0 & Ht0 & Hnz). apply (unit_of_slots y Hp Hp2 XL CK). intros j Hj E. apply Hnz.
  destruct (index_split y XL CK t0 Ht0) as (Hm & Hi & Et). set (m0 := (t0 / cy_e y)%nat) in *. set (i := (t0 mod cy_e y)%nat) in *.
  destruct (Nat.lt_ge_cases m0 k') as [Hlt|Hge]; [|apply Ht; auto; rewrite <- Et; nia].
  pose proof (slot_zero y Hp XL CK c j Hj E i Hi) as S0. set (r := nth j (cy_rr y) 0) in *.
  rewrite <- Et. apply (NS j Hj (fun m => z (m * cy_e y + i)%nat)); auto.
  - intros m Hm'. apply HB. unfold cy_d. nia.
  - apply (zp_0 p); [pose proof (prime_ge_2 p Hp); lia|]. rewrite <- zp_sumn.
    etransitivity; [|exact S0]. symmetry. transitivity (sumn (k' + (cy_k y - k')) (fun m => co c (m * cy_e y + i) * rpow r m)); [f_equal; lia|].
    rewrite (sumn_split (R := fp p)). rewrite (sumn_0 (R := fp p) (cy_k y - k')).
    + rewrite (radd_0_r (R := fp p)). apply sumn_ext. intros m Hm'. rewrite Hc by (unfold cy_d; nia). replace (rpow r m) with (zp p (fpz r ^ Z.of_nat m)) by (rewrite <- zp_pow, zp_fpz; reflexivity). apply zp_mul.
    + intros m Hm'. rewrite Hc by (unfold cy_d; nia). rewrite Ht by (unfold cy_d; nia). change (zp p 0) with (0 : fp p). apply (rmul_0_l (R := fp p)).
Qed.
Context (decode : list Z -> result (list Z)) (n : nat) (lo hi : Z) (GD : good_decoder decode n p (cy_d y) lo hi) (Hlo : (hi - lo <= B + 1)%Z) (Hlh : (lo <= 0 < hi)%Z) (HBp : (B < p)%Z).
Context (TZ : forall bs c i, bytes n bs -> decode bs = Ok c -> (k' * cy_e y <= i)%nat -> (i < cy_d y)%nat -> nth i c 0%Z = 0%Z).
Theorem strong_sampling bs bs' c c' : bytes n bs -> bytes n bs' -> bs <> bs' -> decode bs = Ok c -> decode bs' = Ok c' ->
  exists u : C, @rmul C (c_ops y) u (@rsub C (c_ops y) (elt_of p (cy_d y) c) (elt_of p (cy_d y) c')) = @rone C (c_ops y).
Proof.
  intros Hb Hb' Hne E E'. destruct GD as (_ & G1 & G2). pose proof (prime_ge_2 p Hp) as P2.
  destruct (G1 bs Hb) as (c1 & F1 & xs & Lx & Bx & Ex). rewrite E in F1. apply ok_inj in F1. subst c1.
  destruct (G1 bs' Hb') as (c1 & F1 & xs' & Lx' & Bx' & Ex'). rewrite E' in F1. apply ok_inj in F1. subst c1.
  assert (forall t, nth t c 0 = nth t xs 0 mod p)%Z as N. { intros t. rewrite Ex. exact (map_nth (fun x => x mod p)%Z _ 0%Z t). }
  assert (forall t, nth t c' 0 = nth t xs' 0 mod p)%Z as N'. { intros t. rewrite Ex'. exact (map_nth (fun x => x mod p)%Z _ 0%Z t). }
  rewrite Forall_forall in Bx, Bx'.
  assert (forall t, (t < cy_d y)%nat -> (lo <= nth t xs 0 < hi)%Z) as R1 by (intros; apply Bx, nth_In; lia).
  assert (forall t, (t < cy_d y)%nat -> (lo <= nth t xs' 0 < hi)%Z) as R2 by (intros; apply Bx', nth_In; lia).
  assert (forall x, (lo <= x < hi)%Z -> (x mod p = 0)%Z -> x = 0%Z) as Z0.
  { intros x Hx Hm. apply (divide_small p); [lia|]. apply Z.mod_divide; lia. }
  apply (small_unit _ (fun t => nth t xs 0 - nth t xs' 0)%Z).
  - intros t Ht. cbn [rsub c_ops]. unfold elt_of. repeat rewrite co_mk by auto. rewrite N, N'. apply fp_ext. cbn [rsub fp_ops fld_ring fpz zp].
    rewrite !Zmod_mod. symmetry. apply Zminus_mod.
  - intros t Ht. specialize (R1 t Ht). specialize (R2 t Ht). lia.
  - intros t Ht Hd. pose proof (TZ bs c t Hb E Ht Hd) as T1. pose proof (TZ bs' c' t Hb' E' Ht Hd) as T2. rewrite N in T1. rewrite N' in T2.
    apply Z0 in T1; auto. apply Z0 in T2; auto. lia.
  - destruct (list_eq_dec Z.eq_dec xs xs') as [Eq|Hx].
    + exfalso. apply Hne. apply G2; auto. rewrite E, E'. f_equal. congruence.
    + assert (exists t, (t < cy_d y)%nat /\ nth t xs 0%Z <> nth t xs' 0%Z) as (t & Ht & Hd).
      { clear - Lx Lx' Hx. revert xs' Lx' Hx. revert Lx. generalize (cy_d y) as dd. induction xs as [|x xs IH]; intros dd Lx [|x' xs'] Lx' Hx; cbn [length] in *; try lia; [contradiction|].
        destruct (Z.eq_dec x x') as [->|Hn].
        - destruct (IH (dd - 1)%nat ltac:(lia) xs' ltac:(lia) ltac:(congruence)) as (t & Ht & Hd). exists (S t). split; [lia|auto].
        - exists 0%nat. split; [lia|auto]. }
      exists t. split; auto. lia.
Qed.
End Strong.

(** The entries of [cy_rr] are powers of one root. *)
Lemma mk_rr {p K} (y : cyc p K) psi theta (r : fp p) js i : (i < length js)%nat -> nth i (cy_rr (mk_cyc y psi theta r js)) 0 = rpow r (nth i js 0%nat).
Proof.
  intros Hi. cbn [cy_rr mk_cyc]. cbv zeta. rewrite (nth_map_lt _ _ _ 0%nat) by auto. rewrite (nth_indep _ r 0).
  - rewrite nth_powers. { apply rmul_1_l. } pose proof (proj1 (list_max_le js _) (Nat.le_refl _)) as H. rewrite Forall_forall in H. specialize (H _ (nth_In js 0%nat Hi)). lia.
  - rewrite powers_length. pose proof (proj1 (list_max_le js _) (Nat.le_refl _)) as H. rewrite Forall_forall in H. specialize (H _ (nth_In js 0%nat Hi)). lia.
Qed.

(** * Certificates *)
Local Open Scope Z_scope.
(** Centred residue; the row t, t rho, t rho^2, ... *)
Definition ctr (p x : Z) : Z := let r := x mod p in if 2 * r <? p then r else r - p.
Fixpoint wrow (p rho t : Z) (k : nat) : list Z := match k with O => [] | S k' => t :: wrow p rho (ctr p (t * rho)) k' end.
Definition gold_q : Z := 67.
Definition gold_V : list (list (list Z)) := [
  [[58; 0; 0; 26; 0; 0; 0; 41]; [0; 0; 26; 58; 0; 0; 41; 9]; [0; 26; 58; 0; 0; 41; 9; 0]; [26; 58; 0; 0; 41; 9; 0; 0]; [0; 0; 0; 41; 9; 0; 0; 0]; [0; 0; 41; 9; 0; 0; 0; 0]; [0; 41; 9; 0; 0; 0; 0; 0]; [41; 9; 0; 0; 0; 0; 0; 0]];
  [[58; 0; 0; 0; 9; 0; 0; 41]; [0; 0; 41; 9; 0; 0; 0; 0]; [0; 41; 9; 0; 0; 26; 58; 0]; [0; 0; 0; 0; 26; 58; 0; 0]; [0; 0; 0; 26; 58; 0; 0; 0]; [0; 0; 26; 58; 0; 0; 41; 9]; [0; 0; 0; 0; 0; 41; 9; 0]; [41; 9; 0; 0; 0; 0; 0; 0]];
  [[58; 0; 0; 26; 0; 0; 0; 41]; [0; 0; 0; 0; 41; 9; 0; 0]; [0; 41; 9; 0; 0; 26; 58; 0]; [0; 0; 26; 58; 0; 0; 0; 0]; [0; 0; 0; 41; 9; 0; 0; 0]; [41; 9; 0; 0; 26; 58; 0; 0]; [0; 26; 58; 0; 0; 0; 0; 0]; [0; 0; 0; 0; 0; 0; 41; 9]];
  [[58; 0; 0; 0; 9; 0; 0; 41]; [41; 9; 0; 0; 26; 58; 0; 0]; [0; 26; 58; 0; 0; 41; 9; 0]; [0; 0; 41; 9; 0; 0; 26; 58]; [0; 0; 0; 26; 58; 0; 0; 0]; [0; 0; 0; 0; 41; 9; 0; 0]; [0; 0; 0; 0; 0; 26; 58; 0]; [0; 0; 0; 0; 0; 0; 41; 9]];
  [[58; 0; 0; 26; 0; 0; 0; 41]; [0; 0; 41; 9; 0; 0; 26; 58]; [0; 26; 58; 0; 0; 41; 9; 0]; [41; 9; 0; 0; 26; 58; 0; 0]; [0; 0; 0; 41; 9; 0; 0; 0]; [0; 0; 26; 58; 0; 0; 0; 0]; [0; 41; 9; 0; 0; 0; 0; 0]; [26; 58; 0; 0; 0; 0; 0; 0]];
  [[58; 0; 0; 0; 9; 0; 0; 41]; [0; 0; 26; 58; 0; 0; 0; 0]; [0; 41; 9; 0; 0; 26; 58; 0]; [0; 0; 0; 0; 41; 9; 0; 0]; [0; 0; 0; 26; 58; 0; 0; 0]; [0; 0; 41; 9; 0; 0; 26; 58]; [0; 0; 0; 0; 0; 41; 9; 0]; [26; 58; 0; 0; 0; 0; 0; 0]];
  [[58; 0; 0; 26; 0; 0; 0; 41]; [0; 0; 0; 0; 26; 58; 0; 0]; [0; 41; 9; 0; 0; 26; 58; 0]; [0; 0; 41; 9; 0; 0; 0; 0]; [0; 0; 0; 41; 9; 0; 0; 0]; [26; 58; 0; 0; 41; 9; 0; 0]; [0; 26; 58; 0; 0; 0; 0; 0]; [0; 0; 0; 0; 0; 0; 26; 58]];
  [[58; 0; 0; 0; 9; 0; 0; 41]; [26; 58; 0; 0; 41; 9; 0; 0]; [0; 26; 58; 0; 0; 41; 9; 0]; [0; 0; 26; 58; 0; 0; 41; 9]; [0; 0; 0; 26; 58; 0; 0; 0]; [0; 0; 0; 0; 26; 58; 0; 0]; [0; 0; 0; 0; 0; 26; 58; 0]; [0; 0; 0; 0; 0; 0; 26; 58]]].
Definition bb_ts : list (list Z) := [[46771; (-1146562); (-1052984)]; [277120; 815904; 2035031]; [170471; 1125446; 1244589]; [(-266459); 462707; 2739217]; [(-46771); (-1146562); 1052984]; [277120; (-815904); (-2035031)]; [(-170471); (-1125446); 1244589]; [266459; (-462707); 2739217]].
Definition bb_q : Z := 67.
Definition bb_V : list (list (list Z)) := [
  [[3; 26; 43]; [10; 45; 10]; [6; 56; 11]];
  [[19; 37; 35]; [39; 11; 15]; [43; 28; 47]];
  [[43; 39; 47]; [28; 11; 52]; [19; 30; 35]];
  [[61; 11; 11]; [10; 45; 57]; [64; 41; 43]];
  [[64; 26; 24]; [10; 22; 10]; [61; 56; 56]];
  [[19; 30; 32]; [28; 11; 15]; [43; 39; 20]];
  [[24; 28; 47]; [28; 11; 15]; [48; 37; 35]];
  [[6; 56; 11]; [10; 45; 10]; [3; 26; 43]]].
Definition frog_a : list Z := [(-90282513130134); 180646643739481; 128304812269238; (-96765690008766)].
Definition frog_b : list Z := [47; 220; 186; 256].
Definition frog_A : Z := 180646643739481.
Definition frog_q : Z := 257.
Definition stark_a : list Z := [(-2614929043874608729729385597021410533548778497970966804516042266112792); (-12770797064033672381908980456696222504833736609537157616423626250139956); (-26262517034866064041769290078833146398579328822025277431876550543106192); (-8839734360583262023726437467277005072090778480822148391827086418793033); (-18962393080403242650770023944218606397862454441647192048031411796315412); (-11244540903604022903953712507274794326999221777304852128427229807724994); 24782583491085064339815725552730197581815526552890320205524773327933644; 9413353880977312447648986643130259494099736450784695884397380468436970; 35578567509541750062226990234314020316270350146898285150796667996220536; (-4446631913461530332345471783489310583832700055495940723344922467341384); (-29353151376593459058141234047780730281739989359047692972339423525149963); 37789520735195240765871148091949102798850486598800892964102448645487502; 4014935935507188881088827316613216782565844075129718390328114051119304; 38572634051017340332270523246619248686882878204199275039146104520813589; (-24945471272414241547263584601858614072459778289195619314147138611153284); (-3278545966579688293946510990408634012858387392290289855120391430104771)].
Definition stark_b : list Z := [107; 190; 159; 79; 71; 159; 240; 17; 79; 5; 223; 3; 191; 220; 97; 173].
Definition stark_A : Z := 38572634051017340332270523246619248686882878204199275039146104520813589.
Definition stark_q : Z := 257.

Definition root_j {p K} (y : cyc p K) (j : nat) : Z := fpz (nth j (cy_rr y) (zp p 0)).
Definition gold_W (j : nat) : list (list Z) := let rho := root_j gold_cyc j in map (fun i => wrow gold_p rho (256 ^ Z.of_nat i) 8) (seq 0 8).
Lemma gold_mats : forallb (fun j => mat_cert gold_p (root_j gold_cyc j) 63 gold_q 8 (gold_W j) (nth j gold_V [])) (seq 0 8) = true.
Proof. vm_cast_no_check (eq_refl true). Qed.
Definition bb_W (j : nat) : list (list Z) := let rho := root_j bb_cyc j in map (fun t => wrow bb_p rho t 3) (nth j bb_ts []).
Lemma bb_mats : forallb (fun j => mat_cert bb_p (root_j bb_cyc j) 63 bb_q 3 (bb_W j) (nth j bb_V [])) (seq 0 8) = true.
Proof. vm_cast_no_check (eq_refl true). Qed.
Lemma frog_nega : nega_cert frog_p 2755067726615789629 255 frog_A frog_q 4 frog_a frog_b && forallb (odd_cert 4) (odds 4) = true.
Proof. vm_cast_no_check (eq_refl true). Qed.
Lemma stark_nega : nega_cert stark_p 3409443867035641044245057348756544640549407421541289951053907001322227935403 255 stark_A stark_q 16 stark_a stark_b && forallb (odd_cert 16) (odds 16) = true.
Proof. vm_cast_no_check (eq_refl true). Qed.
Lemma nega_roots {p K} (y : cyc p K) psi theta r B A q k a b js j : p <> 0 -> nega_cert p r B A q k a b && forallb (odd_cert k) js = true ->
  (j < length js)%nat -> no_small p (root_j (mk_cyc y psi theta (zp p r) js) j) k B.
Proof.
  intros Hp H Hj. apply andb_true_iff in H as [H1 H2]. rewrite forallb_forall in H2.
  apply (no_small_congr p (r ^ Z.of_nat (nth j js 0%nat))); [|apply (nega_ok p r B A q k a b H1); apply H2, nth_In; auto].
  unfold root_j. pose proof (mk_rr y psi theta (zp p r) js j Hj) as E. change (zp p 0) with (@rzero (fp p) _). rewrite E, zp_pow. cbn [fpz zp].
  apply Z.mod_divide; auto. rewrite Zminus_mod_idemp_r. rewrite Z.sub_diag. apply Z.mod_0_l. auto.
Qed.
Lemma gold_small j : (j < 8)%nat -> no_small gold_p (root_j gold_cyc j) 8 63.
Proof. intros Hj. pose proof gold_mats as H. rewrite forallb_forall in H. apply (mat_cert_ok _ _ _ gold_q _ (gold_W j) (nth j gold_V [])). apply H, in_seq. lia. Qed.
Lemma bb_small j : (j < 8)%nat -> no_small bb_p (root_j bb_cyc j) 3 63.
Proof. intros Hj. pose proof bb_mats as H. rewrite forallb_forall in H. apply (mat_cert_ok _ _ _ bb_q _ (bb_W j) (nth j bb_V [])). apply H, in_seq. lia. Qed.
Lemma frog_small j : (j < 4)%nat -> no_small frog_p (root_j frog_cyc j) 4 255.
Proof. intros Hj. apply (nega_roots frog_ext _ _ _ 255 frog_A frog_q 4 frog_a frog_b (odds 4)); [discriminate|exact frog_nega|exact Hj]. Qed.
Lemma stark_small j : (j < 16)%nat -> no_small stark_p (root_j stark_cyc j) 16 255.
Proof. intros Hj. apply (nega_roots (base_ext stark_p) _ _ _ 255 stark_A stark_q 16 stark_a stark_b (odds 16)); [discriminate|exact stark_nega|exact Hj]. Qed.

(** * The four rings *)
Definition strong_set {p K} (y : cyc p K) (decode : list Z -> result (list Z)) (n : nat) : Prop :=
  forall bs bs' c c', bytes n bs -> bytes n bs' -> bs <> bs' -> decode bs = Ok c -> decode bs' = Ok c' ->
  exists u : pol (fp p) (cy_d y), @rmul _ (c_ops y) u (@rsub _ (c_ops y) (elt_of p (cy_d y) c) (elt_of p (cy_d y) c')) = @rone _ (c_ops y).
Lemma gold_strong : strong_set gold_cyc gold_challenge 18.
Proof.
  intros bs bs' c c'. apply (strong_sampling gold_cyc gold_prime ltac:(reflexivity) gold_xl gold_check 8 63) with (lo := -32) (hi := 32); try (cbn [cy_k]; lia); try reflexivity; try (apply Nat.leb_le; reflexivity); try apply gold_good; try (intros; apply gold_small; auto).
  intros. exfalso. change (cy_d gold_cyc) with 24%nat in *. change (cy_e gold_cyc) with 3%nat in *. lia.
Qed.
Lemma bb_strong : strong_set bb_cyc bb_challenge 18.
Proof.
  intros bs bs' c c'. apply (strong_sampling bb_cyc bb_prime ltac:(reflexivity) bb_xl bb_check 3 63) with (lo := -32) (hi := 32); try (cbn [cy_k]; lia); try reflexivity; try (apply Nat.leb_le; reflexivity); try apply bb_good; try (intros; apply bb_small; auto).
  intros bs0 c0 i Hb E Hi _. apply (bb_tail_zero bs0 c0 i Hb E). change (cy_e bb_cyc) with 9%nat in Hi. lia.
Qed.
Lemma frog_strong : strong_set frog_cyc frog_challenge 16.
Proof.
  intros bs bs' c c'. apply (strong_sampling frog_cyc frog_prime ltac:(reflexivity) frog_xl frog_check 4 255) with (lo := -128) (hi := 128); try (cbn [cy_k]; lia); try reflexivity; try (apply Nat.leb_le; reflexivity); try apply frog_good; try (intros; apply frog_small; auto).
  intros. exfalso. change (cy_d frog_cyc) with 16%nat in *. change (cy_e frog_cyc) with 4%nat in *. lia.
Qed.
Lemma stark_strong : strong_set stark_cyc stark_challenge 16.
Proof.
  intros bs bs' c c'. apply (strong_sampling stark_cyc stark_prime ltac:(reflexivity) stark_xl stark_check 16 255) with (lo := 0) (hi := 256); try (cbn [cy_k]; lia); try reflexivity; try (apply Nat.leb_le; reflexivity); try apply stark_good; try (intros; apply stark_small; auto).
  intros. exfalso. change (cy_d stark_cyc) with 16%nat in *. change (cy_e stark_cyc) with 1%nat in *. lia.
Qed.

(** * Drawing short challenges from a squeezed byte string *)
(** The rings and challenge sets of the repository: goldilocks.rs 34-67, babybear.rs 34-67, frog.rs 30-55, stark.rs 30-51. *)
Inductive real_ring : forall (p : Z) (K : Type), cyc p K -> (list Z -> result (list Z)) -> nat -> Prop :=
| ring_gold : real_ring gold_p cub gold_cyc gold_challenge 18
| ring_bb : real_ring bb_p cub bb_cyc bb_challenge 18
| ring_frog : real_ring frog_p quad frog_cyc frog_challenge 16
| ring_stark : real_ring stark_p (fp stark_p) stark_cyc stark_challenge 16.
Lemma real_facts {p K} (y : cyc p K) decode n : real_ring p K y decode n ->
  prime p /\ (2 < p)%Z /\ ext_laws y /\ cyc_check y = true /\ strong_set y decode n /\ (exists lo hi, good_decoder decode n p (cy_d y) lo hi).
Proof.
  intros [].
  - split; [exact gold_prime|]. split; [reflexivity|]. split; [exact gold_xl|]. split; [exact gold_check|]. split; [exact gold_strong|]. exists (-32), 32. exact gold_good.
  - split; [exact bb_prime|]. split; [reflexivity|]. split; [exact bb_xl|]. split; [exact bb_check|]. split; [exact bb_strong|]. exists (-32), 32. exact bb_good.
  - split; [exact frog_prime|]. split; [reflexivity|]. split; [exact frog_xl|]. split; [exact frog_check|]. split; [exact frog_strong|]. exists (-128), 128. exact frog_good.
  - split; [exact stark_prime|]. split; [reflexivity|]. split; [exact stark_xl|]. split; [exact stark_check|]. split; [exact stark_strong|]. exists 0, 256. exact stark_good.
Qed.
Lemma real_laws {p K} (y : cyc p K) decode n : real_ring p K y decode n -> @SLaws (fp p) K (pol (fp p) (cy_d y)) (pol K (cy_k y)) (cyc_ops y) p.
Proof. intros H. destruct (real_facts y decode n H) as (H1 & H2 & H3 & H4 & _). exact (cyc_laws y H1 H2 H3 H4). Qed.
(** transcript/poseidon.rs 69-74 [get_short_challenge] with the sponge's [squeeze_bytes(BYTES_NEEDED)] as [sq]; the decoder's
    [Err] (a panic in the code, poseidon.rs 73) does not occur for byte strings of the right length. *)
Definition short_of {p K T} (y : cyc p K) (decode : list Z -> result (list Z)) (sq : T -> list Z * T) : ShortOps T (pol (fp p) (cy_d y)) :=
  fun ts => let '(bs, ts') := sq ts in (elt_of p (cy_d y) (match decode bs with Ok c => c | _ => [] end), ts').
(** The byte strings of [n] draws. *)
Fixpoint draws {T} (sq : T -> list Z * T) (ts : T) (n : nat) : list (list Z) :=
  match n with O => [] | S m => let '(bs, ts') := sq ts in bs :: draws sq ts' m end.
Lemma draws_length {T} (sq : T -> list Z * T) n : forall ts, length (draws sq ts n) = n.
Proof. induction n as [|n IH]; intros ts; cbn [draws]; auto. destruct (sq ts). cbn [length]. rewrite IH. auto. Qed.
Lemma small_draws {p K T} (y : cyc p K) decode (sq : T -> list Z * T) n : forall ts,
  fst (get_small_challenges (HO := short_of y decode sq) ts n) = map (fun bs => elt_of p (cy_d y) (match decode bs with Ok c => c | _ => [] end)) (draws sq ts n).
Proof.
  induction n as [|n IH]; intros ts; cbn [get_small_challenges draws]; auto. unfold get_short_challenge, short_of at 1.
  destruct (sq ts) as [bs ts']. specialize (IH ts'). destruct (get_small_challenges ts' n) as [cs ts2]. cbn [fst map] in *. rewrite IH. auto.
Qed.
