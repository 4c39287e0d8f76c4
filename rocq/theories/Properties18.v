(** C95 to C98: domain separation tags, random test polynomials, the witness bound check and committing to decompositions. *)
From Coq Require Import String Ascii List Arith Lia ZArith Bool Ring.
From Verif Require Import Prelude Alg Poly MLE MLE_Proofs Transcript Interp Sumcheck Sumcheck_Proofs CombDeg Arith Balanced Rings Rings_Proofs
  Linearization Challenge RandPoly RandPoly_Proofs.
Import ListNotations.
Local Open Scope rs_scope.

(** * C95 *)
(** Specification: the big-endian value of a byte string, by positions. *)
Definition bytes_of (s : string) : list Z := map (fun a => Z.of_N (N_of_ascii a)) (list_ascii_of_string s).
Definition big_endian (l : list Z) : Z := fold_right Z.add 0%Z (map (fun i => (nth i l 0 * 256 ^ Z.of_nat (List.length l - 1 - i))%Z) (seq 0 (List.length l))).
Lemma big_endian_cons x l : big_endian (x :: l) = (x * 256 ^ Z.of_nat (List.length l) + big_endian l)%Z.
Proof.
  unfold big_endian. cbn [List.length seq map fold_right nth]. replace (Datatypes.S (List.length l) - 1 - 0)%nat with (List.length l) by lia.
  f_equal. rewrite <- seq_shift, map_map. f_equal. apply map_ext_in. intros i Hi. apply in_seq in Hi.
  replace (Datatypes.S (List.length l) - 1 - Datatypes.S i)%nat with (List.length l - 1 - i)%nat by lia. reflexivity.
Qed.
Lemma be_val_spec s : forall acc, be_val acc s = (acc * 256 ^ Z.of_nat (List.length (bytes_of s)) + big_endian (bytes_of s))%Z.
Proof.
  unfold bytes_of. induction s as [|a s IH]; intros acc; cbn [be_val list_ascii_of_string map].
  - cbn. lia.
  - rewrite IH, big_endian_cons. cbn [List.length]. rewrite Nat2Z.inj_succ, Z.pow_succ_r by lia. ring.
Qed.
Section Tags.
Context {F K C R T : Type} {SO : SOps F K C R} {p : Z} {SL : SLaws F K C R p} {TO : TransOps T R K}.
Add Ring Rring86 : (@rlaws_th F _ (fld_laws (FieldLaws := l_F (p := p)))).
(** The laws determine the characteristic when [p] is odd. *)
Lemma rofZ_p : Z.odd p = true -> (rofZ p : F) = 0.
Proof.
  intros Ho. set (h := (p / 2)%Z). assert (p = 2 * h + 1)%Z as Ep by (unfold h; rewrite (Zdiv2_odd_eqn p) at 1; rewrite Ho, Z.div2_div; lia).
  pose proof p_odd as Hp. set (s := signed (rofZ (h + 1) : F)).
  assert (rofZ s = (rofZ (h + 1) : F)) as Es by apply signed_val.
  pose proof (signed_bound (rofZ (h + 1) : F)) as Hs. fold s in Hs. set (d := (h + 1 - s)%Z).
  assert ((rofZ d : F) = 0) as Ed. { unfold d. rewrite rofZ_sub, Es. ring. }
  destruct (Z.eq_dec d p) as [Edp|N]; [rewrite <- Edp; exact Ed|]. exfalso.
  assert (h = h - d)%Z as E; [|lia].
  apply (rofZ_inj_small (p := p)); [lia|lia|]. rewrite rofZ_sub, Ed. ring.
Qed.
Lemma rofZ_modp z : Z.odd p = true -> (rofZ (z mod p) : F) = rofZ z.
Proof.
  intros Ho. pose proof p_odd. replace (rofZ z : F) with (rofZ (p * (z / p) + z mod p) : F) by (rewrite <- Z.div_mod by lia; auto). rewrite rofZ_add, rofZ_mul, rofZ_p by auto. ring.
Qed.
Lemma rofZ_eq_iff z w : Z.odd p = true -> ((rofZ z : F) = rofZ w <-> (z mod p = w mod p)%Z).
Proof.
  intros Ho. pose proof p_odd as Hp. split; [|intros E; rewrite <- (rofZ_modp z), <- (rofZ_modp w), E by auto; auto].
  intros E. pose proof (Z.mod_pos_bound z p ltac:(lia)). pose proof (Z.mod_pos_bound w p ltac:(lia)).
  rewrite <- (rofZ_modp z), <- (rofZ_modp w) in E by auto. set (x := (z mod p)%Z) in *. set (y := (w mod p)%Z) in *.
  assert (p = 2 * (p / 2) + 1)%Z as Ep by (rewrite (Zdiv2_odd_eqn p) at 1; rewrite Ho, Z.div2_div; lia).
  assert (x - p / 2 = y - p / 2)%Z; [|lia].
  apply (rofZ_inj_small (p := p)); [lia|lia|]. rewrite !rofZ_sub, E. auto.
Qed.
Lemma one_neq_zero_R : (1 : R) <> 0.
Proof. intros E. apply (f_equal slots) in E. rewrite <- (hom_1 _ emb_hom), <- (hom_0 _ emb_hom), !slots_emb in E.
  pose proof dimN_pos. destruct dimN; [lia|]. injection E as E _. revert E. apply f_1_neq_0. Qed.
Lemma tag_absorbed_iff (s s' : string) : Z.odd p = true ->
  ((emb (rofZ (be_val 0 s) : K) : R) = emb (rofZ (be_val 0 s') : K) <-> (be_val 0 s mod p = be_val 0 s' mod p)%Z).
Proof.
  intros Ho. rewrite <- rofZ_eq_iff by auto. split.
  - intros E. apply (emb_inj (emb : K -> R) emb_hom one_neq_zero_R) in E.
    rewrite <- !(hom_ofZ _ embFK_hom) in E. apply (emb_inj embFK embFK_hom) in E; auto. apply f_1_neq_0.
  - intros E. rewrite <- !(hom_ofZ _ embFK_hom), E. auto.
Qed.
End Tags.
(** The tags absorbed by nifs.rs 181, 192, folding/utils.rs 57-86, 124 and linearization/utils.rs 116. *)
Definition all_tags : list string := ["acc"; "cm_i"; "alpha_s"; "zeta_s"; "mu_s"; "beta_s"; "rho_s"]%string.
Theorem C95_tags {F K C R T : Type} {SO : SOps F K C R} {p : Z} {SL : SLaws F K C R p} {TO : TransOps T R K} (s s' : string) :
  In p [gold_p; bb_p; frog_p; stark_p] -> In s all_tags -> In s' all_tags -> s <> s' ->
  (forall ts : T, absorb_tag ts s = absorb ts (emb (rofZ (big_endian (bytes_of s)) : K))) /\
  (emb (rofZ (big_endian (bytes_of s)) : K) : R) <> emb (rofZ (big_endian (bytes_of s')) : K).
Proof.
  intros Hp Hs Hs' N. split.
  - intros ts. unfold absorb_tag, absorb_field_element. rewrite (be_val_spec s 0). reflexivity.
  - pose proof (be_val_spec s 0) as E1. pose proof (be_val_spec s' 0) as E2. cbn [Z.mul Z.add] in E1, E2. rewrite <- E1, <- E2.
    rewrite (tag_absorbed_iff (p := p)) by (cbn [In] in Hp; destruct Hp as [<-|[<-|[<-|[<-|[]]]]]; reflexivity).
    clear - Hp Hs Hs' N. assert (forallb (fun p => forallb (fun s => forallb (fun s' => (s =? s')%string || negb (be_val 0 s mod p =? be_val 0 s' mod p)%Z)
      all_tags) all_tags) [gold_p; bb_p; frog_p; stark_p] = true) as H by (vm_compute; reflexivity).
    rewrite forallb_forall in H. specialize (H p Hp). rewrite forallb_forall in H. specialize (H s Hs). rewrite forallb_forall in H. specialize (H s' Hs').
    apply orb_prop in H as [H|H]; [apply String.eqb_eq in H; contradiction|]. apply negb_true_iff, Z.eqb_neq in H. exact H.
Qed.

(** * C96 *)
Section Rand.
Context {R K T : Type} {RO : RingOps R} {KO : FieldOps K} {E : Embed K R} {TO : TransOps T R K}.
Context {LR : RingLaws R} {LK : FieldLaws K} {EL : EmbedLaws K R}.
Theorem C96_comb_fn (products : list (R * list nat)) (vals : list R) :
  (in_range products (List.length vals) -> rand_poly_comb_fn products vals = Ok (sum_of_products products vals)) /\
  (rand_poly_comb_fn products vals = Panic <-> ~ in_range products (List.length vals)).
Proof. split; [apply comb_fn_spec|apply comb_fn_panics]. Qed.
(** Whatever the generator yields: the tables are returned in order, the products refer to them, and the claimed sum is the sum
    over the cube, so that the sumcheck accepts it. *)
Theorem C96_rand_poly (nv : nat) (draws : list (R * list (mle R))) (ts : T) :
  let '(mles, degree, products, sum) := rand_poly nv draws in
  let comb := sum_of_products products in
  mles = flat_map snd draws /\ map fst products = map fst draws /\
  (forall p, rand_poly_comb_fn products (mles_at mles p) = Ok (comb (mles_at mles p))) /\
  sum = cube_sum nv (fun p => comb (mles_at mles p)) /\
  ((1 <= nv)%nat -> (1 <= degree)%nat -> char_gt K degree -> Forall (fun d => Forall (fun m => mle_nv m = nv) (snd d)) draws ->
   exists proof r ts', sc_prove ts mles nv degree comb = Ok (proof, r, ts') /\
     sc_verify ts nv degree sum proof = Ok (r, comb (mles_at mles (map emb r)), ts')).
Proof.
  rewrite rand_poly_eq. cbv zeta. split; [reflexivity|]. split; [|split; [|split]].
  - generalize 0%nat. induction draws as [|d ds IH]; intros n; cbn [prods map]; [auto|]. rewrite IH. auto.
  - intros p. apply comb_fn_spec. unfold mles_at. rewrite map_length. apply (prods_range draws 0).
  - apply (prods_total nv draws []).
  - intros Hn Hd Hc Hf.
    destruct (sumcheck_complete ts (tables draws) nv (max_len draws) (sum_of_products (prods 0 draws)) Hn Hd Hc) as (pf & r & ts' & E1 & _ & _ & E2).
    + apply prods_deg.
    + unfold tables. apply Forall_flat_map. exact Hf.
    + exists pf, r, ts'. split; auto. rewrite (prods_total nv draws []). exact E2.
Qed.
End Rand.

(** * C97, C98 *)
Section Wit.
Context {F K C R : Type} {SO : SOps F K C R} {p : Z} {SL : SLaws F K C R p}.
(** [within_bound] compares the canonical representatives of all coefficients with that of the bound. *)
Theorem C97_within_bound (w : witness C R) (b : Z) : Z.odd p = true ->
  (within_bound p w b = true <->
   forall x c, In c (w_f w) -> In x (coeffs (icrt c)) -> exists z, (0 <= z < b mod p)%Z /\ x = (rofZ z : F)).
Proof.
  intros Ho. pose proof (p_odd (p := p)) as Hp. unfold within_bound. rewrite forallb_forall. split.
  - intros H x c Hc Hx. specialize (H (icrt c) (in_map _ _ _ Hc)). rewrite forallb_forall in H. specialize (H x Hx). apply Z.ltb_lt in H.
    exists (signed x mod p)%Z. pose proof (Z.mod_pos_bound (signed x) p ltac:(lia)). split; [lia|].
    rewrite (rofZ_modp (p := p)) by auto. symmetry. apply signed_val.
  - intros H c Hc. apply in_map_iff in Hc as (c0 & <- & Hc). apply forallb_forall. intros x Hx. apply Z.ltb_lt.
    destruct (H x c0 Hc Hx) as (z & Hz & ->).
    assert (signed (rofZ z : F) mod p = z mod p)%Z as ->.
    { apply (rofZ_eq_iff (p := p)); auto. apply signed_val. }
    pose proof (Z.mod_pos_bound b p ltac:(lia)). rewrite (Z.mod_small z p) by lia. lia.
Qed.
(** It is not a bound on the norm: one negative coefficient, however small, is enough to be rejected. *)
Theorem C97_norm_refuted (w : witness C R) (b : Z) (c : R) (x : F) :
  (2 <= b)%Z -> (2 * b < p)%Z -> In c (w_f w) -> In x (coeffs (icrt c)) -> x = rofZ (-1) ->
  (Z.abs (signed x) < b)%Z /\ within_bound p w b = false.
Proof.
  intros Hb Hbp Hc Hx ->. pose proof (p_odd (p := p)) as Hp. rewrite (signed_small (-1)) by lia. split; [lia|].
  unfold within_bound. destruct (forallb _ _) eqn:E; auto. exfalso. rewrite forallb_forall in E. specialize (E _ (in_map icrt _ _ Hc)).
  rewrite forallb_forall in E. specialize (E _ Hx). apply Z.ltb_lt in E. rewrite (signed_small (-1)) in E by lia.
  rewrite (Z.mod_small b) in E by lia. rewrite <- (Z.mod_add (-1) 1 p), Z.mod_small in E by lia. lia.
Qed.
Theorem C98_decompose_commit (P : dparams) (A : ajtai R) (w : list R) : covers (p := p) P ->
  decompose_and_commit_ntt A P w = wit_commit A (wit_from_w_ccs P w : witness C R) /\
  (forall v : list C, decompose_and_commit_coeff A P v = decompose_and_commit_ntt A P (map crt v)) /\
  (forall cm, decompose_and_commit_ntt A P w = Ok cm -> exists f : list C,
     gadget_recompose (dp_B P) (dp_L P) (map crt f) = w /\ (forall x, In x f -> cnorm_le (dp_B P / 2) x) /\
     commit A (map crt f) = Ok cm) /\
  ((exists cm, decompose_and_commit_ntt A P w = Ok cm) <-> a_ncols A = (List.length w * dp_L P)%nat).
Proof.
  intros Hc. split; [reflexivity|]. split; [|split].
  - intros v. unfold decompose_and_commit_ntt. f_equal. rewrite map_map. rewrite <- (map_id v) at 1. apply map_ext. intros. symmetry. apply icrt_crt.
  - intros cm H. exists (w_fc (wit_from_w_ccs P w : witness C R)). destruct (from_w_ccs_consistent P w Hc) as (_ & _ & _ & E1).
    split; [symmetry; exact E1|]. split; [|exact H]. intros x Hx. eapply (from_w_ccs_short P w); [apply Hc|exact Hx].
  - pose proof (from_w_ccs_length P w) as Hl. change (w_f (wit_from_w_ccs P w)) with (map crt (w_fc (wit_from_w_ccs P w : witness C R))) in Hl.
    unfold decompose_and_commit_ntt, decompose_and_commit_coeff, commit_coeff.
    change (gadget_decompose (dp_B P) (dp_L P) (map icrt w)) with (w_fc (wit_from_w_ccs P w : witness C R)).
    unfold commit, checked_mul_vec. rewrite Hl. destruct (Nat.eqb_spec (List.length w * dp_L P) (a_ncols A)) as [E|N]; cbn [negb].
    + rewrite (proj2 (Nat.eqb_eq _ _) (eq_sym E)). cbn. split; [intros _; congruence|eauto].
    + split; [intros [cm H]; discriminate|intros H; exfalso; apply N; auto].
Qed.
End Wit.
Section Rnd.
Context {R : Type} {RO : RingOps R} {LR : RingLaws R}.
Add Ring Rring87 : (@rlaws_th R RO LR).
(** C18: what a matrix made by [rand] computes. *)
Theorem C18_rand_value (sample : R) (k n : nat) (f : list R) :
  commit (ajtai_rand sample k n) f =
  let cols := if (k =? 0)%nat then 0%nat else n in
  if (List.length f =? cols)%nat then Ok (repeat (sample * lsum f) k) else Err (WrongWitnessLength (List.length f) cols).
Proof.
  unfold commit, checked_mul_vec, ajtai_rand. cbn [a_ncols a_rows].
  assert ((match k with O => 0%nat | _ => n end) = (if (k =? 0)%nat then 0%nat else n)) as -> by (destruct k; auto). cbv zeta.
  destruct (Nat.eqb_spec (List.length f) (if (k =? 0)%nat then 0%nat else n)) as [E|N]; cbn [negb]; auto. rewrite <- E, Nat.eqb_refl. cbn [of_option].
  f_equal. destruct k as [|k]; [auto|]. cbn [Nat.eqb] in E. rewrite <- E.
  assert (lsum (zipw rmul (repeat sample (List.length f)) f) = sample * lsum f) as Ev.
  { clear - LR. induction f as [|x f IH]; cbn [List.length repeat zipw]; [cbn; rewrite rmul_0_r; auto|]. rewrite !lsum_cons, IH. ring. }
  clear E. induction (Datatypes.S k) as [|m IH]; cbn [repeat map]; auto. rewrite IH, Ev. auto.
Qed.
End Rnd.
