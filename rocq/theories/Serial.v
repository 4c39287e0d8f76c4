(** Serialisation of proofs.  LFProof, the proofs of the three subprotocols, the sumcheck proof and the commitment derive
    [CanonicalSerialize] and [CanonicalDeserialize] (nifs.rs 28, homomorphic_commitment.rs 11, decomposition/structs.rs 18,
    folding/structs.rs 17, linearization/structs.rs 14, sumcheck.rs 41, sumcheck/prover.rs 13).
    The derived code writes the fields in the order of declaration.  The formats of the parts are those of ark-serialize and ark-ff,
    which are not in the sandbox: a Vec is its length as a little-endian u64 and then its elements; a prime field element is its canonical
    representative, little-endian, in as many bytes as the modulus needs, and reading refuses values that are not below the
    modulus; an extension element is its coefficients, a ring element (NTT form) its slots, both without a length.
    [Compress] and [Validate] make no difference for these types.  Bytes are integers from 0 to 255.  Errors of reading are [None].
    Running out of memory while reading a length is not modelled. *)
From Coq Require Import String List Arith Lia ZArith Bool.
From Verif Require Import Prelude Alg Arith Linearization Decomposition Folding NIFS PolyInst CycInst.
Import ListNotations.
Local Open Scope Z_scope.

(** A pair of [CanonicalSerialize] and [CanonicalDeserialize] (external traits); [dec] answers the value and the bytes left. *)
Record codec (A : Type) := Codec { enc : A -> list Z; dec : list Z -> option (A * list Z) }.
Arguments Codec {A}. Arguments enc {A}. Arguments dec {A}.

(** The n low bytes of z, lowest first, and back. *)
Fixpoint le_bytes (n : nat) (z : Z) : list Z := match n with O => [] | S m => z mod 256 :: le_bytes m (z / 256) end.
(** The number with the given bytes, lowest first. *)
Fixpoint le_value (l : list Z) : Z := match l with [] => 0 | b :: t => b + 256 * le_value t end.
(** Reading n bytes. *)
Definition take (n : nat) (l : list Z) : option (list Z * list Z) :=
  if (n <=? length l)%nat then Some (firstn n l, skipn n l) else None.

(** u64 *)
Definition c_u64 : codec Z := Codec (le_bytes 8) (fun l => match take 8 l with Some (b, r) => Some (le_value b, r) | None => None end).
(** Bytes of a prime field element: the bits of the modulus rounded up to bytes. *)
Definition fp_bytes (p : Z) : nat := Z.to_nat ((Z.log2 p + 8) / 8).
(** External: a prime field element; values from the modulus on are rejected. *)
Definition c_fp (p : Z) : codec (fp p) :=
  Codec (fun x => le_bytes (fp_bytes p) (fpz x))
        (fun l => match take (fp_bytes p) l with
                  | Some (b, r) => if le_value b <? p then Some (zp p (le_value b), r) else None
                  | None => None
                  end).
(** n elements without a length (arrays) *)
Fixpoint dec_arr {A} (c : codec A) (n : nat) (l : list Z) : option (list A * list Z) :=
  match n with
  | O => Some ([], l)
  | S m => match dec c l with
           | Some (a, l1) => match dec_arr c m l1 with Some (t, l2) => Some (a :: t, l2) | None => None end
           | None => None
           end
  end.
(** Arrays of fixed length: no length prefix. *)
Definition c_arr {A} (n : nat) (c : codec A) : codec (list A) := Codec (fun l => concat (map (enc c) l)) (dec_arr c n).
(** Vec *)
Definition c_vec {A} (c : codec A) : codec (list A) :=
  Codec (fun l => enc c_u64 (Z.of_nat (length l)) ++ concat (map (enc c) l))
        (fun l => match dec c_u64 l with Some (n, r) => dec_arr c (Z.to_nat n) r | None => None end).
(** Fields one after the other, and reading into a structure. *)
Definition c_pair {A B} (a : codec A) (b : codec B) : codec (A * B) :=
  Codec (fun x => enc a (fst x) ++ enc b (snd x))
        (fun l => match dec a l with
                  | Some (x, l1) => match dec b l1 with Some (y, l2) => Some ((x, y), l2) | None => None end
                  | None => None
                  end).
(** A type serialised through another one. *)
Definition c_map {A B} (f : A -> B) (g : B -> A) (c : codec A) : codec B :=
  Codec (fun b => enc c (g b)) (fun l => match dec c l with Some (a, r) => Some (f a, r) | None => None end).

(** Ring elements *)
Section Ring.
Context {p : Z} {K : Type} (y : cyc p K).
(** External: an extension field element by its coordinates. *)
Definition c_ext : codec K := c_map (cy_of y) (cy_co y) (c_arr (cy_e y) (c_fp p)).
(** External: a ring element by its slots. *)
Definition c_ring : codec (pol K (cy_k y)) :=
  c_map (fun l => mk (fun i => nth i l (@rzero K (@fld_ring K (cy_KO y))))) (fun x => pl_l x) (c_arr (cy_k y) c_ext).
End Ring.

Section Proofs.
Context {R : Type} (c : codec R).
(** homomorphic_commitment.rs 11-14; sumcheck/prover.rs 13-17 [ProverMsg]: one vector *)
Definition c_commitment : codec (list R) := c_vec c.
(** sumcheck.rs 41-42 *)
Definition c_sumcheck : codec (list (list R)) := c_vec (c_vec c).
(** linearization/structs.rs 14-37 *)
Definition c_lin : codec (lin_proof R) :=
  c_map (fun x => LinProof (fst x) (fst (snd x)) (snd (snd x))) (fun q => (lp_sc q, (lp_v q, lp_u q)))
        (c_pair c_sumcheck (c_pair (c_vec c) (c_vec c))).
(** decomposition/structs.rs 18-48 *)
Definition c_dec : codec (dec_proof R) :=
  c_map (fun x => DecProof (fst x) (fst (snd x)) (fst (snd (snd x))) (snd (snd (snd x))))
        (fun q => (dp_us q, (dp_vs q, (dp_xs q, dp_ys q))))
        (c_pair (c_vec (c_vec c)) (c_pair (c_vec (c_vec c)) (c_pair (c_vec (c_vec c)) (c_vec c_commitment)))).
(** folding/structs.rs 17-45 *)
Definition c_fold : codec (fold_proof R) :=
  c_map (fun x => FoldProof (fst x) (fst (snd x)) (snd (snd x))) (fun q => (fp_sc q, (fp_theta q, fp_eta q)))
        (c_pair c_sumcheck (c_pair (c_vec (c_vec c)) (c_vec (c_vec c)))).
(** nifs.rs 28-34 *)
Definition c_lf : codec (lf_proof R) :=
  c_map (fun x => LFProof (fst x) (fst (snd x)) (fst (snd (snd x))) (snd (snd (snd x))))
        (fun q => (lf_lin q, (lf_dec_l q, (lf_dec_r q, lf_fold q))))
        (c_pair c_lin (c_pair c_dec (c_pair c_dec c_fold))).
End Proofs.
