(** Model of the Poseidon transcript (latticefold/src/transcript/poseidon.rs, latticefold-plus/src/transcript.rs) over the duplex sponge of
    ark-crypto-primitives.  The sponge itself is external code; it is modelled as published (sponge/poseidon/mod.rs) and reproduces
    the values in the tests of transcript/poseidon.rs (Examples14.v). *)
From Coq Require Import String List Arith Lia ZArith Bool.
From Verif Require Import Prelude Alg Transcript Rings PolyInst FieldExt CycInst Challenge Sampling.
Import ListNotations.
Local Open Scope rs_scope.

(** External [PoseidonConfig]; the tables hold integers, reduced modulo [p] where they are used ([Fq::from]). *)
Record poseidon_cfg := PCfg {
  pc_full : nat; pc_partial : nat; pc_alpha : nat;
  pc_mds : list (list Z); pc_ark : list (list Z); pc_rate : nat; pc_cap : nat }.
(** External [PoseidonConfig::new]: the assertions on the dimensions. *)
Definition pcfg_new (c : poseidon_cfg) : result poseidon_cfg :=
  let t := (pc_rate c + pc_cap c)%nat in
  if (length (pc_ark c) =? pc_full c + pc_partial c)%nat && forallb (fun r => length r =? t)%nat (pc_ark c) &&
     (length (pc_mds c) =? t)%nat && forallb (fun r => length r =? t)%nat (pc_mds c)
  then Ok c else Panic.

(** External [DuplexSpongeMode] and [PoseidonSponge]. *)
Inductive mode := Absorbing (next_absorb_index : nat) | Squeezing (next_squeeze_index : nat).
(** External [PoseidonSponge]: state and mode. *)
Record sponge (p : Z) := Sponge { sp_state : list (fp p); sp_mode : mode }.
Arguments Sponge {p}. Arguments sp_state {p}. Arguments sp_mode {p}.

Section Perm.
Context {p : Z} (c : poseidon_cfg).
Notation F := (fp p).
(** External [apply_ark], [apply_s_box], [apply_mds]. *)
Definition apply_ark (k : nat) (s : list F) : list F := zipw (fun x a => x + zp p a) s (nth k (pc_ark c) []).
(** External: [x^alpha]. *)
Definition sbox (x : F) : F := rpow x (pc_alpha c).
(** External [apply_s_box]: all entries in a full round, the first one in a partial round. *)
Definition apply_s_box (full : bool) (s : list F) : list F :=
  if full then map sbox s else match s with x :: s' => sbox x :: s' | [] => [] end.
(** External [apply_mds]. *)
Definition apply_mds (s : list F) : list F := map (fun row => lsum (zipw (fun a x => x * zp p a) row s)) (pc_mds c).
(** External [permute]: half of the full rounds, the partial rounds, the other half. *)
Definition is_full (k : nat) : bool := (k <? pc_full c / 2)%nat || (pc_full c / 2 + pc_partial c <=? k)%nat.
(** One round of the external [permute]. *)
Definition round (s : list F) (k : nat) : list F := apply_mds (apply_s_box (is_full k) (apply_ark k s)).
(** External [permute]. *)
Definition permute (s : list F) : list F := fold_left round (seq 0 (pc_full c + pc_partial c)) s.

(** [state[at + i] += xs[i]] *)
Fixpoint add_at (at_ : nat) (xs : list F) (s : list F) : list F :=
  match at_, s with
  | S a, y :: s' => y :: add_at a xs s'
  | O, y :: s' => match xs with x :: xs' => (y + x) :: add_at O xs' s' | [] => s end
  | _, [] => []
  end.
(** External [absorb_internal].  The loop absorbs at least one element per iteration when the start index is below the rate, so the number
    of elements bounds the iterations; the case of no fuel is not reached (Poseidon_Proofs.v). *)
Fixpoint absorb_internal (fuel start : nat) (xs : list F) (s : list F) : sponge p :=
  if (start + length xs <=? pc_rate c)%nat then Sponge (add_at (pc_cap c + start) xs s) (Absorbing (start + length xs))
  else match fuel with
       | O => Sponge s (Absorbing start)
       | S f => let n := (pc_rate c - start)%nat in
                absorb_internal f 0 (skipn n xs) (permute (add_at (pc_cap c + start) (firstn n xs) s))
       end.
(** External [absorb]. *)
Definition sp_absorb (sp : sponge p) (xs : list F) : sponge p :=
  match xs with
  | [] => sp
  | _ => match sp_mode sp with
         | Absorbing i => if (i =? pc_rate c)%nat then absorb_internal (length xs) 0 xs (permute (sp_state sp))
                          else absorb_internal (length xs) i xs (sp_state sp)
         | Squeezing _ => absorb_internal (length xs) 0 xs (permute (sp_state sp))
         end
  end.
(** External [squeeze_internal] for [n] elements.  The library permutes between blocks unless the number of elements still wanted equals the rate. *)
Fixpoint squeeze_internal (fuel start n : nat) (s : list F) : list F * sponge p :=
  if (start + n <=? pc_rate c)%nat then (firstn n (skipn (pc_cap c + start) s), Sponge s (Squeezing (start + n)))
  else match fuel with
       | O => ([], Sponge s (Squeezing start))
       | S f => let k := (pc_rate c - start)%nat in
                let '(out, sp) := squeeze_internal f 0 (n - k) (if (n =? pc_rate c)%nat then s else permute s) in
                (firstn k (skipn (pc_cap c + start) s) ++ out, sp)
       end.
(** External [squeeze_native_field_elements]. *)
Definition sp_squeeze (sp : sponge p) (n : nat) : list F * sponge p :=
  match sp_mode sp with
  | Absorbing _ => squeeze_internal n 0 n (permute (sp_state sp))
  | Squeezing i => if (i =? pc_rate c)%nat then squeeze_internal n 0 n (permute (sp_state sp))
                   else squeeze_internal n i n (sp_state sp)
  end.
(** External [squeeze_bytes]: from each element the low (MODULUS_BIT_SIZE - 1) / 8 bytes. *)
Definition usable : nat := Z.to_nat (Z.log2 p / 8).
(** The [n] low bytes, lowest first. *)
Definition le_bytes (n : nat) (x : Z) : list Z := map (fun i => (x / 256 ^ Z.of_nat i) mod 256)%Z (seq 0 n).
(** External [squeeze_bytes]. *)
Definition sp_bytes (sp : sponge p) (n : nat) : list Z * sponge p :=
  let '(xs, sp') := sp_squeeze sp ((n + usable - 1) / usable) in
  (firstn n (flat_map (fun x => le_bytes usable (fpz x)) xs), sp').
(** External [PoseidonSponge::new]; poseidon.rs 32-38 [PoseidonTranscript::new]. *)
Definition sp_new : sponge p := Sponge (repeat 0 (pc_rate c + pc_cap c)) (Absorbing 0).
End Perm.

Section Tr.
Context {p : Z} {K : Type} (y : cyc p K) (c : poseidon_cfg).
Notation R := (pol K (cy_k y)).
Notation C := (pol (fp p) (cy_d y)).
(** poseidon.rs 40-47 [absorb] (latticefold-plus/src/transcript.rs 36-43): [coeffs] of the NTT form are its slots, [to_base_prime_field_elements]
    their coordinates. *)
Definition flatten (v : R) : list (fp p) := flat_map (cy_co y) (pl_l v).
(** poseidon.rs 40-47 [absorb] *)
Definition pt_absorb (sp : sponge p) (v : R) : sponge p := sp_absorb c sp (flatten v).
(** poseidon.rs 49-57 [get_challenge] (transcript.rs 45-53); [from_base_prime_field_elems] answers [None] unless it gets as many elements as the
    extension has coordinates. *)
Definition pt_challenge (sp : sponge p) : result (K * sponge p) :=
  let '(xs, sp1) := sp_squeeze c sp (cy_e y) in
  let sp2 := sp_absorb c sp1 xs in
  if (length xs =? cy_e y)%nat then Ok (cy_of y xs, sp2) else Panic.
(** poseidon.rs 69-74 [get_short_challenge] *)
Definition pt_short (decode : list Z -> result (list Z)) (need : nat) (sp : sponge p) : result (C * sponge p) :=
  let '(bs, sp1) := sp_bytes c sp need in
  match decode bs with Ok l => Ok (elt_of p (cy_d y) l, sp1) | _ => Panic end.
(** The transcript as an instance of the trait; panics do not occur (C86). *)
Definition poseidon_trans : TransOps (sponge p) R K :=
  {| absorb := pt_absorb;
     get_challenge := fun sp => match pt_challenge sp with Ok r => r | _ => (cy_of y [], sp) end;
     squeeze_bytes := fun sp n => sp_bytes c sp n |}.
End Tr.
