(** Model of the short-challenge decoders (cyclotomic-rings/src/rings/*.rs) and of the Poseidon
    transcript's [get_short_challenge].  A byte is an integer in [0, 256). *)
From Coq Require Import List Arith Lia ZArith Bool.
From Verif Require Import Prelude.
Import ListNotations.
Local Open Scope Z_scope.

(** The values of Rust's [u8]. *)
Definition is_byte (b : Z) : Prop := 0 <= b < 256.

(** [x << k] on [u8]: the bits shifted out are lost. *)
Definition shl8 (x k : Z) : Z := Z.land (Z.shiftl x k) 255.

(** goldilocks.rs 32 and babybear.rs 32 [MAX_COEFF] *)
Definition max_coeff : Z := 32.

(** goldilocks.rs 54-63 and babybear.rs 54-63: one iteration of the loop. *)
Definition decode3 (b0 b1 b2 : Z) : list Z :=
  [ Z.land b0 63 - max_coeff;
    Z.lor (Z.shiftr (Z.land b0 192) 6) (shl8 (Z.land b1 15) 2) - max_coeff;
    Z.lor (Z.shiftr (Z.land b1 240) 4) (shl8 (Z.land b2 3) 4) - max_coeff;
    Z.shiftr (Z.land b2 252) 2 - max_coeff ].

(** goldilocks.rs 51-64, babybear.rs 51-64: the loop [for i in 0..6]. *)
Definition decode_loop (bs : list Z) : list Z :=
  flat_map (fun i => decode3 (nth (3 * i) bs 0) (nth (3 * i + 1) bs 0) (nth (3 * i + 2) bs 0)) (seq 0 6).

(** [BYTES_NEEDED] (goldilocks.rs 39, babybear.rs 39, frog.rs 35, stark.rs 35) *)
Definition gb_bytes : nat := 18.
(** [BYTES_NEEDED] of Frog and Stark (frog.rs 35, stark.rs 35) *)
Definition fs_bytes : nat := 16.

(** [Fq::from(x)] for a small integer: its residue modulo the characteristic [p].
    [RqPoly::from(Vec<Fq>)] (stark-rings, external): the coefficient vector, filled up with zeros
    to the dimension [d] of the ring.  The BabyBear test (babybear.rs 77-112) passes 24 coefficients
    for a ring of dimension 72. *)
Definition poly_of (p : Z) (d : nat) (xs : list Z) : list Z :=
  resize d 0 (map (fun x => x mod p) xs).

(** Dimensions and characteristics of the four rings; doc comments goldilocks.rs 17-20,
    babybear.rs 17-20, frog.rs 9-21, stark.rs 1-21; the values of the primes are those visible in the
    unit tests (goldilocks.rs, babybear.rs, frog.rs) and Starknet's prime. *)
Definition gold_p : Z := 18446744069414584321.
(** The BabyBear prime (babybear.rs 17-20). *)
Definition bb_p : Z := 2013265921.
(** The Frog prime (frog.rs 9-21). *)
Definition frog_p : Z := 15912092521325583641.
(** The prime of Starknet (stark.rs 1-21). *)
Definition stark_p : Z := 2 ^ 251 + 17 * 2 ^ 192 + 1.
(** Degree of the Goldilocks ring (goldilocks.rs 17-20). *)
Definition gold_d : nat := 24.
(** Degree of the BabyBear ring (babybear.rs 17-20). *)
Definition bb_d : nat := 72.
(** Degree of the Frog ring (frog.rs 9-21). *)
Definition frog_d : nat := 16.
(** Degree of the Stark ring (stark.rs 1-21). *)
Definition stark_d : nat := 16.

(** goldilocks.rs 41-67 [short_challenge_from_random_bytes] *)
Definition gold_challenge (bs : list Z) : result (list Z) :=
  if (length bs =? gb_bytes)%nat then Ok (poly_of gold_p gold_d (decode_loop bs))
  else Err (TooFewBytes (length bs) gb_bytes).

(** babybear.rs 41-67 *)
Definition bb_challenge (bs : list Z) : result (list Z) :=
  if (length bs =? gb_bytes)%nat then Ok (poly_of bb_p bb_d (decode_loop bs))
  else Err (TooFewBytes (length bs) gb_bytes).

(** frog.rs 37-55 *)
Definition frog_challenge (bs : list Z) : result (list Z) :=
  if (length bs =? fs_bytes)%nat then Ok (poly_of frog_p frog_d (map (fun x => x - 128) bs))
  else Err (TooFewBytes (length bs) fs_bytes).

(** stark.rs 37-51 *)
Definition stark_challenge (bs : list Z) : result (list Z) :=
  if (length bs =? fs_bytes)%nat then Ok (poly_of stark_p stark_d bs)
  else Err (TooFewBytes (length bs) fs_bytes).

(** transcript/poseidon.rs 69-74 [get_short_challenge], for a challenge set given by its decoder and
    its [BYTES_NEEDED]; [expect] panics on [Err].  [squeeze] is the sponge's [squeeze_bytes]. *)
Definition poseidon_short {T : Type} (squeeze : T -> nat -> list Z * T)
    (decode : list Z -> result (list Z)) (need : nat) (ts : T) : result (list Z * T) :=
  let '(bs, ts') := squeeze ts need in
  match decode bs with Ok c => Ok (c, ts') | _ => Panic end.
