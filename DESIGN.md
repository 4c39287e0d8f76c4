# Formal model of NethermindEth/latticefold in Rocq — design

Everything lives in `rocq/theories` (logical name `Verif`).  The Rust source in `/repo` is
read as text; each Gallina definition carries a comment with the file and lines it mirrors
and says where it simplifies.  Properties are in `properties.jsonl`, their status and theorem
names in `MANIFEST.json`, deliberately wrong variants of the model and what they broke in
`seeded/LOG.jsonl`.  In the log `first_broken` is what was observed: the first proof in each
file that no longer goes through.  `failed` lists theorems that rest on such a proof; for
entries S-C… it is computed from the reference graph, for S01–S103 it was written down at the
time, and either way most theorems in it were not re-run one by one.  `not_reached` lists theorems
of the claim that the build did not get to, so the entry says nothing about them.
`admitted_in_scratch` lists unrelated proofs that were skipped, in the scratch copy only, to get further.

## Layers

| File | Contents |
|---|---|
| `Prelude.v` | `result` (`Ok`/`Err`/`Panic`) monad, list helpers, powers of two |
| `Alg.v` | `RingOps`/`RingLaws`, `FieldOps`/`FieldLaws`, finite sums, powers, homomorphisms |
| `Poly.v` | polynomial functions as coefficient lists, factor theorem, root bound |
| `MLE.v`, `MLE_Proofs.v` | multilinear tables, evaluation, `eq` (model, spec, proofs) |
| `Transcript.v` | transcript class and derived operations |
| `Interp.v`, `Sumcheck.v`, `*_Proofs.v` | interpolation, sumcheck prover/verifier |
| `Arith.v`, `Arith_Proofs.v` | sparse matrices, CCS, R1CS, constraint systems, `VariableMap` |
| `Balanced.v` | balanced digit decomposition of integers (external crate, modelled concretely) |
| `Rings.v`, `Rings_Proofs.v` | the "suitable ring" class, Ajtai commitments, witnesses, rotation |
| `Linearization*.v`, `Decomposition*.v`, `Folding*.v`, `NIFS*.v` | LatticeFold protocol |
| `Relations.v`, `LinRel.v` | the relations (what a valid instance/witness is) and their linearity |
| `CombDeg.v`, `Folding_Comb.v` | degree bounds of comb functions |
| `Challenge*.v` | short-challenge decoders of the four rings |
| `PlusRing.v`, `SetCheck*.v`, `RangeCheck*.v`, `Cm*.v`, `Plus*.v` | LatticeFold+ |
| `Inst257.v`, `PolyInst.v` | F257[X]/(X^4+1); F_p[X]/(X^d+1) for all p, d |
| `Inst5.v`, `Toy.v` | concrete rings (F5, F25, F5[X]/(X^4+1), F25 x F25) and toy parameters |
| `FSLog.v`, `FSPlus.v` | schedules: the list of transcript calls of the two verifiers and what it determines (Fiat-Shamir) |
| `RangeCheck_Sound.v`, `Plus_Range.v` | soundness of the range check from true openings, the bounds it implies; accepted proofs for witnesses outside the range |
| `Plus_Sound.v` | soundness of the LatticeFold+ linearization and commitment transformation from true final evaluations; with the three missing comparisons, of the range check through them |
| `Extract.v` | extraction of witnesses from forked runs of the NIFS verifier (knowledge soundness) |
| `Primes.v` | Fermat's little theorem, Pocklington's criterion, primality of the four moduli |
| `FieldExt.v` | quadratic and cubic extensions K[X]/(X^2 - r), K[X]/(X^3 - r) as fields |
| `CycInst.v`, `RealRings.v` | F_p[X]/Phi with its CRT/ICRT for Phi a polynomial in X^e splitting into distinct X^e - rho; the four rings of cyclotomic-rings |
| `ShortDual.v`, `Sampling.v` | no short element vanishes in a slot (dual lattice certificates); short challenges are a strong sampling set |
| `Shipped.v` | the shipped parameter sets, norm growth of folds in the four rings |
| `Zippel.v`, `Reject.v`, `Break.v` | Schwartz-Zippel count for multilinear tables; what happens to witnesses outside the range of their digits |
| `Poseidon.v`, `PoseidonParams.v` | the Poseidon transcript over the arkworks sponge; the tables of the four configurations (generated from the Rust text) |
| `PoseidonCert.v`, `PChecks.v` | certificates about the tables (not part of the code) and their check by computation |
| `Poseidon_Proofs.v`, `Sponge_Proofs.v`, `SpongeBind.v`, `PTrans_Proofs.v`, `PShipped.v` | permutation, sponge, binding, distribution of bytes and challenges, the four transcripts |
| `Counting.v` | counting without probabilities: `few P N`, every duplicate-free list of objects with P has at most N entries |
| `SoundErr.v` | interactive protocols on a tape of coins against adaptive provers; soundness errors of sumcheck and folding step |
| `PlusErr.v`, `PlusRO.v` | soundness errors of the LatticeFold+ set check, range check and linearization, interactive and with a random oracle; a prover that guesses one challenge |
| `CmErr.v` | soundness error of the LatticeFold+ commitment transformation: two repetitions square the error |
| `LateB.v` | the prover that chooses `eval.b` after the batching challenges of the commitment transformation |
| `AdaptRO.v` | instances, history and proof chosen after the answers of the oracle; chains of folding steps of any length |
| `ShortRO.v` | the same with the short challenges drawn from the oracle; only the last output of a chain is assumed |
| `Dummy.v` | the generated systems and vectors of `arith/r1cs.rs` and `arith/ccs.rs`: `get_test_dummy_*`, `get_test_z*`, `get_test_degree_three_*` |
| `Builder.v` | the builder calls of `LinearCombination` and `ConstraintSystem` |
| `SizeWords.v` | the size checks in 64-bit arithmetic, with and without overflow checks |
| `RandomOracle.v`, `NIFS_RO.v` | transcript answering from a table of oracle questions; soundness of the non-interactive sumcheck and folding step |
| `FSSim.v`, `FSReal.v` | verifiers over related transcripts answer alike; the folding verifier over the Poseidon transcript as a history of sponge operations |
| `ProofSize.v` | sizes of honest folding proofs |
| `Overflow.v` | the u128 weights of the decomposition verifier and 2K - 1 with and without overflow checks |
| `Serial.v` | byte encodings of the parts of a LatticeFold proof (C115) |
| `RhoErr.v` | number of vectors of folding challenges for which wrong theta, eta go unnoticed |
| `Fork.v` | among more than m n^(m-1) vectors of length m over n symbols, one can be varied in every coordinate |
| `Floats.v`, `Floats_Proofs.v` | the two functions that compute in `f64` (`estimate_bound`, `security_check.rs`), over Flocq |
| `RandPoly.v`, `RandPoly_Proofs.v` | `sumcheck/utils.rs`: random polynomials with known sum |
| `Properties*.v` | final theorems, each a reference to a lemma |
| `Examples*.v` | concrete instances meeting the hypotheses; counterexamples |
| `Assumptions.v` | `Print Assumptions` of every theorem of the manifest |

## Modelling conventions

* Rings are `RingOps` records (operations and decidable equality only) so that model functions
  compute; laws are a separate class used only in proofs.  Every property therefore ranges over
  all rings satisfying the laws; the instances in `Inst5.v` show the laws are satisfiable and
  serve in the counterexamples.  The four rings of the repository are instances too (C81,
  `RealRings.v`): moduli and cyclotomic polynomials as in the doc comments of
  `cyclotomic-rings/src/rings/*.rs`.  The bases of the extension fields and the order of the slots
  are chosen there; those of stark-rings are not in the sandbox and may differ by an isomorphism.
* `result`: `Ok v`, `Err e` (Rust `Result::Err`), `Panic` (panic / assert / index out of bounds /
  `unwrap` on `None`).
* `&mut Transcript` is threaded as a state; the transcript is a class with `absorb`,
  `get_challenge` and `squeeze_bytes`, and nothing is assumed about it.  "All transcripts" = all
  instances and all initial states.
* `usize` is `nat` (no wrap-around) except where overflow is the subject (C114: `Overflow.v`; C14: machine integers
  with explicit range checks; C07: 64-bit encoding).
* `rayon` iterators are modelled by their sequential meaning, except C13 where schedules are
  quantified over explicitly.
* Soundness is deterministic: acceptance of a false claim implies that one of the verifier's
  challenges lies in a *bad set*.  The bad set is the zero set of a nonzero polynomial of
  stated degree that is determined by what was absorbed *before* the challenge was drawn.
  Reference points that make the polynomial nonzero are quantified before the transcript; a
  version with adaptive reference points would be nearly vacuous (see `seeded/LOG.jsonl`).

* Knowledge soundness (C73) models rewinding by running the verifier with different instances of
  `ShortOps` on one statement, one proof and one transcript state.  Only the folding challenges
  differ between the runs, and the prover sends nothing after them; the rewound prover's answers are the output
  witnesses.  How a prover is rewound, and with which probability the runs have the required
  form (`special`), is not modelled, except by counting: C105 finds such runs among the answers of any prover that is right for more than
  (2K-1)|S|^(2K-2) of the |S|^(2K-1) byte vectors.  For the four rings C82 replaces `special` by: the bytes
  squeezed for the redrawn challenge differ (C80: then the difference of the challenges is a unit).

* Error probabilities (C88 to C92) are counts: `few P N` says that no duplicate-free list of coin vectors with P is longer
  than N, and N is compared with the number of all vectors.  In C88 and C89 the transcript is a tape of coins and the prover
  a function of the coins revealed so far.  In C91 and C92 the transcript keeps its whole history and a challenge is the
  answer of an oracle on that history; the adversary is a function from the answers received so far to the next question,
  and a function from all answers to a proof.  Commitments are treated as binding: the openings are a fixed function of
  the commitment and the incoming witness is fixed.  C89 and C92 assume that theta and eta are the evaluations of the openings; C109
  removes this by counting the folding challenges as well, from a true output instance.  C110 puts the steps of a chain together, C112 counts over a whole chain.
  In C118 the adversary also chooses the instances and the history after seeing the answers, and chains have any length.  In C119 the
  answers of the oracle contain the seeds of the short challenges as well, and of a chain only the last output is assumed.  Nothing connects the Poseidon sponge with a random oracle
  except that both have the same interface (C86 says what the sponge binds).

## Trusted base

1. Coq 8.16.1's kernel (and `coqchk`), including `vm_compute` for the counterexamples.
2. Axioms: none, except for C93 and C94.  `Print Assumptions` answers "Closed under the global context" for every
   other theorem listed in `MANIFEST.json` (see `Assumptions.v`; the build prints the answers).  The theorems of C93 and C94
   are about real numbers and use the axioms of the standard library's `Reals`:
   `ClassicalDedekindReals.sig_not_dec`, `ClassicalDedekindReals.sig_forall_dec`,
   `FunctionalExtensionality.functional_extensionality_dep` and `Classical_Prop.classic` (through Flocq, which adds none).
   `coqchk` lists seven constants of `Coq.ssr.ssrunder`; these are fields of a module type of
   the standard library which is loaded but not used.
3. The reading of the Rust text.  Modelled code:
   * `latticefold/src`: `arith.rs`, `arith/{ccs,r1cs,utils,error}.rs`,
     `commitment/*`, `decomposition_parameters.rs`, `nifs.rs`,
     `nifs/{linearization,decomposition,folding}{.rs,/*}`, `utils/{mle_helpers,sumcheck,sumcheck/*,security_check}.rs`,
     `transcript.rs`, `transcript/poseidon.rs`;
   * `cyclotomic-rings/src`: `rotation.rs`, `challenge_set.rs`,
     `rings/{goldilocks,babybear,frog,stark}.rs` (the challenge decoders),
     `rings/poseidon/{goldilocks,babybear,frog,stark}.rs` (the tables);
   * `latticefold-plus/src`: see *LatticeFold+* below.
4. Behaviour attributed to code which is *not* in the sandbox:
   * stark-rings ring types: class `SOps`/`SLaws` (`Rings.v`) and `POps`/`PLaws` (`PlusRing.v`): field and ring laws,
     coefficient and slot representations, CRT/ICRT mutually inverse ring homomorphisms,
     multiplication by X as `into_rot_iter`, centred representatives;
   * stark-rings-poly: `DenseMultilinearExtension` (`from_evaluations_vec` pads with zeros and panics on
     overlong input, `evaluate`, `fix_variables`, `+=` with the special case for zero, scalar product),
     polynomial helpers;
   * stark-rings-linalg: `Matrix`, `SparseMatrix`, balanced decomposition (`Balanced.v`: digits
     of absolute value at most b/2, computed by the loop documented there);
   * arkworks `log2` (ceiling); ark-serialize's formats (`Serial.v`: `u64` lengths and field elements little-endian, a field element in
     as many bytes as its modulus needs and rejected if not below it, arrays without and vectors with their length, derived structs field by
     field) -- used by C115 only;
   * ark-crypto-primitives `PoseidonSponge`: modelled from its published source (`Poseidon.v`); the model
     reproduces both test vectors of `transcript/poseidon.rs` (`ex_big`, `ex_small` in `Examples14.v`).  Only C85 to C87
     use it, all other properties hold of every transcript.  C86 reduces binding to collisions of the
     permutation on the capacity part; that these are hard to find is not modelled.

   * `f64` arithmetic: Flocq's binary64 (`Floats.v`); Rust's `+`, `*`, `/`, `sqrt`, `ceil`, comparisons and `as` conversions are
     taken to be the IEEE operations, `powf` and `ln` are arbitrary functions (C94).

Not modelled: serialisation of anything but `LFProof` and its parts, benchmarks, examples, error message texts,
running time, memory.  Hash security and the hardness of module-SIS are outside the model: C90 to C92 idealise
the sponge as a random oracle and commitments as binding.

## Findings

Each item names the theorem that exhibits it.

### LatticeFold

1. `LFDecompositionVerifier` accepts a proof with fewer or more than K components and
   `LFFoldingVerifier` never checks that there are 2K of them: `C24_number_of_components_refuted`.
   Consequence: a proof for an *arbitrary* (unsatisfiable) instance is accepted for every
   transcript: `C36_forgery`, `C36_incoming_instance_refuted`.  With exactly K components each the
   verifier is sound (`C36_binds_partial`, `C61_nifs_sound`).
2. `AjtaiCommitmentScheme::rand` clones one random element into all entries, so any two
   witnesses with equal coordinate sum collide: `C18_rand_collides_refuted`.
3. Linearization indexes `vals[j]` by matrix number although the multilinear extensions are listed in
   the order of the flattened multisets; completeness fails for CCS whose flattened `S` is
   not `0,1,2,…`: `C26_arbitrary_ccs_refuted`; it holds for those in order and hence for all
   CCS obtained from R1CS (`C25_*`).
4. The last of the 2K folded witnesses has no range check on its individual coefficient blocks when tau >= 2:
   mu_{2K} = 1 makes its tau terms unweighted, and the range polynomial is odd, so a block pair
   (x, -x) cancels: `C59_norm_of_last_witness_refuted`, `C59_antisymmetric_accepted`.
   tau is 3 for Goldilocks, 9 for BabyBear, 4 for Frog; Stark (tau = 1) is unaffected.
5. The verifiers panic on malformed proofs: `C15_*`, `C39_*` (short sumcheck, wrong arity, short
   `u`, ragged theta); surplus sumcheck messages and surplus `u`/`v`/`x`/`y` entries are ignored
   (`C16_*`).
6. Public inputs are absorbed without length separators, so two instances of different shape can be
   absorbed alike: `C37_absorption_refuted`; the CCS itself is not absorbed.
7. `CCS::from_r1cs` with W smaller than the number of rows, and `check_relation`, drop constraints:
   `C03_drops_constraints_refuted`, `C04_small_W_refuted`.
8. BabyBear challenges use 24 of 72 coefficients: `C42_babybear_refuted`.
9. `VariableMap::total_len` over-counts when a name is added twice: `C58_total_len_refuted`.
10. `Witness::within_bound` compares canonical residues, so small negative coefficients are
    rejected: `C97_norm_refuted` (what it does compare: `C97_within_bound`).
11. `Commitment` addition with unequal lengths truncates to the left operand (`cm_add`).
12. Nothing bounds K: K = 0 underflows in `2*K-1` (`C114_zero_refuted`), and b^(K-1) >= 2^128 overflows the u128 power of
    `calculate_b_s` (`C114_weights_refuted`): debug builds panic (`C114_panics`), release builds give weight 0 to the components from
    128 on when b is even, so that these are not checked at all (`C114_release_ignores`).  The shipped sets, and the smallest K for a
    given B, are not affected (`C114_shipped`, `C114_minimal`).  The size check
    computes `(n - l - 1) * L` in usize: in release builds it wraps, and for every L > 1 a CCS whose witness is far too long for its rows
    is admitted (`C120_release_refuted`; debug builds panic, `C120_debug`).  For n <= l debug builds panic and release builds reject
    (`C120_underflow`, for lengths below 2^63).
13. The sanity check admits m = 1, for which the eq table constructor fails, and m larger than
    next_power_of_two((n-l-1)L), where the witness tables have fewer variables than s.  No proof is made for
    either (`C106_needs`); for every shipped set and every larger 2^s there is a satisfied R1CS, padded by
    `from_r1cs_padded`, which passes the check and cannot be folded (`C106_admitted_refuted`).
14. The K digits of base b hold exactly the coefficients up to `reach K b` (`C20_digits`; 2^K - 1 for b = 2).  For about half of the
    shipped parameter sets (`gold_tight`, `bb_tight`, `frog_tight` in `Shipped.v`, among them `GoldilocksDP`, `BabyBearDP`, `FrogDP`)
    a folded witness can leave this range (`C83_capacity_refuted`).  The digits of such a witness do not recompose to it and
    the honest prover is rejected, except at few points (`C84_rejected`).  `C84_second_fold_refuted` runs this:
    the first fold is accepted, every second one is rejected; for all tight sets but `GoldilocksDP` already from two fresh instances
    (`C84_fresh_folds_refuted`).  The other sets (all of Stark's) are never exceeded, whatever bytes are squeezed
    (`C83_chain`).  The counterexamples use worst-case challenges; by the size of random sums the smaller sets (BabyBear K = 8:
    range 255, Frog K = 10: range 1023) should be exceeded with ordinary challenges too *(estimate, not proved)*.  The
    tests of the repository fold once.  If the external decomposition panics instead of truncating, completeness fails all the same.
    (An earlier version of this text said that `Witness` construction from an empty vector panics.  Nothing in `/repo` shows that: it
    depends on the external `gadget_decompose` and `truncate_lnze`, which are not available here.)

15. BabyBear and Frog reuse the integers of the Goldilocks Poseidon tables modulo their own primes.  The Goldilocks matrix is a Cauchy
    matrix, hence MDS (`C85_mds`); modulo the BabyBear prime it is not (`C85_babybear_mds_refuted`: a difference in 6 places becomes one in
    18 places).  It is invertible modulo all three primes (`C85_bijection`).
16. In the Frog ring an element has 16 coordinates and a block of the sponge 20.  After a challenge 4 of them are used, so a single zero ring
    element absorbed between two challenges leaves no trace, and four elements give the same challenges as these four followed by a zero:
    `C86_zero_refuted`.  The sponge pads with zeros and records no lengths.  Histories with the same operations are separated (`C86_binding`), and the
    verifiers of this repository fix their operations by the shape of the statement and proof (C37), so no attack follows from this alone.
17. `squeeze_internal` of arkworks does not permute between blocks when exactly `rate` elements are asked for in the middle of a block; it then hands out
    elements a second time (`squeeze_rate` in `Sponge_Proofs.v`).  This repository never asks for `rate` elements at a time (`cf_e`, `cf_need`).

18. `check_ring_modulus_128_bits_security` converts the norm bound B to an integer with a saturating cast, to at most 2^64 - 1, before comparing
    it with the modulus.  For a modulus above 2^65 the comparison B < q/2 therefore always holds: the Stark modulus with kappa = 1000
    is accepted although B > q/2 (`C94_saturation_refuted`).  Decomposition bases from 2^64 on are always rejected
    (`C94_large_base`), including secure ones (`C94_large_base_refuted`).  When the cast does not saturate an accepted set does
    satisfy the inequalities up to the stated rounding (`C94_accepted_partial`).  The function is never called.
19. `ConstraintSystem::is_satisfied` takes primary ++ aux, while the folding scheme evaluates x ++ [1] ++ w.  The first auxiliary variable
    must therefore be the constant 1; nothing checks this, and `VariableMap::one` is not consulted.  A satisfied system without it
    gives an instance that no witness satisfies (`C121_one_refuted`); with it the two agree (`C121_instance`, `C121_folded`).
20. The generators of systems of any size record `l: 1` whatever `x_len` is (`C124_inputs_refuted`).  The systems are still satisfied
    (`C124_dummy_satisfied`), but the size check takes the witness for `x_len - 1` longer than it is, and without inputs for one shorter, so that it lets
    through a system that is too small (`C124_no_inputs_refuted`).  `get_test_dummy_degree_three_ccs_non_scalar` also sets
    `s_prime` to n, not log n (`C124_s_prime_refuted`); nothing reads that field.

### LatticeFold+

### What is modelled

| File | Code |
|---|---|
| `PlusRing.v` | the ring as used by LatticeFold+ (class `POps`/`PLaws`: coefficients, `exp`, `psi`, constant term, sparse products), `utils.rs` (tensor, tensor product, split, short_challenge) |
| `SetCheck.v` | `setchk.rs` (set check of several matrices and vectors, prover and verifier) |
| `RangeCheck.v` | `rgchk.rs` (`RgInstance::from_f`, `Rg::range_check`, `Dcom::verify`) |
| `Cm.v` | `cm.rs` (`Cm::prove`, `CmProof::verify`) |
| `Plus.v` | `decomp.rs`, `r1cs.rs`, `lin.rs`, `mlin.rs`, `plus.rs` |
| `Plus_Norm.v`, `Floats.v` | `utils.rs` `estimate_bound`, in exact arithmetic and in f64 (equal while a^2 + 4ac < 2^50, C93) |
| `PlusTranscript.v` | `transcript.rs`: `squeeze_challenges`, `squeeze_rchallenges`; the rest of the file is a thin wrapper around the sponge, covered by the abstract transcript |

`PLaws` (the laws used by the proofs) is satisfied by F_p[X]/(X^d+1) for every odd prime p and
even d >= 2: `PolyInst.v` constructs this ring over lists of coefficients, proves all laws,
that multiplication by a power of X does not enlarge coefficients (`mono_isometry`), and
that the characteristic is p.  `Inst257.v` is the instance p = 257, d = 4 by hand, used
in counterexamples; `Examples7.v` uses p = 2013265921, d = 16.

### Findings

1. *Universal forgery.*  A proof assembled from zeros is accepted on every transcript, for every
   claimed folded instance, every list of witness commitments and every evaluation point
   (`C53_forgery`, `C53_no_witness_refuted`).  The verifiers take the number of instances, the number
   of variables and the decomposition parameters from the proof and nothing is compared with a statement.
2. The witness commitments (`fcoms`) are neither absorbed nor compared with anything: they can be replaced in
   every accepted proof (`C52_commitments_unbound`, `C52_commitments_refuted`).
3. `PlusVerifier::verify` drops the instance derived by `CmProof::verify` and checks the decomposition
   against the prover's copy: any folded instance can be substituted
   (`C67_folded_instance_unbound`, `C67_folded_instance_refuted`).
4. Commitment, points and evaluations of accumulated instances are never read, neither by prover nor by
   verifier (`C68_claims_unused`, `C68_claims_refuted`).
5. The evaluation point stored with the openings is never compared with the sumcheck point
   (`C54_point_refuted`, `C54_linearization_point`).
6. The commitments of `h` are checked only in sum over the instances (`C66_commitments_shifted`,
   `C66_instance_commitment_refuted`).
7. A set check of one matrix together with vectors rejects the honest prover
   (`C45_one_matrix_with_vectors_refuted`); hence a range check of one instance with one digit does too
   (`C65_single_digit_refuted`).
8. The range check hard-codes the base d/2: other bases fail (`C64_base_refuted`); matrices with entries outside the
   base field fail (`C63_ring_matrix_refuted`).
9. `short_challenge` is the constant 0 for lambda < d and panics for lambda/d >= 64 (`C56_*`);
   `split` panics on a target of exactly the length of the data (`C55_*`).
10. Completeness end to end needs a base B with 2 (bound of the folded witness) <= B^2 (`C51_run`); for smaller
    B the honest proof of true instances is rejected (`C51_small_base_refuted`).  `estimate_bound` is such a base
    provided B <= b^k (`C69_run`).  The repository's own parameters are outside of this: `test_prove` has b^k = 64 < B
    (`ex_test_prove`), `test_prove_multi` and the benches use half of `estimate_bound`, for which the worst case
    does not fit (`ex_test_prove_multi`); they pass because random challenges stay below the worst case.
11. The L instances are summed with coefficient 1 and one set of challenges (marked TODO in `mlin.rs`): a proof is accepted
    whose folded instance is true while the commitments of two of its parts are off by d and -d (`C111_sum_hides`); the first part may have no
    opening at all (`C111_parts_refuted`).
12. `Cm::prove` panics when n < 2^nvars and there are matrices, although all tables are padded: `C107_length_refuted`,
    `C107_cm_needs`.  `RgInstance::from_f` needs kappa k l d^2 < n and `Cm::prove` next_power_of_two(kappa) k l d^2 <= n (`C107_needs`).
13. No challenge depends on the witness commitments: two accepted proofs with different commitments make the same
    calls on the transcript (`C72_commitments_absorbed_refuted`).  In LatticeFold, by contrast, the state before the
    folding challenges determines both instances and the whole proof (`C71_rho_binds`).
14. `eval.v`, from which the digits of `f` are checked, is not compared with `c[0]`, the evaluation of `f` that is folded.
    So the commitment transformation accepts, on every transcript, commitments and true openings of witnesses of any
    size that have the same images under the matrices as an in-range vector (`C75_witness_unranged`, `C75_range_refuted`).
15. `eval.b[0]`, from which `tau` is decoded, is not compared with `out.b`, which the set check constrains.  So the range
    check accepts any `mtau` and `tau` with all evaluations true (`C76_tau_unranged`, `C76_tau_refuted`).  With both
    comparisons added, `C74_range_check_sound` gives the intended bounds; `C79_compared_sound` shows that for
    `CmProof::verify` the comparisons of findings 5, 14 and 15 suffice, unless `b` is chosen late (finding 18).  `eval.b` and `v` are not absorbed either (C72).
16. `estimate_bound` rounds: for sop = 2^28 + 1, L = 1, d = 1, k = 2^14 the result is one too small (`C93_rounding_refuted`); the
    multiplication `a * a` overflows for a >= 2^32 (`ex_C93_overflow`).  The parameters of the repository are far below.
17. Challenges are elements of `R::BaseRing`.  All tests and benches but one use the coefficient ring of Frog, whose base ring is the 64-bit
    prime field.  A prover that guesses the first challenge of a sumcheck is believed for every R1CS and every witness, so the soundness error
    is above 2^-64 for all of them (`C101_frog_guess`, `C101_128_bits_refuted`), against 2^-128 for LatticeFold, whose challenges come from
    extension fields of at least 2^191 elements (C90).  The upper bounds of C99 to C101 hold for every ring.
18. `absorb_evaluations` absorbs `eval.a` and `eval.c` but not `eval.b`, which enters the batched claim of `CmProof::verify`.  So `b` can be chosen
    after both batching challenges.  With two or more matrices the two claims are two linear equations in two of the `b`, and a witness out of range gets through
    on all but 6 in |S| challenges, even with the comparisons of findings 5, 14 and 15 (`C117_late_b`, `C117_late_count`, `C117_order_refuted`).  C78, C79 and C116
    are about provers that fix `b` before these challenges; absorbing `eval.b` makes all provers such.
19. `squeeze_challenges` takes any name and reduces it modulo the characteristic.  Names longer than the characteristic can coincide: `"challenge"` and
    `"dhalkengf"` for Goldilocks, `"alpha"` and `"idphr"` for BabyBear; pairs for the other two in `C123_collision_refuted`.  Shorter names without a leading
    zero byte are kept apart (`C123_short`).  The function is never called; the tags of LatticeFold, made in the same way, are distinct (`C95_tags`).
