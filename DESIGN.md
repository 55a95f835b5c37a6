# Formal model of webb-tools/zk-SaaS in Rocq (Coq 8.16.1 + mathcomp)

## 1. Approach

The code under `/repo` is modelled function by function as executable Gallina functions
over mathcomp structures: the scalar field is an arbitrary `fieldType` with the FFT data of
arkworks' `FftField` (a 2-adic root of unity and the constant `GENERATOR`), the coefficient type
`T: DomainCoeff<F>` is an arbitrary `lmodType F` (so every statement covers field shares and
group shares alike), vectors are `seq`.  A panic is an explicit value `Panic`, an `Err(MpcNetError)`
is `Err e`; `debug_assert!` is controlled by a boolean `dbg` (debug / release build) over which the theorems
quantify.  Array loops are modelled as monadic folds with bounds-checked reads and writes.

The distributed programs are modelled as processes (free monad over send / receive / king-gather on one
channel, plus a join of processes on different channels) and executed by a small-step network
semantics with one FIFO queue per (sender, receiver, channel); schedules are arbitrary lists of actions.
A generic diamond lemma turns one canonical run into a statement about every schedule.

Randomness (`thread_rng`, `test_rng`, `F::rand`) is an arbitrary stream argument: theorems quantify over it.
Wire encodings of field/group elements are an arbitrary fixed-size codec with a round-trip law
(`CanonicalSerialize`), vectors are encoded on top of it as arkworks does.

Layout of `rocq/theories`:

* `Base.v`, `Model*.v` – the model (definitions only, each citing the lines of `/repo` it models)
* `Spec*.v`   – small independent specification vocabulary (polynomial evaluation, DFT, bit reversal, sharings,
  schedules, the Groth16 verification equation, ...); no model helper is used in a statement where a spec notion exists
* `*Proofs.v` (`CrashProofs.v`, `FewProofs.v`: crashed and silent parties), `KingFail.v`, `RingTac.v` – lemmas and tactics
* `*Thm.v`    – the proofs of the property theorems
* `Properties*.v` – only the property theorems (`exact: lemma`), each followed by `Print Assumptions`
* `Examples*.v`, `ExampleField.v` – non-vacuity: concrete fields (`'F_17`, `'F_97`), instances of the theorems whose
  hypotheses are met, and executions of the model by `vm_compute`

## 2. Plan per property

| id | modelled | proof |
|----|----------|-------|
| C01-C05 | `pss.rs` pack/det_pack/unpack/unpack2/lagrange_unpack | DFT inversion over modules; interpolation uniqueness |
| C06 | `pack` as a function of the random points | existence and uniqueness by interpolation on l secret + t share points |
| C07, C08 | `new` on top of radix-2 domains incl. rounding to powers of two | direct; C08 refuted by a computed witness over F_17-like fields |
| C09, C10 | release semantics of the same functions | refuted by witness / proved leak for all inputs |
| C11-C14 | `utils.rs`, loops as folds | induction against mathcomp `{poly F}` |
| C15-C17 | `gao.rs`, arkworks dense polynomials as `{poly F}` | Euclid invariants, degree argument of Gao's decoder; C17 refuted |
| C18, C19 | `pack.rs` | list reasoning |
| C20, C21 | `fft_in_place_rearrange`, `fft1_in_place`, `fft2_in_place` | loop invariants; induction on layers (Cooley-Tukey) |
| C22-C25, C27, C29, C31 | protocols as processes on the network semantics | canonical run + diamond lemma, with a crash set of size at most one |
| C26, C28, C33 | king's received messages as function of input and mask randomness | bijection on masks; refutations by witness |
| C30, C32 | error paths of `d_msm`, `d_pp` | direct / reachability invariant |
| C34-C37 | `qap.rs`, `ext_wit.rs` | polynomial divisibility over cosets |
| C38-C40 | `proving_key.rs`, `prove.rs`, `sha256.rs` | linearity; C40 refuted |
| C41-C45, C53 | `lib.rs`, `ser_net.rs` over the network semantics | canonical runs, diamond, queue invariants; C45 refuted by executing the model |
| C46 | `ProtocolPacket` in bincode layout, `LengthDelimitedCodec` decoder as state machine | induction over chunks |
| C47-C51, C54 | `prod.rs`, `multi.rs` bookkeeping | induction; refutations by witness |
| C52 | ark `Vec` layout | induction |
| C55, C56 | the random streams of `QAP::pss`, `pack_from_witness`, the dealer and the king | translations of the randomness (C06 lifted to vectors of sharings); injectivity for a known generator |
| C57 | `sha256.rs` main: set-up, dealer, parties, client, verifier | the lemma of C39 plus Lagrange coefficients, the QAP and the verification equation |
| C58 | all random streams of the dealer of `sha256.rs`, the twelve threads of a party | results and messages as functions of secrets and masks, translation of all masks and shares |
| C59 | king rounds of `dfft`, `deg_red`, `dmsm`, `dpp` with silent clients | one lemma about a king round with any set of silent clients, applied to each protocol's king function |
| C60 | `libsnark_h` and `circom_h` with the randomness of their masks | the same for the seven transforms (or six and the degree reduction) alone |
| C61 | one round of `deg_red`, `d_fft`, `d_ifft`, `d_msm`, with the messages the king collects (SpecKing) | the clients' masks can be moved by any sharing of degree below 2l that is zero for the coalition; conversely equal messages give equal masked shares, so the inputs differ by the difference of two masks |
| C62 | the example programs of dist-primitives (ModelDemo) | the theorem of the protocol, followed by one collection by the king |
| C63 | `add_ids` | the theorem about rounds with any set of silent parties (C59) with the king's sum |
| C64 | `local_dfft_test` | an operation on all slots does to each slot what the party's stage does to a vector; then C21 |
| C65 | `ConstraintDomain::new`, `localgroth_test` | P*Q - W has at most 2m coefficients, so the transforms on the larger domain are inverse to each other on it |
| C66 | `d_pp` with logs (SpecView) | the king's log of both rounds; a translation of the king's randomness moves the dealing of one vector of running products to that of another on t parties |
| C67 | the tests of the transforms (ModelTests) | C22-C24 and the dealing and unpacking of the test |
| C68 | `libsnark_ref`, `circom_ref`, the tests of ext_wit.rs (ModelTests) | a polynomial of degree below N is determined by its values on a coset; C36 without the assumption that the QAP is satisfied, C37 |
| C69 | `test_deg_red` (ModelTests) | C27 and Lagrange reconstruction of C02 |
| C70 | `d_pp_with` (ModelProto), of which `d_pp` is the instance 1 | the king's quotients do not depend on the factor; C33; all finished runs have the same results |
| C71 | the unit tests (ModelUnit) | C01, C04, C05, C12, C16, and the lengths that the tests slice |
| C72 | the tests of mpc-net (ModelMux) | one complete run is exhibited (all send, then all receive), confluence (C44) gives the others; C41, C43 |
| C73 | wrong shares (SpecTamper) | a basis of the polynomials of degree below n by the inverse transform gives `unpack2` on any vectors as a sum with weights; the top coefficient is the imbalance; then the round lemmas of C22, C27, C29 with what the vectors interpolate to in place of the secrets |
| C74 | arbitrary bytes (SpecBytes) | the king's store holds the bytes sent; decoding it gives vectors, `transpose` cuts or panics, and the rest is C73 for the inputs `y - mask`; the local stage of the transforms is onto, so such inputs exist; for the king's answers one gather and one scatter |
| C75 | silent and garbling clients together (SpecBytes `with_garbled`) | the partial branch of the decoder keeps exactly the parties that are neither silent nor garbling, in hash-map order; the rest is C59 for the union of both sets, except that the garbling ones still get the answer |
| C76 | the benchmarks (ModelMsmBench) | one round is C73 for zero masks, where the king's answer is the result; equal shares are a sharing of degree 0; rounds compose |
| C77 | partial products of wrong shares and bytes (SpecTamper, SpecBytes) | the king of `d_pp` on any vectors is `unpack2` on any vectors (C73) and the loops of C31; the round lemmas of C73 and C74 with a further round behind them |
| C78 | deviation in the prover (SpecTamper, SpecVerify) | C39 with `d_msm` on any vectors (C73) in place of `d_msm` on sharings; the client is `unpack2` on any vectors; the verdict is bilinearity |
| C79 | wrong shares of the QAP (SpecExtTamper) | C36, C37 and C39 with the transforms on any vectors (C73) in place of the transforms on sharings; the vector exists because the strides are a permutation; in debug builds (SpecExtCaught) unbalanced vectors stop the king, since a thread that has panicked keeps its party from joining on every schedule |
| C80 | protocols over the production network (SpecProdNet) | a renaming of the nodes is a bisimulation for star shaped programs; set-up (C47) and program are composed through the join; the missing id is an invariant of the king's thread |

## 3. Trusted base

* The kernel of Coq 8.16.1 (with `vm_compute` in the examples and in some refutation witnesses; `native_compute` is not used).
* `Print Assumptions` prints "Closed under the global context" for every theorem in `Properties*.v`: no axiom of any
  library is used, neither functional extensionality nor proof irrelevance nor classical logic.
* mathcomp (ssreflect, algebra) and its `zify` plug-in for `lia` are used as libraries; everything taken from them is checked
  by the kernel.
* The model is a hand translation of the Rust text. The correspondence of the model with the code is not proved; every
  definition cites the lines it translates and names its simplifications.
* No axioms, parameters, functors, module types, admitted goals, or disabled checks (guard, positivity, universes) are used.

## 4. What is modelled

| file of `/repo` | functions | model |
|---|---|---|
| secret-sharing/src/pss.rs | `new`, `det_pack`, `pack`, `unpack`, `unpack2`, `lagrange_unpack`, `unpack_missing_shares` | ModelPss |
| secret-sharing/src/utils.rs | polynomial evaluation, synthetic division, zero polynomial, `lagrange_interpolate` | ModelUtils |
| secret-sharing/src/gao.rs | `partial_xgcd`, `gao_decode` and helpers | ModelGao |
| dist-primitives/src/utils/pack.rs | `pack_vec`, `transpose` | ModelPack |
| dist-primitives/src/utils/deg_red.rs | `DegRedMask`, `deg_red` | ModelProto |
| dist-primitives/src/dfft/mod.rs | `FftMask`, `d_fft`, `d_ifft`, `fft1_in_place`, `fft2_in_place`, `fft2_with_rearrange`, `fft_in_place_rearrange` | ModelFft, ModelProto |
| dist-primitives/src/dmsm/mod.rs | `MsmMask`, `d_msm` | ModelProto |
| dist-primitives/src/dpp/mod.rs | `d_pp` | ModelProto |
| groth16/src/qap.rs | `QAP`, `qap`, `QAP::pss` | ModelQap |
| groth16/src/ext_wit.rs | `libsnark_h`, `circom_h` | ModelQap |
| groth16/src/prove.rs | `A`, `BInG1`, `BInG2`, `C` and their `compute` | ModelProve |
| groth16/src/proving_key.rs | `PackedProvingKeyShare`, `pack_from_arkworks_proving_key` | ModelProve |
| groth16/examples/sha256.rs | `dsha256`, `pack_from_witness`, `main` from the set-up to the verifier | ModelProve, ModelMain |
| groth16/src/lib.rs, groth16/examples/local_groth_bench.rs | `ConstraintDomain::new`, `localgroth_test`, `local_dummy_crs` | ModelDemo |
| dist-primitives/src/dfft/tests.rs, groth16/src/ext_wit.rs, utils/deg_red.rs | the `#[cfg(test)]` functions that run protocols | ModelTests |
| secret-sharing/src/pss.rs, gao.rs, dist-primitives/src/dmsm/mod.rs | the `#[cfg(test)]` functions without a network, those with fixed inputs as examples (ExamplesUnit) | ModelUnit |
| dist-primitives/examples | `d_fft_test`, `d_pp_test`, `d_msm_test`, `local_dfft_test` | ModelDemo |
| dist-primitives/examples/dmsm_bench.rs, msm_bench.rs, groth16/src/proving_key.rs | `d_msm_test`, `msm_test`, both `main`, `PackedProvingKeyShare::rand` | ModelMsmBench |
| mpc-net/src/multi.rs, prod.rs | `test_multiplexing`, `add_protocol_inner` | ModelMux |
| mpc-net/examples/add_ids.rs | `main` after the connections have been made | ModelDemo |
| mpc-net/src/lib.rs | `MpcNet` (king rounds, timeout, thresholds, roles), `MultiplexedStreamID` | ModelNet |
| mpc-net/src/ser_net.rs | the serialized rounds | ModelNet |
| mpc-net/src/multi.rs | `connect_to_all`, `is_init`, framing, `simulate_network_round`, `simulate_lossy_network_round` | ModelSetup, ModelWire |
| mpc-net/src/prod.rs | `ProtocolPacket`, `send_packet`/`recv_packet`, set-up and handshake of king and peers, `is_init`, `send_to` and `recv_from` through the table of the set-up | ModelSetup, ModelWire, ModelProdNet |
| arkworks (dependency) | `Radix2EvaluationDomain`, `fft`/`ifft`, cosets, dense polynomials, `Vec` serialization, `evaluate_constraint`, Groth16 `generate_random_parameters` with the circom reduction, `verify_proof` | ModelField, ModelGao, ModelWire, ModelQap, ModelMain, SpecVerify (from their published definitions, as far as the code calls them) |

Main simplifications (all repeated at the definitions):

* machine integers are unbounded naturals; an underflow that would panic in debug builds is modelled where it can occur;
* elements of the groups are elements of an arbitrary module over the field; affine and projective points are not distinguished;
* elements are serialized by an arbitrary codec of fixed size with a round-trip law;
* random generators are arbitrary infinite streams; generators that are used for several purposes are separate streams
  where the values cannot influence the statement (stated at the definition);
* a schedule is any list of steps of threads, deliveries of king rounds, timeouts and crashes; "every schedule" means
  that from each reachable state all parties can finish and that all finished runs have the same results;
* the timeout of a king round is nondeterministic (any moment), there is no clock;
* what a party sees (C56, C58, C60) is the program of SpecView, which also returns every message received; the messages the king
  collects in a round are treated in C26, C28, C33 and, with the program of SpecKing, C61;
* the order in which the king sees the answers (iteration of a `HashMap`) is an arbitrary permutation;
* over the production network (ModelProdNet) the king's collection also takes messages from nodes that are not in its table and drops
  them; an id that is not in the table is the node `n`, which does not exist;

## 5. What is not modelled

TLS, certificates and `gen_cert.rs`; the tokio runtime, TCP, smux/yamux internals (the multiplexer is assumed to give reliable FIFO streams
with isolated channels); the arithmetic of concrete curves and pairings (arbitrary modules, an arbitrary bilinear map);
the circom/wasm witness calculator; the `#[cfg(test)]` functions that need the circom fixtures or only print;
real time and memory (so also not a message that announces more elements than memory holds: arkworks may reserve the announced length before it reads); active adversaries (beyond crashes, late messages, wrong shares in C73 and C77 to C79, and arbitrary bytes of clients or king within a round in C74 and C77, together with crashes in C75); computational assumptions.

## 6. What was found

Statements that a reader of the code would expect and that are false are theorems with the suffix `_refuted`, or are
proved in the form that shows the failure:

* C02: `unpack_missing_shares` ignores the party ids when all shares are there, so permuted full sets give wrong secrets.
* C08: release builds accept a packing factor that is not a power of two and then do not reconstruct.
* C09: release builds reconstruct wrong secrets from too few shares; the king only waits for `t` answers, fewer than `lagrange_unpack` needs.
* C10: `pack` of more than `l` secrets (sha256.rs:205-206 packs `n`) in release builds uses no randomness: every party's
  share is the secret itself. So each party learns the blinding factors `r`, `s` of the proof. In debug builds the same call panics (C57_debug_panic).
* C16, C17: the decoder needs n < 2^adicity; an output is not checked to have the promised degree.
* C28, C33: masks of `deg_red` have degree below l+t and are added to a product of degree below 2(l+t): the messages to the king are not
  independent of the secrets; `d_pp` uses the constant 1 in place of its random factor, so the king sees numerators and denominators.
  C61 says exactly what the king can tell apart in one round: the inputs up to sharings of degree below 2l. This also concerns
  the last transform of `libsnark_h`, whose input is a product of sharings.
* C40: `BInG1` returns early, without taking part in the rounds, if the party's share of `r` is zero.
* C45: after a timeout a late message is taken for the sender's message of the next round.
* C48, C51: ids in the production network are self-declared, a duplicate replaces the earlier connection; a late party in the
  genesis round of the local network makes the king panic instead of failing with an error.
* C50: `is_init` of the local network is false after a successful initialisation.
* C59: the protocols pass `t` as the king's threshold. Between `t` and the number of shares that reconstruction needs, debug builds
  panic and release builds hand out wrong values without an error.
* C35_small_domain: with a domain smaller than the packing factor `QAP::pss` shares nothing.
* C55: `QAP::pss` and the king's rearranging transforms draw from `ark_std::test_rng()`, whose seed is a public constant: the shares of any
  `t` parties determine the QAP vectors.
* C66: the king deals the running products of `d_pp` unmasked: whoever knows its randomness of that round learns them from t messages.
* C70: the factor of `d_pp` (a TODO asks for a random one) cancels in the quotients and is divided out again at the end, so any factor but 1 would make the result wrong, and none would hide anything from the king.
* C62: the program that demonstrates `d_fft` reconstructs with `unpack`; its assertion fails when a client crashes.
* C71: `test_packing` would panic in debug builds for packing factors above 2; `test_eval_interpolate` fails if the last coefficient drawn is zero.
* C72: `test_multiplexing` sends its identifier as one byte, so with more than 257 parties it fails everywhere.
* C73: the only check of shares is `unpack2`'s `debug_assert!`. In release builds one party can shift every
  secret of a result unnoticed; in debug builds one party is always noticed (the king panics, so it can stop
  everything), two parties together need not be, and one suffices if another one is missing.
* C74: any client stops the king in any build, with bytes that do not decode (an error) or with a vector shorter than
  the king's (`transpose` indexes out of bounds and panics). Longer vectors and left-over bytes are accepted silently.
  Clients accept whatever decodable answer the king sends, of any length.
* C75: in a complete round an undecodable message is an error, but as soon as one client is silent such messages are
  dropped without notice (ser_net.rs:57-72). So one garbling client stops the king, and one garbling and one silent
  client together do no harm in release builds.
* C76: `dmsm_bench` runs in debug builds only if `test_rng` is deterministic; with independent random shares the king panics unless they happen to lie on a polynomial of low degree.
* C77: in `d_pp` every single party can stop the king in release builds too, with vectors of the right length: the king divides by whatever the denominators interpolate to and unwraps the inverse.
* C78: nobody but the verifier notices a wrong share of the proof in release builds: the client reconstructs from all n shares without looking at the redundancy (the shares of A and B have degree below 2l, of C below 4l - 1), and every single party can spoil the proof.
* C79: wrong shares of the QAP are treated in the same way: in release builds the parties compute a proof for another vector, in debug builds any wrong vector of a single party ends the king, in whichever of the three concurrent transforms it is used.
* C80: after a collision of declared ids the set-up succeeds (C48), but no king round does: the king collects from whom it knows, answers the ids
  below the missing one and then fails with "Peer not found". The clients it has answered finish as if nothing had happened.
* `qap` ignores the matrix C and takes c = a*b; for the wrong witnesses this shows only in the verifier (C57_rejected).

## 7. Tests of the theorems

`seeded/LOG.jsonl` has one line per wrong program tried: an edit of one model definition, made in a scratch copy of the development as it
was at that time (rounds 1 and 2 came before C57-C59, so theorems added later do not occur in their lines). The fields:

* `definition`, `edit`, `old`, `new`: what was changed; `claim`, `properties`: the claim it was meant to break.
* `first_broken_lemmas`: the lemmas at which the rebuild (`make -k`) stopped in each file.
* `theorems_failed`: the theorems that rest on one of these lemmas, by the dependencies recorded in the unedited build. That a proof no longer
  goes through does not show that the statement is false of the edited program: this list is an upper bound.
* `falsified_by_evaluation`: concrete instances of the properties, written independently of the proofs and evaluated by `vm_compute` in the
  edited model, that came out false. This is the evidence that a claim really breaks; the names are those of the properties they are
  instances of. `null` means that the evaluation did not finish, `[]` that no instance was falsified; `note` says why, where known.
* `tightened`: theorems changed or added because of the attempt.

From round 4 on, the evaluated instances are the Examples of the development itself (`ExamplesXxx.name`), run in the edited model without the proofs.
Lines with `rerun_of` repeat an earlier edit against the theorems added since, or evaluate further instances for it.
Rounds 6 and 7 were stopped before their last edits (6 and 7 of them), which have no line; their Examples were not evaluated.
Edits marked as equivalent in `note` keep the behaviour; proofs break for them because they follow the shape of the code.
