{"id": "C01", "title": "Packing then unpacking returns the secrets", "statement": "For valid parameters built from a packing factor l, `pack` of l secrets (field or group elements) yields one share per party, and `unpack` of those shares returns exactly the l secrets in order, whatever randomness was drawn.", "quantifier": "every FFT field, every power-of-two l the field supports, every vector of l secrets over any F-module, every random stream, debug and release builds", "why_tests_cant": "The test packs one random vector with l=2 over one field; the claim ranges over all fields, sizes, secrets and randomness.", "anchors": [{"file": "secret-sharing/src/pss.rs", "symbols": ["PackedSharingParams::pack", "PackedSharingParams::unpack"]}]}
{"id": "C02", "title": "Enough shares in any order reconstruct", "statement": "Any list of more than 2(t+l-1) shares of distinct parties, in any order, given to `lagrange_unpack` together with the party ids returns the packed secrets; `unpack_missing_shares` does so as well for any such proper subset, and for the full set in party order.", "quantifier": "every subset of parties of sufficient size, every ordering, all secrets, all randomness", "why_tests_cant": "There are exponentially many subsets and orderings; the test uses one prefix.", "anchors": [{"file": "secret-sharing/src/pss.rs", "symbols": ["lagrange_unpack", "unpack_missing_shares"]}, {"file": "secret-sharing/src/utils.rs", "symbols": ["lagrange_interpolate"]}]}
{"id": "C03", "title": "Deterministic packing zero-extends", "statement": "`det_pack` of k <= l secrets followed by `unpack` returns the secrets followed by l-k zeros in release builds, and the shares are those of `pack` with all-zero randomness; in debug builds k < l panics.", "quantifier": "every k <= l, all secrets, both build profiles", "why_tests_cant": "The test checks only k = l for one vector; the proving-key code relies on the short-chunk case.", "anchors": [{"file": "secret-sharing/src/pss.rs", "symbols": ["det_pack"]}, {"file": "groth16/src/proving_key.rs", "symbols": ["pack_from_arkworks_proving_key"]}]}
{"id": "C04", "title": "Share-wise products reconstruct to products", "statement": "If every party multiplies its share of a scalar vector with its share of another (scalar or group) vector, the products reconstructed with `unpack2`, or with `unpack_missing_shares` from all parties or from all but any one party, are the slot-wise products of the secrets.", "quantifier": "all secret vectors, all randomness, any single missing party, any order of the remaining ones", "why_tests_cant": "Test squares one vector and drops only the last party.", "anchors": [{"file": "secret-sharing/src/pss.rs", "symbols": ["unpack2", "lagrange_unpack", "unpack_missing_shares"]}]}
{"id": "C05", "title": "Sharing is linear", "statement": "Adding shares, subtracting shares and scaling shares by a public scalar, party by party, gives shares that unpack to the sum, difference and scaled secrets.", "quantifier": "all secrets, scalars and randomness", "why_tests_cant": "Needed for every linear local step of the protocols; not tested at all.", "anchors": [{"file": "secret-sharing/src/pss.rs", "symbols": ["pack", "unpack"]}, {"file": "dist-primitives/src/dfft/mod.rs", "symbols": ["d_ifft"]}]}
{"id": "C06", "title": "t shares reveal nothing", "statement": "For any t distinct parties, any secrets and any t target values there is exactly one choice of the t random points for which those parties receive exactly these values; hence the joint distribution of any t shares is uniform and independent of the secrets. Fewer than t parties see nothing either.", "quantifier": "all secrets, all sets of t parties, all observed values", "why_tests_cant": "A probabilistic/possibilistic statement about all randomness cannot be sampled by a unit test.", "anchors": [{"file": "secret-sharing/src/pss.rs", "symbols": ["pack"]}]}
{"id": "C07", "title": "Parameter construction", "statement": "For l a power of two supported by the field `new(l)` succeeds with t=l, n=4l, a share domain of n points, secret domains of 2l and 4l points, secret point j equal to secret2 point 2j, and no share point equal to a secret point when the field generator is outside the n-th roots of unity. If the field's two-adicity is too small, `new` panics.", "quantifier": "all l and all fields", "why_tests_cant": "Tests check l=2 for one field.", "anchors": [{"file": "secret-sharing/src/pss.rs", "symbols": ["PackedSharingParams::new"]}]}
{"id": "C08", "title": "Packing factors that are not powers of two", "statement": "For every packing factor the constructor accepts, packing and reconstructing from the n parties' shares returns the secrets. (False of the code in release builds: the domains are rounded up to powers of two while n is not; debug builds panic.)", "quantifier": "all l", "why_tests_cant": "Only one l is tested; debug assertions are compiled out in release.", "anchors": [{"file": "secret-sharing/src/pss.rs", "symbols": ["PackedSharingParams::new", "pack", "unpack_missing_shares"]}]}
{"id": "C09", "title": "Too few shares are never silently accepted", "statement": "Reconstruction from 2(t+l-1) or fewer shares is reported as an error. (False of release builds: only a debug_assert guards it and a wrong value is returned; the king accepts as few as t responses.)", "quantifier": "all numbers of received shares, both build profiles", "why_tests_cant": "The failing case needs a timeout on several parties and a release build.", "anchors": [{"file": "secret-sharing/src/pss.rs", "symbols": ["lagrange_unpack", "unpack_missing_shares"]}, {"file": "mpc-net/src/ser_net.rs", "symbols": ["client_send_or_king_receive_serialized"]}]}
{"id": "C10", "title": "The shares handed out by the example hide r and s", "statement": "Sharing the proof randomness r as in the sha256 example hides it from any t parties. (False: the call passes n copies where l are expected, the interpolation truncates the vector, all randomness is dropped and every party receives r itself; debug builds panic.)", "quantifier": "every r, every random stream, every l", "why_tests_cant": "The example checks only that the final proof verifies.", "anchors": [{"file": "groth16/examples/sha256.rs", "symbols": ["main"]}, {"file": "secret-sharing/src/pss.rs", "symbols": ["pack"]}]}
{"id": "C11", "title": "Polynomial evaluation helpers", "statement": "`eval` returns the value of the polynomial whose coefficients are given in increasing degree order; `eval_many` does so pointwise, preserving order and length.", "quantifier": "all coefficient vectors, points", "why_tests_cant": "Infinitely many inputs.", "anchors": [{"file": "secret-sharing/src/utils.rs", "symbols": ["eval", "eval_many"]}]}
{"id": "C12", "title": "Synthetic division", "statement": "For a >= 1, b != 0 and more than a coefficients, `syn_div` returns the quotient of division by x^a - b, zero padded to the input length; otherwise it panics.", "quantifier": "all polynomials, all a, all b", "why_tests_cant": "Only reached indirectly with a=1 by tests; the general branch is untested.", "anchors": [{"file": "secret-sharing/src/utils.rs", "symbols": ["syn_div", "syn_div_in_place"]}]}
{"id": "C13", "title": "Vanishing polynomial from roots", "statement": "`get_zero_roots(xs)` returns the coefficients of the product of (x - xs[i]).", "quantifier": "all point lists, including duplicates and the empty list", "why_tests_cant": "Infinitely many inputs.", "anchors": [{"file": "secret-sharing/src/utils.rs", "symbols": ["get_zero_roots"]}]}
{"id": "C14", "title": "Lagrange interpolation", "statement": "For distinct non-zero points and as many values, `lagrange_interpolate` returns the coefficients of the unique polynomial of degree below the number of points through the data, with trailing zero coefficients removed unless all coefficients are zero; a zero point panics.", "quantifier": "all point lists and values over any F-module", "why_tests_cant": "One random instance is tested.", "anchors": [{"file": "secret-sharing/src/utils.rs", "symbols": ["lagrange_interpolate"]}]}
{"id": "C15", "title": "Partial extended Euclid", "statement": "`partial_xgcd` terminates when the stopping degree is positive, returns r with degree below the stopping degree and s with r = s*b modulo a.", "quantifier": "all polynomials a, b and parameters", "why_tests_cant": "Termination and the loop invariant range over all inputs; the one test never enters the loop.", "anchors": [{"file": "secret-sharing/src/gao.rs", "symbols": ["partial_xgcd"]}]}
{"id": "C16", "title": "Error correction up to half the distance", "statement": "For every message of degree below the dimension and every received word that differs from its codeword in at most (n-k)/2 positions, `decode_to_message` returns the message.", "quantifier": "all messages, all error positions and values", "why_tests_cant": "The test corrects one error in one word.", "anchors": [{"file": "secret-sharing/src/gao.rs", "symbols": ["decode_to_message", "partial_xgcd"]}]}
{"id": "C17", "title": "Uncorrectable words are rejected", "statement": "When `decode_to_message` returns, its result is a message polynomial (degree below the dimension). (False: only the remainder is checked.)", "quantifier": "all received words", "why_tests_cant": "Needs words outside every decoding ball.", "anchors": [{"file": "secret-sharing/src/gao.rs", "symbols": ["decode_to_message"]}]}
{"id": "C18", "title": "Transpose", "statement": "`transpose` of a non-empty rectangular matrix with non-empty rows swaps indices, and applying it twice gives the matrix back; it panics on an empty matrix, an empty first row, or a row shorter than the first.", "quantifier": "all matrices", "why_tests_cant": "One 3x3 literal is tested.", "anchors": [{"file": "dist-primitives/src/utils/pack.rs", "symbols": ["transpose"]}]}
{"id": "C19", "title": "Vector packing layout", "statement": "After `transpose(pack_vec(secrets))` party i holds share i of every l-chunk in order, so unpacking each column and concatenating returns the vector; lengths not divisible by l panic in debug builds and in release builds reveal randomness instead of padding.", "quantifier": "all vectors of all lengths", "why_tests_cant": "Only exact multiples occur in tests.", "anchors": [{"file": "dist-primitives/src/utils/pack.rs", "symbols": ["pack_vec", "transpose"]}]}
{"id": "C20", "title": "Rearrangement is bit reversal", "statement": "`fft_in_place_rearrange` on a vector of 2^k elements puts element i at the position obtained by reversing the k bits of i, hence is an involution, and preserves the multiset of elements.", "quantifier": "all k and all vectors", "why_tests_cant": "All sizes; the tests never look at the permutation itself.", "anchors": [{"file": "dist-primitives/src/dfft/mod.rs", "symbols": ["fft_in_place_rearrange"]}]}
{"id": "C21", "title": "Split FFT computes the DFT", "statement": "For a vector of 2^k values, bit-reversing it, splitting it into the l strided blocks, applying the parties' local stage to every block and then the king's stage yields the discrete Fourier transform at successive powers of the generator.", "quantifier": "all k, all l dividing the size, all vectors, any root of unity", "why_tests_cant": "Sizes 8 and 1024 with one vector are tested.", "anchors": [{"file": "dist-primitives/src/dfft/mod.rs", "symbols": ["fft1_in_place", "fft2_in_place"]}]}
{"id": "C22", "title": "Distributed FFT", "statement": "When every live party runs `d_fft` on packed shares of bit-reversed coefficients with correlated masks, every execution ends with every live party holding shares that unpack to the evaluations on the domain (in natural order, or packed for the next transform when `rearrange` is set), for every schedule of message deliveries and if at most one non-king party is silent.", "quantifier": "all inputs, masks, randomness, schedules, single crash", "why_tests_cant": "Schedules and crash choices cannot be enumerated by tests.", "anchors": [{"file": "dist-primitives/src/dfft/mod.rs", "symbols": ["d_fft", "fft2_with_rearrange", "FftMask::sample"]}]}
{"id": "C23", "title": "Distributed inverse FFT with coset shift", "statement": "Same for `d_ifft`: the shares unpack to the coefficients, coefficient j multiplied by g^j.", "quantifier": "all inputs, g, masks, randomness, schedules, single crash", "why_tests_cant": "As C22.", "anchors": [{"file": "dist-primitives/src/dfft/mod.rs", "symbols": ["d_ifft"]}]}
{"id": "C24", "title": "Transforms compose", "statement": "Running `d_ifft` (rearranged, shift g) and then `d_fft` on its output yields shares of the evaluations of the interpolated polynomial on the coset g*H; with g=1 the original evaluations are returned.", "quantifier": "all inputs, masks, schedules", "why_tests_cant": "As C22, over sequences of rounds on one channel.", "anchors": [{"file": "dist-primitives/src/dfft/mod.rs", "symbols": ["d_fft", "d_ifft"]}]}
{"id": "C25", "title": "Masks cancel", "statement": "The secrets obtained from `d_fft`, `d_ifft`, `deg_red` and `d_msm` do not depend on the masks, for every mask produced by the samplers (including the zero masks).", "quantifier": "all mask randomness", "why_tests_cant": "Tests use one sampled mask.", "anchors": [{"file": "dist-primitives/src/dfft/mod.rs", "symbols": ["FftMask::sample", "FftMask::zero"]}, {"file": "dist-primitives/src/utils/deg_red.rs", "symbols": ["DegRedMask::sample", "DegRedMask::zero"]}, {"file": "dist-primitives/src/dmsm/mod.rs", "symbols": ["MsmMask::sample", "MsmMask::zero"]}]}
{"id": "C26", "title": "The king learns nothing from masked low-degree shares", "statement": "In `d_fft`, `d_ifft` and `deg_red` on degree < t+l sharings, for any two inputs and any mask randomness there is exactly one other mask randomness under which the king receives exactly the same messages.", "quantifier": "all inputs and masks", "why_tests_cant": "Secrecy is a statement about all pairs of executions.", "anchors": [{"file": "dist-primitives/src/dfft/mod.rs", "symbols": ["FftMask::sample", "fft2_with_rearrange"]}, {"file": "dist-primitives/src/utils/deg_red.rs", "symbols": ["DegRedMask::sample", "deg_red"]}]}
{"id": "C27", "title": "Degree reduction", "statement": "`deg_red` turns shares of products (degree < 2(t+l)-1) into shares of degree < t+l with the same secrets, for every schedule and with at most one silent non-king party.", "quantifier": "all inputs, masks, randomness, schedules, single crash", "why_tests_cant": "As C22.", "anchors": [{"file": "dist-primitives/src/utils/deg_red.rs", "symbols": ["deg_red"]}]}
{"id": "C28", "title": "The king learns nothing from masked products", "statement": "In `deg_red` on product sharings the messages received by the king are independent of the secrets. (False: the mask is a sharing of degree < t+l, so the high coefficients of the product polynomial are exposed.)", "quantifier": "all inputs and masks", "why_tests_cant": "Leakage is invisible to functional tests.", "anchors": [{"file": "dist-primitives/src/utils/deg_red.rs", "symbols": ["DegRedMask::sample", "deg_red"]}]}
{"id": "C29", "title": "Distributed MSM", "statement": "When every live party runs `d_msm` on packed shares of bases and scalars, every schedule ends with every live party holding a share; the shares unpack to l copies of the sum of scalar_i * base_i, also if one non-king party is silent.", "quantifier": "all vectors, lengths, masks, randomness, schedules, single crash", "why_tests_cant": "As C22.", "anchors": [{"file": "dist-primitives/src/dmsm/mod.rs", "symbols": ["d_msm", "MsmMask::sample"]}]}
{"id": "C30", "title": "MSM length mismatch", "statement": "If the numbers of bases and scalars differ, `d_msm` returns an error (panics in debug builds) and the party sends nothing.", "quantifier": "all lengths", "why_tests_cant": "All mismatching lengths.", "anchors": [{"file": "dist-primitives/src/dmsm/mod.rs", "symbols": ["d_msm"]}]}
{"id": "C31", "title": "Distributed partial products", "statement": "When every party runs `d_pp` on packed shares of num and den with no zero denominator, the result shares unpack to the running products of num_i/den_i, for every schedule.", "quantifier": "all vectors without zero denominators, masks, randomness, schedules", "why_tests_cant": "As C22; the example only uses num = den.", "anchors": [{"file": "dist-primitives/src/dpp/mod.rs", "symbols": ["d_pp"]}]}
{"id": "C32", "title": "Zero denominators", "statement": "If some denominator is zero the king panics and no other party ever finishes `d_pp`.", "quantifier": "all vectors with a zero denominator, all schedules", "why_tests_cant": "Liveness failure over all schedules.", "anchors": [{"file": "dist-primitives/src/dpp/mod.rs", "symbols": ["d_pp"]}]}
{"id": "C33", "title": "The king learns nothing in d_pp", "statement": "The messages received by the king in `d_pp` do not determine numerators and denominators. (False: the blinding factor is the constant one.)", "quantifier": "all inputs", "why_tests_cant": "Leakage is invisible to functional tests.", "anchors": [{"file": "dist-primitives/src/dpp/mod.rs", "symbols": ["d_pp"]}]}
{"id": "C34", "title": "QAP construction", "statement": "`qap` returns vectors of the domain size (least power of two >= constraints + inputs) with a = (A z, inputs, 0), b = (B z, 0), c = a*b on constraint rows and 0 elsewhere, so a_i*b_i = c_i on the whole domain; it fails if the field has no such domain and panics if the assignment is too short.", "quantifier": "all constraint matrices and assignments", "why_tests_cant": "Only the sha256 circuit is run, and nothing is asserted.", "anchors": [{"file": "groth16/src/qap.rs", "symbols": ["qap"]}]}
{"id": "C35", "title": "QAP sharing", "statement": "`QAP::pss` gives party i the shares of the bit-reversed strided blocks of a, b and c, which is exactly the input layout required by the distributed transforms; every party also gets the domain and the counts.", "quantifier": "all QAPs whose size is a multiple of l", "why_tests_cant": "Covered only end-to-end for two sizes.", "anchors": [{"file": "groth16/src/qap.rs", "symbols": ["QAP::pss"]}]}
{"id": "C36", "title": "libsnark witness extension", "statement": "`libsnark_h` run by all parties on shares of a QAP ends, for every schedule, with shares that unpack to the coefficients of the polynomial h with A*B - C = h*Z, where A, B, C interpolate a, b, c on the domain.", "quantifier": "all satisfied QAPs, masks, randomness, schedules", "why_tests_cant": "One tiny instance is compared with a reference implementation.", "anchors": [{"file": "groth16/src/ext_wit.rs", "symbols": ["libsnark_h"]}]}
{"id": "C37", "title": "circom witness extension", "statement": "`circom_h` run by all parties ends, for every schedule, with degree-reduced shares that unpack to the values of A*B - C on the shifted domain w*H where w is the primitive root of order 2m.", "quantifier": "all QAPs, masks, randomness, schedules", "why_tests_cant": "Two instances are tested.", "anchors": [{"file": "groth16/src/ext_wit.rs", "symbols": ["circom_h"]}]}
{"id": "C38", "title": "Proving key packing", "statement": "`pack_from_arkworks_proving_key` gives party i the i-th share of every zero-padded l-chunk of a_query[1..], h_query, l_query, b_g1_query[1..], b_g2_query[1..] and the unshared key elements verbatim; in debug builds it panics when a query length is not a multiple of l.", "quantifier": "all proving keys", "why_tests_cant": "The test discards the result.", "anchors": [{"file": "groth16/src/proving_key.rs", "symbols": ["pack_from_arkworks_proving_key"]}]}
{"id": "C39", "title": "The distributed prover computes the Groth16 proof", "statement": "Running the A, B and C computations on the packed key, witness and randomness shares and reconstructing slot 0 gives A = alpha + a0 + sum z_i a_i + r delta, B = beta + b0 + sum z_i b_i + s delta, C = sA + rB1 - rs delta + sum aux_i l_i + sum h_i hq_i.", "quantifier": "all keys, witnesses, r, s, masks, randomness", "why_tests_cant": "One circuit and one witness are verified end-to-end.", "anchors": [{"file": "groth16/src/prove.rs", "symbols": ["A::compute", "BInG1::compute", "BInG2::compute", "C::compute"]}, {"file": "groth16/examples/sha256.rs", "symbols": ["dsha256"]}]}
{"id": "C40", "title": "B in G1 is computed by every party", "statement": "Every party takes part in the computation of B in G1 whenever r is non-zero. (False: the code tests the party's own share of r; a party whose share is zero returns early and never sends its message.)", "quantifier": "all r, all sharings of r", "why_tests_cant": "The failing randomness has negligible probability in a random test.", "anchors": [{"file": "groth16/src/prove.rs", "symbols": ["BInG1::compute"]}]}
{"id": "C41", "title": "King collects all messages", "statement": "If all parties take part in `client_send_or_king_receive`, the king obtains the n byte strings in party order with its own at index 0 and every client obtains nothing; the serialized variant gives the sent values and the list of party ids 0..n-1.", "quantifier": "all messages, all arrival orders, all n", "why_tests_cant": "Arrival orders cannot be enumerated.", "anchors": [{"file": "mpc-net/src/lib.rs", "symbols": ["client_send_or_king_receive"]}, {"file": "mpc-net/src/ser_net.rs", "symbols": ["client_send_or_king_receive_serialized"]}]}
{"id": "C42", "title": "Timeouts and undecodable messages", "statement": "After a timeout the king returns exactly the received, decodable messages paired with their senders, in some order, if there are at least `threshold` of them and otherwise a protocol error; if all messages arrived one undecodable message makes the whole call fail.", "quantifier": "all subsets of arrivals, all byte strings, all hash-map orders", "why_tests_cant": "Requires controlling which messages arrive before the deadline.", "anchors": [{"file": "mpc-net/src/lib.rs", "symbols": ["client_send_or_king_receive"]}, {"file": "mpc-net/src/ser_net.rs", "symbols": ["client_send_or_king_receive_serialized"]}]}
{"id": "C43", "title": "King distributes answers", "statement": "`client_receive_or_king_send` delivers the i-th byte string to party i and returns the king's own; it rejects a non-king that supplies data and a king that does not, and reports the first party whose length differs from entry 0, having sent only to smaller ids; it panics if too few strings are supplied.", "quantifier": "all inputs and n", "why_tests_cant": "Error paths are untested.", "anchors": [{"file": "mpc-net/src/lib.rs", "symbols": ["client_receive_or_king_send"]}, {"file": "mpc-net/src/ser_net.rs", "symbols": ["client_receive_or_king_send_serialized"]}]}
{"id": "C44", "title": "Schedule independence", "statement": "For any programs of the parties that run concurrently only on different channels, if one schedule without timeouts and errors completes then every schedule can be completed, all complete schedules have the same length and end in the same state.", "quantifier": "all party programs, all schedules", "why_tests_cant": "All interleavings.", "anchors": [{"file": "mpc-net/src/lib.rs", "symbols": ["MpcNet"]}, {"file": "groth16/src/ext_wit.rs", "symbols": ["libsnark_h", "circom_h"]}, {"file": "groth16/src/prove.rs", "symbols": ["C::compute"]}]}
{"id": "C45", "title": "Rounds are not mixed up", "statement": "The messages the king collects in a round were sent in that round. (False after a timeout: a late message stays in the stream and is taken for the sender's message of the next round.)", "quantifier": "all histories of rounds and timeouts", "why_tests_cant": "Needs a late message and a second round.", "anchors": [{"file": "mpc-net/src/lib.rs", "symbols": ["client_send_or_king_receive"]}, {"file": "mpc-net/src/multi.rs", "symbols": ["recv_stream"]}]}
{"id": "C46", "title": "Packets survive the wire", "statement": "Encoding and decoding a protocol packet returns it; a sequence of frames written to a stream is decoded to the same sequence however the bytes are split into reads; a frame above the codec limit is refused by the sender.", "quantifier": "all packets, all payload sizes, all chunkings", "why_tests_cant": "All chunkings of a byte stream.", "anchors": [{"file": "mpc-net/src/prod.rs", "symbols": ["ProtocolPacket", "send_packet", "recv_packet"]}, {"file": "mpc-net/src/multi.rs", "symbols": ["wrap_stream"]}]}
{"id": "C47", "title": "Production network set-up", "statement": "When every connecting peer declares a different id, set-up gives the king exactly one connection per declared id, and after the handshake every peer has seen Syn and the king has seen SynAck from every peer; a peer given more or fewer than one connection gets an error.", "quantifier": "all id assignments, all numbers of peers", "why_tests_cant": "One assignment is tested.", "anchors": [{"file": "mpc-net/src/prod.rs", "symbols": ["new_from_pre_existing_connection", "synchronize"]}]}
{"id": "C48", "title": "Party identities are bound to connections", "statement": "The king ends up with a connection to every one of n-1 authenticated peers. (False: ids are self-declared and a duplicate silently replaces the earlier connection.)", "quantifier": "all declared ids", "why_tests_cant": "Adversarial inputs.", "anchors": [{"file": "mpc-net/src/prod.rs", "symbols": ["new_from_pre_existing_connection", "new_king_tls"]}]}
{"id": "C49", "title": "Test network topology", "statement": "In the local network every unordered pair of parties is connected by exactly one stream, opened by the smaller id, and the number of inbound connections each party waits for equals the number that will be made to it.", "quantifier": "all n", "why_tests_cant": "Only fixed n are run.", "anchors": [{"file": "mpc-net/src/multi.rs", "symbols": ["connect_to_all"]}]}
{"id": "C50", "title": "is_init after set-up", "statement": "After successful initialisation `is_init` is true. (True for the production network; false for the local network whose peer table contains the party itself without a stream.)", "quantifier": "all n", "why_tests_cant": "Nothing tests it.", "anchors": [{"file": "mpc-net/src/multi.rs", "symbols": ["is_init", "connect_to_all"]}, {"file": "mpc-net/src/prod.rs", "symbols": ["is_init"]}]}
{"id": "C51", "title": "Genesis round needs everybody", "statement": "If a party is late in the genesis round set-up fails with an error. (False: the king panics on an out-of-range index.)", "quantifier": "all n and all sets of late parties", "why_tests_cant": "Requires a 30 s timeout.", "anchors": [{"file": "mpc-net/src/multi.rs", "symbols": ["connect_to_all"]}, {"file": "mpc-net/src/lib.rs", "symbols": ["client_receive_or_king_send"]}]}
{"id": "C52", "title": "Canonical vector serialization", "statement": "Serialising a vector of fixed-size elements and deserialising it returns the vector, the size depends only on the length, and short inputs are rejected.", "quantifier": "all vectors", "why_tests_cant": "All inputs.", "anchors": [{"file": "mpc-net/src/ser_net.rs", "symbols": ["client_send_or_king_receive_serialized", "client_receive_or_king_send_serialized"]}]}
{"id": "C53", "title": "Channels are isolated and ordered", "statement": "On each (sender, receiver, stream) triple the receiver gets a prefix of what was sent, in order, and an operation on one stream never changes another stream.", "quantifier": "all schedules", "why_tests_cant": "All interleavings.", "anchors": [{"file": "mpc-net/src/lib.rs", "symbols": ["MultiplexedStreamID"]}, {"file": "mpc-net/src/multi.rs", "symbols": ["send_stream", "recv_stream"]}]}
{"id": "C54", "title": "Lossy round simulation", "statement": "`simulate_lossy_network_round` returns the results of all parties but the last in party order, with ids 0..n-2.", "quantifier": "all n and functions", "why_tests_cant": "All n.", "anchors": [{"file": "mpc-net/src/multi.rs", "symbols": ["simulate_lossy_network_round", "simulate_network_round"]}]}
{"id": "C55", "title": "Shares of the QAP hide it", "statement": "The shares of a QAP handed to at most t parties reveal nothing about its vectors. (False as written: `QAP::pss` seeds its generator with the published constant of `test_rng()`; for any known stream the shares of t parties determine all three vectors.)", "quantifier": "all QAPs, all coalitions of t parties, every known random stream", "why_tests_cant": "No test looks at what shares reveal.", "anchors": [{"file": "groth16/src/qap.rs", "symbols": ["pss"]}, {"file": "secret-sharing/src/pss.rs", "symbols": ["pack"]}]}
{"id": "C56", "title": "What at most t parties see", "statement": "With fresh randomness of the dealer the QAP and witness shares, and with fresh randomness of the king or fresh masks the results and received messages of a distributed transform, inverse transform, degree reduction or multi-scalar multiplication, seen by at most t parties are distributed alike for any two values of the secrets: a translation of the random streams maps the one run to the other.", "quantifier": "all secrets, all coalitions of at most t parties, all schedules", "why_tests_cant": "Distributions cannot be tested by runs.", "anchors": [{"file": "groth16/src/qap.rs", "symbols": ["pss"]}, {"file": "groth16/examples/sha256.rs", "symbols": ["pack_from_witness"]}, {"file": "dist-primitives/src/dfft/mod.rs", "symbols": ["d_fft", "d_ifft", "FftMask::sample"]}, {"file": "dist-primitives/src/utils/deg_red.rs", "symbols": ["deg_red", "DegRedMask::sample"]}, {"file": "dist-primitives/src/dmsm/mod.rs", "symbols": ["d_msm", "MsmMask::sample"]}]}
{"id": "C57", "title": "The whole sha256 example", "statement": "From the trusted set-up through the dealer, the networked parties and the client's reconstruction to the verifier: in release builds every step succeeds on every schedule, the proof is accepted if the witness satisfies the constraints, and otherwise it is rejected except for fewer than N values of the secret point of the set-up (N the domain size). In debug builds the dealer panics.", "quantifier": "every circuit, witness, set-up randomness, dealer randomness, schedule and pairing", "why_tests_cant": "The example runs one circuit with one witness and one seed, only in release builds, and never with a wrong witness.", "anchors": [{"file": "groth16/examples/sha256.rs", "symbols": ["main", "dsha256", "pack_from_witness"]}, {"file": "groth16/src/qap.rs", "symbols": ["qap", "pss"]}, {"file": "groth16/src/proving_key.rs", "symbols": ["pack_from_arkworks_proving_key"]}]}
{"id": "C58", "title": "What at most t parties see of the whole example", "statement": "In the sha256 example (release builds), if the shares of the QAP were made with fresh randomness, everything at most t parties see - the inputs handed out by the dealer, all messages received in the twelve threads of the prover, and their proof shares - is distributed alike for any two witnesses of the same length: a translation of the dealer's random streams maps the one run to the other, for every schedule and even if the king's randomness is known.", "quantifier": "all circuits, pairs of witnesses, coalitions of at most t parties, keys, schedules", "why_tests_cant": "Distributions cannot be tested by runs; the masks of the twelve threads and their composition matter.", "anchors": [{"file": "groth16/examples/sha256.rs", "symbols": ["main", "dsha256", "pack_from_witness"]}, {"file": "groth16/src/ext_wit.rs", "symbols": ["circom_h"]}, {"file": "groth16/src/prove.rs", "symbols": ["A::compute", "BInG1::compute", "BInG2::compute", "C::compute"]}, {"file": "dist-primitives/src/dfft/mod.rs", "symbols": ["FftMask::sample"]}, {"file": "dist-primitives/src/utils/deg_red.rs", "symbols": ["DegRedMask::sample"]}, {"file": "dist-primitives/src/dmsm/mod.rs", "symbols": ["MsmMask::sample"]}]}
{"id": "C59", "title": "King rounds with too few parties", "statement": "If fewer than t parties take part in a transform, degree reduction, multi-scalar multiplication or partial product, the king gets a protocol error; if enough take part for it to answer, the answer is right. (Only debug builds panic between t and 2(t+l-1) live parties, and for partial products below n. In release builds transforms and degree reduction of degree-d shares are right with max(d, 2l) live parties, but a multi-scalar multiplication with t live parties gives every one of them the same wrong sum.)", "quantifier": "all inputs, sets of silent clients, schedules and hash-map orders", "why_tests_cant": "Tests drop at most one party.", "anchors": [{"file": "mpc-net/src/lib.rs", "symbols": ["client_send_or_king_receive"]}, {"file": "mpc-net/src/ser_net.rs", "symbols": ["client_send_or_king_receive_serialized"]}, {"file": "dist-primitives/src/dfft/mod.rs", "symbols": ["d_fft", "d_ifft"]}, {"file": "dist-primitives/src/utils/deg_red.rs", "symbols": ["deg_red"]}, {"file": "dist-primitives/src/dmsm/mod.rs", "symbols": ["d_msm"]}, {"file": "dist-primitives/src/dpp/mod.rs", "symbols": ["d_pp"]}, {"file": "secret-sharing/src/pss.rs", "symbols": ["unpack_missing_shares", "lagrange_unpack"]}]}
{"id": "C60", "title": "What at most t parties see of the witness extensions", "statement": "In `libsnark_h` and in `circom_h` on their own, with any king randomness, the masks, results and received messages of at most t parties are distributed alike for any two triples of shared vectors: a translation of the random streams of the seven masks (six masks of transforms and one of the degree reduction for `circom_h`) maps the one run to the other, for every schedule, in debug and release builds.", "quantifier": "all shared vectors, coalitions of at most t parties, masks, schedules", "why_tests_cant": "Distributions cannot be tested by runs; reusing one mask for two transforms leaves all results right.", "anchors": [{"file": "groth16/src/ext_wit.rs", "symbols": ["libsnark_h", "circom_h"]}, {"file": "dist-primitives/src/dfft/mod.rs", "symbols": ["FftMask::sample", "d_fft", "d_ifft"]}, {"file": "dist-primitives/src/utils/deg_red.rs", "symbols": ["DegRedMask::sample", "deg_red"]}]}
{"id": "C61", "title": "What at most t parties see when the king is one of them", "statement": "Count also what the king collects as seen. In `deg_red`, `d_fft`, `d_ifft` and `d_msm`, two inputs whose difference is a sharing of degree below 2l (for `d_msm`: the difference of the parties' own inner products) and which give a coalition of at most t parties the same shares are distributed alike for the coalition, the king included: a translation of the randomness of the masks maps masks, results and all received messages of the one run to those of the other. The condition is exact: when the king has the same share and mask and sees the same messages in two runs, the difference is a sharing of degree below 2l, whatever the randomness. So upper coefficients of products of sharings are visible to the king.", "quantifier": "all sharings, coalitions of at most t parties with or without the king, randomness of masks, schedules without crashes, debug and release builds", "why_tests_cant": "Distributions cannot be tested by runs; which inputs the masks hide from the king is not stated anywhere in the code.", "anchors": [{"file": "dist-primitives/src/utils/deg_red.rs", "symbols": ["DegRedMask::sample", "deg_red"]}, {"file": "dist-primitives/src/dfft/mod.rs", "symbols": ["FftMask::sample", "d_fft", "d_ifft"]}, {"file": "dist-primitives/src/dmsm/mod.rs", "symbols": ["MsmMask::sample", "d_msm"]}]}
{"id": "C62", "title": "The assertions of the example programs hold", "statement": "`d_fft_test`, `d_pp_test` and `d_msm_test` end, in every schedule, with what the king asserts: it has the transform of the coefficients, all ones, and the plain multi-scalar product. (For the coefficients 0 to N - 1 of the program the transform is given as a sum.) For `d_msm_test` this also holds when one client crashes. (`d_fft_test` reconstructs with `unpack`, so it does not survive a crash although `d_fft` does.)", "quantifier": "all coefficients, points, scalars, randomness and masks, packing factors and domain sizes, schedules, debug and release builds", "why_tests_cant": "Each program runs one fixed instance.", "anchors": [{"file": "dist-primitives/examples/dfft_test.rs", "symbols": ["d_fft_test"]}, {"file": "dist-primitives/examples/dpp_test.rs", "symbols": ["d_pp_test"]}, {"file": "dist-primitives/examples/dmsm_test.rs", "symbols": ["d_msm_test"]}]}
{"id": "C63", "title": "Adding the identifiers over the network", "statement": "In add_ids.rs every live party gets the sum of the identifiers of the live parties modulo 2^32, whichever clients are silent. With nobody silent the final assertion holds at every party; with a silent client it fails. If the sum of all identifiers is no u32, debug builds panic before anything is sent.", "quantifier": "any number of parties up to 2^32, sets of silent clients, schedules and hash-map orders", "why_tests_cant": "Needs all schedules and sets of silent parties.", "anchors": [{"file": "mpc-net/examples/add_ids.rs", "symbols": ["main"]}]}
{"id": "C64", "title": "The single-machine rendition of the split transform", "statement": "`local_dfft_test` for any coefficients: both stages, run on all slots of one machine, give the discrete Fourier transform; no index is out of bounds and the assertion holds.", "quantifier": "all fields, packing factors, domain sizes that are powers of two, and coefficients", "why_tests_cant": "The program runs one instance of size 8.", "anchors": [{"file": "dist-primitives/examples/local_dfft_test.rs", "symbols": ["local_dfft_test"]}]}
{"id": "C65", "title": "The constraint domains and the single-machine prover of the benchmark", "statement": "`ConstraintDomain::new` of a power of two m succeeds exactly if the field has roots of unity of order 2m, and then the domains have sizes m and 2m; debug builds accept no other m. `localgroth_test` comes to an end for any three vectors of m values: the vector h has the 2m coefficients of P*Q - W, none is lost, all lengths fit, and the three shares are the products of the points with the powers of two of the doubling chains. For the values 0 to m - 1 that the program uses, P = Q = W is the polynomial with these values.", "quantifier": "all fields, domain sizes, vectors, random points and scalars", "why_tests_cant": "The benchmark checks nothing.", "anchors": [{"file": "groth16/src/lib.rs", "symbols": ["ConstraintDomain::new"]}, {"file": "groth16/examples/local_groth_bench.rs", "symbols": ["local_dummy_crs", "localgroth_test"]}]}
{"id": "C66", "title": "What at most t parties see of the running products", "statement": "In `d_pp`, with fresh randomness of the king in both of its rounds, the results and received messages of at most t parties are distributed alike for any two pairs of vectors of numerators and denominators without zero denominators: a translation of the king's two random streams maps the one run to the other. The randomness of the first round is needed: when it is known, the messages that any t clients receive in that round determine all running products, whatever the masks and the randomness of the second round.", "quantifier": "all shared vectors, coalitions of at most t parties, masks, schedules, debug and release builds", "why_tests_cant": "Distributions cannot be tested by runs; d_pp sends the running products, unmasked, through the dealing of the king.", "anchors": [{"file": "dist-primitives/src/dpp/mod.rs", "symbols": ["d_pp"]}, {"file": "dist-primitives/src/utils/deg_red.rs", "symbols": ["deg_red"]}]}
{"id": "C67", "title": "The tests of the transforms pass for all inputs", "statement": "`d_ifft_works`, `d_fft_works`, `d_ifftxd_fft_works` and `coset_d_ifftxd_fft_works`: dealing succeeds, all live parties end in every schedule, what is unpacked from the results is the (inverse) transform of the values, or the values themselves for the two round trips, and the assertion holds.", "quantifier": "all values, packing factors and domain sizes, masks, randomness, schedules without crashes of the parties whose results are unpacked, debug and release builds", "why_tests_cant": "Each test runs one fixed size with one vector.", "anchors": [{"file": "dist-primitives/src/dfft/tests.rs", "symbols": ["d_ifft_works", "d_fft_works", "d_ifftxd_fft_works", "coset_d_ifftxd_fft_works"]}, {"file": "dist-primitives/src/dfft/mod.rs", "symbols": ["d_fft", "d_ifft"]}]}
{"id": "C68", "title": "The witness extensions compute what their references compute", "statement": "For any three vectors of the size of the domain, satisfying the QAP or not: `libsnark_ref` returns the coefficients of the polynomial whose values on the coset are those of (AB-C)/Z, for a satisfied QAP the coefficients of the quotient; `circom_ref` returns the values of AB-C on the odd powers of the root of double order. `QAP::pss` followed by `libsnark_h` (`circom_h`) leaves the parties with shares of exactly these vectors, and the assertions of `libsnark_dummy_ext_witness` and `circom_dummy_ext_witness` hold.", "quantifier": "all vectors, packing factors and domain sizes, masks, randomness, schedules, debug and release builds", "why_tests_cant": "The tests run one satisfied instance each.", "anchors": [{"file": "groth16/src/ext_wit.rs", "symbols": ["libsnark_ref", "circom_ref", "libsnark_h", "circom_h", "libsnark_dummy_ext_witness", "circom_dummy_ext_witness"]}, {"file": "groth16/src/qap.rs", "symbols": ["QAP::pss"]}]}
{"id": "C69", "title": "The test of the degree reduction passes for all secrets", "statement": "`test_deg_red`: for any secrets, the squares of the shares after `deg_red` reconstruct to the squares of the secrets, from all parties with `unpack` and from all but the last with `lagrange_unpack`; in release builds from the first 2l or more.", "quantifier": "all secrets, packing factors, masks, randomness, schedules, debug and release builds", "why_tests_cant": "The test runs one random vector.", "anchors": [{"file": "dist-primitives/src/utils/deg_red.rs", "symbols": ["deg_red", "DegRedMask::sample", "test_deg_red"]}, {"file": "secret-sharing/src/pss.rs", "symbols": ["lagrange_unpack"]}]}
{"id": "C70", "title": "The factor of the partial products", "statement": "`d_pp` multiplies all shares by a factor s (\"TODO: replace with good randomness\", now 1) and divides the result by it. With any factor s <> 0 in place of 1 the parties end with sharings of the running products divided by s, so for s <> 1 (and a first numerator <> 0) the result is wrong; and whatever the factors of two runs, if the king receives the same messages from the clients then all quotients and running products are the same, so no choice of s hides them from the king.", "quantifier": "all factors, vectors without zero denominators, sharings, masks, randomness, schedules, debug and release builds", "why_tests_cant": "The factor is the constant 1 in the code; the planned replacement has never been run.", "anchors": [{"file": "dist-primitives/src/dpp/mod.rs", "symbols": ["d_pp"]}]}
{"id": "C71", "title": "The unit tests of packing, decoding and interpolation pass for all inputs", "statement": "`test_initialize`, `test_det_packing`, `test_multiplication`, `pack_unpack_test` and `pack_unpack2_test` pass for every packing factor that is a power of two (and has a domain), all secrets, points, scalars and randomness; `test_error_correction` passes for every message of at most K coefficients and at most (n-K)/2 errors anywhere. `test_packing` reconstructs from 3l+1 shares, so it passes in release builds, but in debug builds only for l <= 2 (above, the debug assertion of `lagrange_unpack` fails). `test_eval_interpolate` passes exactly if the last coefficient is not zero.", "quantifier": "all secrets, randomness, packing factors, messages, errors, coefficients, fields, debug and release builds", "why_tests_cant": "Each test runs one packing factor and one random or fixed input; the failing cases are never drawn.", "anchors": [{"file": "secret-sharing/src/pss.rs", "symbols": ["new", "pack", "det_pack", "unpack", "unpack2", "lagrange_unpack", "test_initialize", "test_packing", "test_det_packing", "test_multiplication", "test_eval_interpolate"]}, {"file": "secret-sharing/src/utils.rs", "symbols": ["lagrange_interpolate", "eval_many"]}, {"file": "secret-sharing/src/gao.rs", "symbols": ["gao_decode", "test_error_correction"]}, {"file": "dist-primitives/src/dmsm/mod.rs", "symbols": ["pack_unpack_test", "pack_unpack2_test"]}]}
{"id": "C72", "title": "The tests of the networks pass for any number of parties", "statement": "`test_multiplexing`: whatever the order in which each party visits its peers, in every schedule each party gets on each of the three streams the identifiers of all others (as bytes, so modulo 256) in the order of its visits; the assertion holds at every party when there are at most 256 parties, and with more it fails exactly at the parties that hear from another one whose identifier is no byte. `add_protocol_inner`: every party gets the sum of all identifiers in every schedule, so the final assertion holds.", "quantifier": "all numbers of parties, orders of visits, hash-map orders, schedules, debug and release builds", "why_tests_cant": "The tests run four or five parties in one schedule.", "anchors": [{"file": "mpc-net/src/multi.rs", "symbols": ["test_multiplexing", "send_stream", "recv_stream"]}, {"file": "mpc-net/src/prod.rs", "symbols": ["add_protocol_inner"]}]}
{"id": "C73", "title": "What a wrong share of a party does to a result", "statement": "`unpack2` on arbitrary shares returns their interpolation; in debug builds it panics exactly if they do not lie on a polynomial of degree below n - 1. Degree reduction, d_fft, d_ifft and d_msm on arbitrary vectors: in release builds all parties end with sharings of the operation applied to what the vectors interpolate to, and nobody notices. One party that replaces its shares: in debug builds the king panics in every schedule, in release builds every slot of every replaced entry is wrong, by the error times a non-zero Lagrange weight. Two parties together can choose errors that debug builds do not notice either, and if one party is missing a single other one is enough.", "quantifier": "all sharing parameters, fields and modules, vectors, errors, positions, masks, hash-map orders, schedules", "why_tests_cant": "The code claims security against passive adversaries; this says what its only integrity check (a debug assertion) covers and what deviating parties can do unnoticed.", "anchors": [{"file": "secret-sharing/src/pss.rs", "symbols": ["PackedSharingParams::unpack2", "PackedSharingParams::unpack_missing_shares", "PackedSharingParams::lagrange_unpack"]}, {"file": "dist-primitives/src/utils/deg_red.rs", "symbols": ["deg_red"]}, {"file": "dist-primitives/src/dfft/mod.rs", "symbols": ["d_fft", "d_ifft"]}, {"file": "dist-primitives/src/dmsm/mod.rs", "symbols": ["d_msm"]}]}
{"id": "C74", "title": "Arbitrary bytes from the clients or the king", "statement": "Whatever bytes the clients send in the king rounds of deg_red, d_fft, d_ifft and d_msm: if one message does not decode, the king ends with a Generic error in every schedule and nobody else finishes; if one vector is shorter than the king's own, the king panics in debug and release builds; otherwise (longer vectors are cut to the king's length, left-over bytes ignored) the parties end with sharings of the operation applied to the inputs from which those messages would have been computed, which always exist, unless a debug build notices that they do not interpolate below degree n - 1. Whatever decodable bytes a dishonest king answers, every client accepts them and ends with the decoded value plus its output mask, whatever the lengths.", "quantifier": "all byte strings, sharing parameters, fields and modules, vectors, masks, hash-map orders, schedules; for the king's answers also one crash", "why_tests_cant": "Extends C73 from wrong inputs to arbitrary messages: it is the complete list of what one round of a client or the king can do to a result.", "anchors": [{"file": "mpc-net/src/ser_net.rs", "symbols": ["client_send_or_king_receive_serialized", "client_receive_or_king_send_serialized"]}, {"file": "dist-primitives/src/utils/pack.rs", "symbols": ["transpose"]}, {"file": "dist-primitives/src/utils/deg_red.rs", "symbols": ["deg_red"]}, {"file": "dist-primitives/src/dfft/mod.rs", "symbols": ["d_fft", "d_ifft"]}, {"file": "dist-primitives/src/dmsm/mod.rs", "symbols": ["d_msm"]}]}
{"id": "C75", "title": "Undecodable messages when some party is silent", "statement": "When at least one client is silent and others send bytes that do not decode, the king of deg_red, d_msm, d_fft, d_ifft and d_pp ignores the undecodable messages instead of stopping with an error: with fewer than t other messages it ends with a protocol error, with t or more but too few to reconstruct a product (any number below n for d_pp) debug builds panic, and nobody else finishes; in release builds deg_red, d_fft and d_ifft give every party that is not silent (also those that sent garbage) its share of the right result as soon as the remaining messages are at least 2l and the degree of the input. In particular one client that sends garbage stops the king if everybody takes part, and does no harm if another client is silent.", "quantifier": "all sets of silent clients and of clients with undecodable bytes, byte strings, sharing parameters, fields and modules, vectors, masks, hash-map orders, schedules", "why_tests_cant": "The two branches of client_send_or_king_receive_serialized treat the same fault differently, so a further crash turns a failing round into a successful one.", "anchors": [{"file": "mpc-net/src/ser_net.rs", "symbols": ["client_send_or_king_receive_serialized"]}, {"file": "dist-primitives/src/utils/deg_red.rs", "symbols": ["deg_red"]}, {"file": "dist-primitives/src/dfft/mod.rs", "symbols": ["d_fft", "d_ifft"]}, {"file": "dist-primitives/src/dmsm/mod.rs", "symbols": ["d_msm"]}, {"file": "dist-primitives/src/dpp/mod.rs", "symbols": ["d_pp"]}]}
{"id": "C76", "title": "The benchmarks of the multi-scalar multiplication and the random key share", "statement": "The rounds of `dmsm_bench` end, in every schedule, with the same value at every party: the sum of the l values to which the products of the parties' random shares interpolate. If the generators of all parties yield the same values this is l times the product that each computes alone, in debug and release builds and even if a client crashes; if the first products do not lie on a polynomial of degree below n - 1, the king of a debug build panics. `msm_bench` never fails. `PackedProvingKeyShare::rand` uses every value of the generator exactly once and in order, its vectors have m/l entries (2m/l for u), and it panics only for l = 0.", "quantifier": "all random values, fields of sufficient two-adicity, packing factors, numbers and sizes of rounds, schedules, one crash", "why_tests_cant": "The benchmarks check nothing; whether they panic in a debug build depends on whether test_rng is deterministic.", "anchors": [{"file": "dist-primitives/examples/dmsm_bench.rs", "symbols": ["d_msm_test", "main"]}, {"file": "dist-primitives/examples/msm_bench.rs", "symbols": ["msm_test", "main"]}, {"file": "groth16/src/proving_key.rs", "symbols": ["PackedProvingKeyShare::rand"]}]}
{"id": "C77", "title": "Wrong shares and arbitrary bytes in the partial products", "statement": "d_pp on arbitrary vectors: in release builds all parties end with sharings of the running products of what the vectors interpolate to, and nobody notices; in debug builds the same if the vectors lie on polynomials of degree below n - 1, and otherwise the king panics. A zero among the interpolated denominators makes the king panic in both builds, and every single party can choose its own denominators so that this happens, whatever the others send. One party with wrong numerators changes the numerators by its errors times the non-zero weights of C73; the product in the first slot of its first wrong entry is wrong unless a numerator before it is zero. With one party silent, release builds compute with what the others' vectors interpolate to. Arbitrary bytes of the clients in the first round: an error if one does not decode, a panic if one is shorter than the king's, otherwise what the vectors cut to the king's length give.", "quantifier": "all sharing parameters, fields, vectors, errors, bytes, masks, hash-map orders, schedules", "why_tests_cant": "d_pp has two further ways to be stopped: the division, and the size assertion. C73 and C74 leave it out.", "anchors": [{"file": "dist-primitives/src/dpp/mod.rs", "symbols": ["d_pp"]}, {"file": "secret-sharing/src/pss.rs", "symbols": ["PackedSharingParams::unpack2", "PackedSharingParams::unpack_missing_shares"]}, {"file": "mpc-net/src/ser_net.rs", "symbols": ["client_send_or_king_receive_serialized"]}]}
{"id": "C78", "title": "A party that deviates in the prover", "statement": "Arbitrary witness shares (a and ax) of the right lengths in the collaborative prover of the sha256 example: in release builds all parties finish on every schedule and the client obtains a proof in which the inner products with the witness are replaced by what the products of the parties interpolate to, summed over the slots; in debug builds the same if these products lie on polynomials of degree below n - 1. One party with other witness shares adds errors dA, dB1, dB, dW to the four inner products, all multiples of the sum of its weights, and the client gets (A + dA, B + dB, C + s dA + r dB1 + dW). One party that returns other shares of the proof: the client of a debug build panics, that of a release build gets the proof with the errors times a non-zero weight. A proof that differs from an accepted one by (dA, dB, dC) is accepted iff e(dA, B) + e(A, dB) + e(dA, dB) = e(dC, delta). Hence every single party can make the verifier reject, although all constraints are satisfied: any change of its share of C does it.", "quantifier": "all circuits, keys, sharing parameters, fields, vectors, errors, masks, hash-map orders, schedules; the pairing is any bilinear map, for the last claim non-degenerate at the generator of the second group", "why_tests_cant": "The parties are not trusted for correctness: the client of a release build hands out whatever comes out of the reconstruction, and only the verifier notices.", "anchors": [{"file": "groth16/examples/sha256.rs", "symbols": ["dsha256", "main"]}, {"file": "groth16/src/prove.rs", "symbols": ["A::compute", "BInG1::compute", "BInG2::compute", "C::compute"]}, {"file": "dist-primitives/src/dmsm/mod.rs", "symbols": ["d_msm"]}, {"file": "secret-sharing/src/pss.rs", "symbols": ["PackedSharingParams::unpack2"]}]}
{"id": "C79", "title": "Wrong shares of the QAP", "statement": "circom_h and libsnark_h on arbitrary vectors of the right lengths instead of shares of the QAP: the vectors determine exactly one vector each for a, b and c, and in release builds all parties finish on every schedule with sharings of what the extension computes from these three vectors: the values of A B - C at the odd points (circom), or the vector whose polynomial, times the value of the vanishing polynomial, agrees with A B - C on the coset (libsnark), whether or not A B - C is divisible. In debug builds the same holds if all entries lie on polynomials of degree below n - 1; otherwise, on every schedule without crashes, no party ever returns, and the king can always be brought to panic in one of the three concurrent inverse transforms. The same holds of the prover in debug builds if an entry of the QAP shares or one of the vectors of inner products is unbalanced, whatever key shares are used. The whole prover with arbitrary shares of the QAP and of the witness gives the client the proof with the inner products of C78 and the quotient part of these three vectors. One party with other shares changes the entries of the vector by its errors times its weights, and always makes some entry unbalanced.", "quantifier": "all sharing parameters, fields, vectors, errors, masks, hash-map orders, schedules", "why_tests_cant": "Completes C78: nothing that a party may use as input is trusted, and in release builds nobody but the verifier notices.", "anchors": [{"file": "groth16/src/ext_wit.rs", "symbols": ["circom_h", "libsnark_h"]}, {"file": "groth16/examples/sha256.rs", "symbols": ["dsha256"]}, {"file": "dist-primitives/src/dfft/mod.rs", "symbols": ["d_fft", "d_ifft"]}, {"file": "dist-primitives/src/utils/deg_red.rs", "symbols": ["deg_red"]}]}
{"id": "C80", "title": "Protocols over the production network", "statement": "The king of ProdNet reaches the parties through the table of self-declared ids that its set-up has built. If the declared ids are 1 to n - 1 in any order, every execution of a program on this network corresponds step by step to an execution in which the nodes are the ids, with the same results and the same messages under way, for all programs in which the king collects and the others talk to the king only; deg_red, d_msm, d_fft, d_ifft, d_pp, circom_h, libsnark_h and the prover of the sha256 example are such. So set-up and protocol together give every node the value of its id on every schedule, also if one party crashes after the set-up. If an id between 1 and n - 1 is missing in the table (the set-up succeeds then, C48), the king never obtains a value from deg_red, d_msm, d_fft, d_ifft, d_pp, circom_h, libsnark_h or the prover, whatever the others do: its answers stop with an error at the missing id. The same for set-up and protocol together, when the peers declare any ids, also equal ones, and one of 1 to n - 1 is not among them.", "quantifier": "all numbers of parties, orders of ids and connections, programs of this shape, hash-map orders, schedules, one crash; for the missing id all networks and all schedules", "why_tests_cant": "The theorems about protocols are about nodes that are numbered by ids; this is what connects them to the network that is meant for production.", "anchors": [{"file": "mpc-net/src/prod.rs", "symbols": ["new_from_pre_existing_connection", "recv_from", "send_to"]}, {"file": "mpc-net/src/lib.rs", "symbols": ["client_send_or_king_receive", "client_receive_or_king_send"]}]}
