{
 "claims": [
  {
   "property": "C01",
   "status": "proved",
   "theorems": [
    "C01_pack_unpack",
    "C01_pack_is_shamir"
   ],
   "note": "For every field with FFT data, every module of shares, every power-of-two l, all randomness, debug and release builds."
  },
  {
   "property": "C02",
   "status": "proved",
   "theorems": [
    "C02_lagrange_unpack",
    "C02_lagrange_unpack_release",
    "C02_missing_some",
    "C02_missing_none",
    "C02_full_set_permuted_refuted"
   ],
   "note": "Any order and any subset above the threshold; for the full set the shares must be in party order (C02_full_set_permuted_refuted shows the ids are ignored then)."
  },
  {
   "property": "C03",
   "status": "proved",
   "theorems": [
    "C03_det_pack_release",
    "C03_det_pack",
    "C03_det_pack_debug"
   ],
   "note": ""
  },
  {
   "property": "C04",
   "status": "proved",
   "theorems": [
    "C04_product_unpack2",
    "C04_product_one_missing"
   ],
   "note": ""
  },
  {
   "property": "C05",
   "status": "proved",
   "theorems": [
    "C05_linear"
   ],
   "note": ""
  },
  {
   "property": "C06",
   "status": "proved",
   "theorems": [
    "C06_views_uniform",
    "C06_views_independent"
   ],
   "note": "Hypothesis: GENERATOR is not an n-th root of unity (true for a multiplicative generator when n < |F|-1)."
  },
  {
   "property": "C07",
   "status": "proved",
   "theorems": [
    "C07_new",
    "C07_small_field"
   ],
   "note": ""
  },
  {
   "property": "C08",
   "status": "proved",
   "theorems": [
    "C08_non_power_of_two_refuted",
    "C08_debug_rejects"
   ],
   "note": "The claim is false of the code: refuted for release builds by a computed witness (l=3); debug builds reject such l (proved)."
  },
  {
   "property": "C09",
   "status": "proved",
   "theorems": [
    "C09_too_few_shares_refuted",
    "C09_debug_rejects"
   ],
   "note": "The claim is false of release builds (refuted by witness); debug builds panic (proved)."
  },
  {
   "property": "C10",
   "status": "proved",
   "theorems": [
    "C10_overlong_leaks",
    "C10_hiding_refuted"
   ],
   "note": "The claim is false: proved for all inputs that every party receives r itself in release builds, panic in debug builds; refuted hiding."
  },
  {
   "property": "C11",
   "status": "proved",
   "theorems": [
    "C11_eval",
    "C11_eval_many"
   ],
   "note": ""
  },
  {
   "property": "C12",
   "status": "proved",
   "theorems": [
    "C12_syn_div",
    "C12_syn_div_panic"
   ],
   "note": "Quotient by x^a - b for b non-zero and a below the length; all other inputs panic."
  },
  {
   "property": "C13",
   "status": "proved",
   "theorems": [
    "C13_get_zero_roots"
   ],
   "note": ""
  },
  {
   "property": "C14",
   "status": "proved",
   "theorems": [
    "C14_interpolates",
    "C14_unique",
    "C14_zero_point"
   ],
   "note": "Interpolation, uniqueness, canonical form (no trailing zeros unless all zero) and the panic on a zero point."
  },
  {
   "property": "C15",
   "status": "proved",
   "theorems": [
    "C15_partial_xgcd"
   ],
   "note": "Bezout form for all polynomials the field has a multiplication domain for."
  },
  {
   "property": "C16",
   "status": "proved",
   "theorems": [
    "C16_decode",
    "C16_smallest_field"
   ],
   "note": "Requires n < 2^two_adicity because arkworks multiplies polynomials of n+1 coefficients through an FFT; C16_smallest_field proves the panic when n = 2^two_adicity."
  },
  {
   "property": "C17",
   "status": "proved",
   "theorems": [
    "C17_degree_refuted",
    "C17_sound"
   ],
   "note": "The claim is false of the code (witness x^5, n=8, k=4). C17_sound proves what does hold for every returned value."
  },
  {
   "property": "C18",
   "status": "proved",
   "theorems": [
    "C18_transpose",
    "C18_transpose_panic"
   ],
   "note": ""
  },
  {
   "property": "C19",
   "status": "proved",
   "theorems": [
    "C19_pack_vec_layout",
    "C19_pack_vec_debug",
    "C19_pack_vec_release"
   ],
   "note": "Layout for multiples of l, panic in debug builds, and the exact leaked values in release builds."
  },
  {
   "property": "C20",
   "status": "proved",
   "theorems": [
    "C20_bit_reversal",
    "C20_permutation"
   ],
   "note": ""
  },
  {
   "property": "C21",
   "status": "proved",
   "theorems": [
    "C21_split_dft"
   ],
   "note": ""
  },
  {
   "property": "C22",
   "status": "proved",
   "theorems": [
    "C22_d_fft",
    "C22_debug_length"
   ],
   "note": "All parties' programs, all schedules without premature timeout or broken connection, all hash orders, crash of one client at any point; domain sizes 2^(b+lam) with packing factor 2^lam; vector length below 2^64."
  },
  {
   "property": "C23",
   "status": "proved",
   "theorems": [
    "C23_d_ifft",
    "C23_debug_length"
   ],
   "note": "As C22; any vector of values is the value vector of a unique interpolating polynomial and the theorem names it."
  },
  {
   "property": "C24",
   "status": "proved",
   "theorems": [
    "C24_ifft_then_fft",
    "C24_roundtrip"
   ],
   "note": "Both transforms one after the other on the same stream, every schedule, one crashing client."
  },
  {
   "property": "C25",
   "status": "proved",
   "theorems": [
    "C25_d_fft",
    "C25_d_ifft",
    "C25_deg_red",
    "C25_d_msm"
   ],
   "note": "For any two sampled or zero masks the final shares unpack to the same secrets."
  },
  {
   "property": "C26",
   "status": "proved",
   "theorems": [
    "C26_d_fft",
    "C26_d_ifft",
    "C26_deg_red"
   ],
   "note": "Existence and uniqueness of the mask randomness; messages of all clients, serialized. deg_red: over a group generated by gen."
  },
  {
   "property": "C27",
   "status": "proved",
   "theorems": [
    "C27_deg_red",
    "C27_products",
    "C27_debug_length"
   ],
   "note": "Any sharings of degree < 4l-1, and products of two degree < 2l sharings."
  },
  {
   "property": "C28",
   "status": "proved",
   "theorems": [
    "C28_hiding_refuted"
   ],
   "note": "The claim is false of the code: witness for squares with packing factor 2 over 17 elements; no sharing randomness and no masks explain the messages."
  },
  {
   "property": "C29",
   "status": "proved",
   "theorems": [
    "C29_d_msm"
   ],
   "note": "Any number of blocks, any module over the field (group elements of prime order as a module over the scalar field)."
  },
  {
   "property": "C30",
   "status": "proved",
   "theorems": [
    "C30_length_mismatch"
   ],
   "note": "Returned before anything is sent."
  },
  {
   "property": "C31",
   "status": "proved",
   "theorems": [
    "C31_d_pp"
   ],
   "note": "In debug builds the king asserts that nobody is missing, so the crash case is included only for release builds."
  },
  {
   "property": "C32",
   "status": "proved",
   "theorems": [
    "C32_zero_denominator"
   ],
   "note": "Every execution without timeouts and failures."
  },
  {
   "property": "C33",
   "status": "proved",
   "theorems": [
    "C33_hiding_refuted"
   ],
   "note": "The claim is false of the code: for all inputs the clients' first messages determine numerators and denominators."
  },
  {
   "property": "C34",
   "status": "proved",
   "theorems": [
    "C34_qap",
    "C34_no_domain",
    "C34_short_assignment"
   ],
   "note": "For every constraint matrix and assignment. The code never looks at the C matrix: c is a*b by construction, so an unsatisfying assignment is not noticed."
  },
  {
   "property": "C35",
   "status": "proved",
   "theorems": [
    "C35_qap_pss",
    "C35_small_domain"
   ],
   "note": "For every QAP over a domain of size 2^(b+lam), which is what `qap` builds (C34). C35_small_domain: a domain smaller than l is silently dropped, all shares are empty."
  },
  {
   "property": "C36",
   "status": "proved",
   "theorems": [
    "C36_libsnark_h"
   ],
   "note": "Every schedule, every hash order, any late party. Needs coset offset ^ domain size <> 1 (the field generator has this)."
  },
  {
   "property": "C37",
   "status": "proved",
   "theorems": [
    "C37_circom_h",
    "C37_vanishing_odd",
    "C37_no_double_domain"
   ],
   "note": "Every schedule, every hash order, any late party. Includes the panic when the field has no domain of twice the size."
  },
  {
   "property": "C38",
   "status": "proved",
   "theorems": [
    "C38_pack_key",
    "C38_debug_panic"
   ],
   "note": "Release builds pad the last chunk (C38_pack_key); debug builds panic (C38_debug_panic)."
  },
  {
   "property": "C39",
   "status": "proved",
   "theorems": [
    "C39_prover",
    "C39_example_randomness"
   ],
   "note": "From the dealer to the client's reconstruction, for every schedule. The hypothesis that all or none of the shares of r are zero is needed (C40) and holds for the sharing the sha256 example makes (C39_example_randomness)."
  },
  {
   "property": "C40",
   "status": "proved",
   "theorems": [
    "C40_zero_share",
    "C40_all_take_part_refuted"
   ],
   "note": "The claim is false; C40_zero_share gives, for every r and party, dealer randomness that makes the party leave, C40_all_take_part_refuted a run that ends with a wrong B."
  },
  {
   "property": "C41",
   "status": "proved",
   "theorems": [
    "C41_king_collects",
    "C41_king_collects_values"
   ],
   "note": "every_schedule: every interleaving without premature timeout or failure is finite, can be completed and ends in the one state described."
  },
  {
   "property": "C42",
   "status": "proved",
   "theorems": [
    "C42_timeouts"
   ],
   "note": "For any state of the rest of the network and any schedule, including premature timeouts and failures of others."
  },
  {
   "property": "C43",
   "status": "proved",
   "theorems": [
    "C43_king_distributes",
    "C43_wrong_role",
    "C43_length_mismatch",
    "C43_too_few",
    "C43_none"
   ],
   "note": ""
  },
  {
   "property": "C44",
   "status": "proved",
   "theorems": [
    "C44_schedule_independence",
    "C44_same_end",
    "C44_every_stop_is_a_crash",
    "C44_a_crash_only_stops"
   ],
   "note": "For all programs whose concurrent threads use different streams."
  },
  {
   "property": "C45",
   "status": "proved",
   "theorems": [
    "C45_rounds_separate",
    "C45_late_message_refuted"
   ],
   "note": "The claim is false of the code (computed witness with one timeout); proved for any number of rounds when there is no premature timeout."
  },
  {
   "property": "C46",
   "status": "proved",
   "theorems": [
    "C46_packet_layout",
    "C46_packet_round_trip",
    "C46_written",
    "C46_stream",
    "C46_prefix",
    "C46_bad_length",
    "C46_send_to",
    "C46_send_receive",
    "C46_decoded",
    "C46_only_data",
    "C46_handshake_is_no_data"
   ],
   "note": "tokio-util's LengthDelimitedCodec and bincode2 are modelled, not their source; the bytes below the frames (smux, TLS, TCP) are taken as a reliable stream cut at arbitrary places."
  },
  {
   "property": "C47",
   "status": "proved",
   "theorems": [
    "C47_setup",
    "C47_king_heard",
    "C47_peer_heard",
    "C47_one_connection"
   ],
   "note": "C47_setup covers every schedule without failures; C47_king_heard and C47_peer_heard every schedule, also with failures, and arbitrary other participants."
  },
  {
   "property": "C48",
   "status": "proved",
   "theorems": [
    "C48_last_wins",
    "C48_identities_refuted"
   ],
   "note": "The claim is false; C48_last_wins says what holds for arbitrary declared ids, C48_identities_refuted is a computed run. Peer certificates are checked by TLS (not modelled) but not compared with the id."
  },
  {
   "property": "C49",
   "status": "proved",
   "theorems": [
    "C49_mesh"
   ],
   "note": "One step is one iteration of a client or server loop; TCP connect and accept do not fail."
  },
  {
   "property": "C50",
   "status": "proved",
   "theorems": [
    "C50_local_refuted",
    "C50_production"
   ],
   "note": "The claim is false for the local network, for every n, party and moment (C50_local_refuted); true for the production network."
  },
  {
   "property": "C51",
   "status": "proved",
   "theorems": [
    "C51_genesis",
    "C51_late_panics",
    "C51_error_refuted"
   ],
   "note": "The claim is false: C51_late_panics for every n and every set of silent parties, C51_error_refuted is a computed run with a late party. C51_genesis is the case in which everybody is in time."
  },
  {
   "property": "C52",
   "status": "proved",
   "theorems": [
    "C52_vector_round_trip",
    "C52_vector_size",
    "C52_truncated"
   ],
   "note": "For element serializations of a fixed number of bytes (codec_ok); arkworks' own element encodings are not modelled."
  },
  {
   "property": "C53",
   "status": "proved",
   "theorems": [
    "C53_fifo",
    "C53_isolation"
   ],
   "note": "For all programs and all schedules, including timeouts and failures; premise: a connection is a FIFO queue."
  },
  {
   "property": "C54",
   "status": "proved",
   "theorems": [
    "C54_round",
    "C54_lossy"
   ],
   "note": "simulate_lossy_network_round with zero nodes panics; parties run to completion before the last result is dropped."
  },
  {
   "property": "C55",
   "status": "proved",
   "theorems": [
    "C55_hiding_refuted"
   ],
   "note": "The claim is false; the theorem is the refutation, for an arbitrary known stream."
  },
  {
   "property": "C56",
   "status": "proved",
   "theorems": [
    "C56_qap",
    "C56_witness",
    "C56_d_fft",
    "C56_d_ifft",
    "C56_deg_red",
    "C56_d_fft_masks",
    "C56_d_ifft_masks",
    "C56_deg_red_masks",
    "C56_d_msm_masks"
   ],
   "note": "Views are results plus messages received; what the king collects is outside these views (see C28). The hypothesis that the field generator is not an n-th root of unity separates evaluation points of shares from those of secrets."
  },
  {
   "property": "C57",
   "status": "proved",
   "theorems": [
    "C57_debug_panic",
    "C57_example",
    "C57_accepted",
    "C57_rejected"
   ],
   "note": "The set-up and verification of ark_groth16, and CircomReduction, are modelled from their published definitions (they are dependencies, not in the repository). The pairing is any bilinear map. C57_debug_panic is the debug-build part."
  },
  {
   "property": "C58",
   "status": "proved",
   "theorems": [
    "C58_hiding"
   ],
   "note": "Views are inputs, results and messages received; what the king collects is outside these views (see C28). The hypothesis on the randomness of QAP::pss is necessary and not met by the code (C55). r and s are known to every party (C39)."
  },
  {
   "property": "C59",
   "status": "proved",
   "theorems": [
    "C59_d_msm",
    "C59_deg_red",
    "C59_d_fft",
    "C59_d_ifft",
    "C59_d_pp",
    "C59_release_d_fft",
    "C59_release_deg_red",
    "C59_release_d_ifft",
    "C59_release_refuted"
   ],
   "note": "The second half of the claim is false for release builds: C59_release_refuted is a computed run of a multi-scalar multiplication. C59_release_d_fft, C59_release_d_ifft and C59_release_deg_red say how many live parties do suffice. Silent parties do nothing at all; the king is alive."
  },
  {
   "property": "C60",
   "status": "proved",
   "theorems": [
    "C60_libsnark_h",
    "C60_circom_h"
   ],
   "note": "Views are masks, results and messages received; what the king collects is outside these views (see C28)."
  },
  {
   "property": "C61",
   "status": "proved",
   "theorems": [
    "C61_deg_red",
    "C61_d_fft",
    "C61_d_ifft",
    "C61_d_msm",
    "C61_deg_red_exact",
    "C61_d_msm_exact",
    "C61_d_fft_exact",
    "C61_d_ifft_exact"
   ],
   "note": "Runs without crashes: the king collects a message from every client."
  },
  {
   "property": "C62",
   "status": "proved",
   "theorems": [
    "C62_d_fft_test",
    "C62_d_fft_test_input",
    "C62_d_pp_test",
    "C62_d_msm_test",
    "C62_d_fft_test_crash_refuted"
   ],
   "note": "The programs return what the king compared; d_pp_test is stated for fields in which the numbers 1..domain size are not zero."
  },
  {
   "property": "C63",
   "status": "proved",
   "theorems": [
    "C63_add_ids_sum",
    "C63_add_ids",
    "C63_add_ids_missing",
    "C63_add_ids_overflow"
   ],
   "note": "The connections are taken as made (see C47-C52 for making them)."
  },
  {
   "property": "C64",
   "status": "proved",
   "theorems": [
    "C64_local_dfft"
   ],
   "note": ""
  },
  {
   "property": "C65",
   "status": "proved",
   "theorems": [
    "C65_constraint_domain",
    "C65_constraint_domain_pow2",
    "C65_local_groth",
    "C65_local_groth_input"
   ],
   "note": ""
  },
  {
   "property": "C66",
   "status": "proved",
   "theorems": [
    "C66_d_pp",
    "C66_d_pp_known_randomness"
   ],
   "note": "The king collects numerators and denominators in the clear (C33); this property is about the other parties, and about the king's own results and received messages, not about what it collects."
  },
  {
   "property": "C67",
   "status": "proved",
   "theorems": [
    "C67_checks_exact",
    "C67_d_ifft_works",
    "C67_d_fft_works",
    "C67_d_ifftxd_fft_works",
    "C67_coset_d_ifftxd_fft_works"
   ],
   "note": "The test results are the vector of all parties' results, as simulate_network_round returns them (C54). C67_checks_exact: the modelled assertions accept exactly the right vectors."
  },
  {
   "property": "C68",
   "status": "proved",
   "theorems": [
    "C68_libsnark_ref",
    "C68_circom_ref",
    "C68_libsnark_test",
    "C68_circom_test",
    "C68_checks_exact"
   ],
   "note": "libsnark_h needs a coset generator g with g^N <> 1, as in C36. In the circom fixture test (ext_witness_circom) only the last lines, which unpack with unpack, are covered; the circuit and arkworks' CircomReduction are not modelled."
  },
  {
   "property": "C69",
   "status": "proved",
   "theorems": [
    "C69_check_exact",
    "C69_deg_red_test"
   ],
   "note": "The lossy round returns the results of all parties but the last (C54)."
  },
  {
   "property": "C70",
   "status": "proved",
   "theorems": [
    "C70_factor",
    "C70_only_one",
    "C70_king_sees"
   ],
   "note": "The model has the factor as a parameter (d_pp_with); d_pp is its instance 1, to which C31-C33 and C66 refer."
  },
  {
   "property": "C71",
   "status": "proved",
   "theorems": [
    "C71_initialize",
    "C71_packing",
    "C71_pack_unpack",
    "C71_multiplication",
    "C71_eval_interpolate",
    "C71_error_correction",
    "C71_pack_unpack2"
   ],
   "note": "test_eval_interpolate and test_error_correction are modelled for any message and errors in place of their fixed or random ones; the field must have 2*size distinct non-zero small integers, as arkworks' fields do."
  },
  {
   "property": "C72",
   "status": "proved",
   "theorems": [
    "C72_ids",
    "C72_test",
    "C72_too_many",
    "C72_add_protocol"
   ],
   "note": "The set-up of the two networks is C47 and C49. C72_too_many assumes that the sum of all identifiers is a u32."
  },
  {
   "property": "C73",
   "status": "proved",
   "theorems": [
    "C73_weight",
    "C73_weight_without",
    "C73_sharings",
    "C73_unpack2",
    "C73_deg_red",
    "C73_deg_red_caught",
    "C73_one_party_debug",
    "C73_one_party_release",
    "C73_two_parties",
    "C73_deg_red_missing",
    "C73_one_party_missing",
    "C73_d_msm",
    "C73_d_msm_caught",
    "C73_d_msm_one_party",
    "C73_d_fft",
    "C73_d_ifft",
    "C73_d_fft_one_party_debug",
    "C73_d_ifft_one_party_debug"
   ],
   "note": "The parties that deviate change their input vectors only: they send messages of the right length that decode, and follow the protocol otherwise."
  },
  {
   "property": "C74",
   "status": "proved",
   "theorems": [
    "C74_decode",
    "C74_deg_red_garbled",
    "C74_deg_red_short",
    "C74_deg_red",
    "C74_deg_red_caught",
    "C74_d_msm_garbled",
    "C74_d_msm",
    "C74_d_msm_caught",
    "C74_d_fft_garbled",
    "C74_d_fft_short",
    "C74_d_fft_inputs",
    "C74_d_fft",
    "C74_d_fft_caught",
    "C74_d_ifft_garbled",
    "C74_d_ifft_short",
    "C74_d_ifft_inputs",
    "C74_d_ifft",
    "C74_d_ifft_caught",
    "C74_king_deg_red",
    "C74_king_d_msm",
    "C74_king_d_fft",
    "C74_king_d_ifft"
   ],
   "note": "The clients' bytes are arbitrary, the king is honest, nobody crashes; or the king's answers are arbitrary bytes that decode and the clients are honest. What follows in a client whose bytes do not decode is not stated at the level of schedules."
  },
  {
   "property": "C75",
   "status": "proved",
   "theorems": [
    "C75_d_msm",
    "C75_deg_red",
    "C75_d_fft",
    "C75_d_ifft",
    "C75_d_pp",
    "C75_release_d_fft",
    "C75_release_deg_red",
    "C75_release_d_ifft",
    "C75_deg_red_rescued"
   ],
   "note": "The king itself takes part and at least one client is silent (otherwise C74). Messages that decode are the honest ones. The release theorems cover deg_red and the transforms; for d_msm and d_pp only the failures are stated."
  },
  {
   "property": "C76",
   "status": "proved",
   "theorems": [
    "C76_rounds",
    "C76_rounds_same",
    "C76_rounds_dies",
    "C76_dmsm_bench",
    "C76_dmsm_bench_same",
    "C76_msm_bench",
    "C76_key_rand",
    "C76_key_rand_panics"
   ],
   "note": "C76_rounds and C76_rounds_same are for any number of rounds of any sizes, C76_dmsm_bench for the four rounds of the program (the scalar field of BLS12-377 has two-adicity 47). C76_rounds_dies is about the first round."
  },
  {
   "property": "C77",
   "status": "proved",
   "theorems": [
    "C77_d_pp",
    "C77_d_pp_caught",
    "C77_d_pp_zero",
    "C77_one_party_stops",
    "C77_one_party",
    "C77_d_pp_missing",
    "C77_bytes_garbled",
    "C77_bytes_short",
    "C77_bytes",
    "C77_bytes_caught"
   ],
   "note": "In the first five theorems the parties that deviate change their input vectors only (no crash); in C77_d_pp_missing one party sends nothing at all. The bytes theorems are about the first of the two rounds; the second is the deg_red of C73 and C74."
  },
  {
   "property": "C78",
   "status": "proved",
   "theorems": [
    "C78_prover",
    "C78_client",
    "C78_client_debug",
    "C78_verdict",
    "C78_denial",
    "C78_one_party"
   ],
   "note": "The deviating parties change their witness shares or the shares they return; key, QAP shares, r and s are as dealt, and nobody crashes during the prover (in C78_denial one party may crash, as in C57, before another returns a wrong share). As in C39, all or none of the shares of r are zero."
  },
  {
   "property": "C79",
   "status": "proved",
   "theorems": [
    "C79_circom_caught",
    "C79_libsnark_caught",
    "C79_prover_caught",
    "C79_one_party_unbalanced",
    "C79_guessed",
    "C79_circom_h",
    "C79_libsnark_h",
    "C79_one_party",
    "C79_prover"
   ],
   "note": "The deviating parties use other vectors of the right length as shares of the QAP (all theorems) and of the witness (C79_prover); the key, r and s are as dealt, the domain is the right one, and nobody crashes. The debug-build theorems (C79_circom_caught, C79_libsnark_caught, C79_prover_caught) say that no crash-free execution gives a party a result and that every one of them can be continued to the king's panic; they need only that the vectors have the right lengths, the masks are right and something is unbalanced: an entry of the shares of the QAP or, for the prover, one of the four products that the parties send (the one for B in G1 only if r is not 0). In debug builds the hypotheses of C79_prover and C79_prover_caught are complementary: either everything the parties send is balanced and the client gets the proof described, or the king panics."
  },
  {
   "property": "C80",
   "status": "proved",
   "theorems": [
    "C80_same_results",
    "C80_yields",
    "C80_star_protocols",
    "C80_star_prover",
    "C80_executions",
    "C80_missing",
    "C80_missing_prover",
    "C80_collision"
   ],
   "note": "The ids are the numbers 1 to n - 1 (C80_same_results, C80_yields, C80_executions), or one of them is missing (C80_missing, C80_missing_prover, C80_collision); no other deviation during the set-up. For circom_h, libsnark_h and the prover the result over the production network is C80_same_results with C80_star_prover and the theorem about the protocol. C80_collision is about executions without timeouts in the king's rounds; C80_missing about all executions."
  }
 ]
}