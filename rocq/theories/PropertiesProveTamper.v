(** Property theorems only; proofs are in ProveTamperThm.v. *)
From mathcomp Require Import all_ssreflect all_algebra.
From mathcomp Require Import zify.
From Verif Require Import RingTac Base ModelField ModelUtils ModelPss ModelPack ModelFft ModelNet.
From Verif Require Import ModelProto ModelQap ModelProve ModelMain Spec SpecNet SpecProto SpecGroth.
From Verif Require Import SpecVerify SpecTamper.
From Verif Require Import NetProofs KingProofs NetThm PartyProofs.
From Verif Require Import FieldProofs UtilsProofs PssProofs PackProofs FftProofs ProtoProofs DegProofs.
From Verif Require Import PssThm ProtoThm QapProofs ExtProofs GrothThm ProveProofs ProveThm.
From Verif Require Import MainProofs MainThm.
From Verif Require Import TamperProofs TamperThm.
Set Implicit Arguments.
Unset Strict Implicit.
Unset Printing Implicit Defensive.
Import GRing.Theory.
Local Open Scope ring_scope.
Local Notation Fm F := [lmodType F of F^o].
From Verif Require Import ProveTamperThm.

(** C78: the prover on any witness shares.  The key, the QAP and the randomness are shared as in C39;
    the vectors [a] and [ax] of the parties are arbitrary, of the right lengths, and nobody crashes.
    In release builds all parties finish and the client obtains a proof: the inner products with the
    witness are replaced by what the products of the parties interpolate to, summed over the slots.
    The same holds in debug builds if the products are balanced. *)
Theorem C78_prover (F : fftField) (T1 T2 : lmodType F) dbg lam b (pp : pss F) dom d2
    (cF : codec F) (c1 : codec T1) (c2 : codec T2) mb mb1 mb2
    (pk : proving_key T1 T2) (nz ni : nat) (q : qap_t F)
    (rq : rng F) k0 crs (a ax : nat -> seq F) qs
    (fm : nat -> seq (fft_mask F)) (gen : F) dm (g1 : T1) g1m (g2 : T2) g2m
    (rsh ssh : seq F) (r s : F) (rs : nat -> rng F) :
  pss_new F dbg (2 ^ lam) = Ok pp -> domain_new F (2 ^ (b + lam)) = Some dom ->
  domain_new F (2 * 2 ^ (b + lam)) = Some d2 ->
  codec_ok cF mb -> codec_ok c1 mb1 -> codec_ok c2 mb2 -> (2 ^ b < 256 ^ 8)%N ->
  (* the key belongs to a circuit with [nz] variables, [ni] of them public *)
  (0 < ni <= nz)%N -> size (a_query pk) = nz -> size (b_g1_query pk) = nz ->
  size (b_g2_query pk) = nz -> size (l_query pk) = (nz - ni)%N ->
  (2 ^ (b + lam) - 2 ^ lam < size (h_query pk) <= 2 ^ (b + lam))%N ->
  size (q_a q) = (2 ^ (b + lam))%N -> size (q_b q) = (2 ^ (b + lam))%N ->
  size (q_c q) = (2 ^ (b + lam))%N -> q_domain q = dom ->
  (* the dealer *)
  pack_key dbg pp pk = Ok crs -> qap_pss dbg pp q rq = Ok qs ->
  (forall i, (i < 3)%N -> fft_masks dbg pp true (d_gen d2) (d_gen_inv dom) (2 ^ (b + lam))
                            (fun p => nth (no_mask F) (fm p) i)) ->
  (forall i, (3 <= i < 6)%N -> fft_masks dbg pp false 1 (d_gen dom) (2 ^ (b + lam))
                            (fun p => nth (no_mask F) (fm p) i)) ->
  degred_masks dbg pp (gen : Fm F) (2 ^ b) dm ->
  (forall i, (i < 4)%N -> msm_masks dbg pp g1 (fun p => nth (msm_mask_zero T1) (g1m p) i)) ->
  msm_masks dbg pp g2 g2m ->
  sharing (T := Fm F) pp (2 * 2 ^ lam) rsh (nseq (2 ^ lam) r) ->
  sharing (T := Fm F) pp (2 * 2 ^ lam) ssh (nseq (2 ^ lam) s) ->
  (forall p, (p < p_n pp)%N -> rsh`_p = 0) \/ (forall p, (p < p_n pp)%N -> rsh`_p != 0) ->
  (* what the parties use as witness shares *)
  let m := div_ceil (nz - 1) (2 ^ lam) in let mx := div_ceil (nz - ni) (2 ^ lam) in
  (forall p, (p < p_n pp)%N -> size (a p) = m) -> (forall p, (p < p_n pp)%N -> size (ax p) = mx) ->
  let yA := products (fun p => k_s (nth k0 crs p)) a m in
  let yB1 := products (fun p => k_h (nth k0 crs p)) a m in
  let yB := products (fun p => k_v (nth k0 crs p)) a m in
  let yW := products (fun p => k_w (nth k0 crs p)) ax mx in
  (dbg -> [/\ imbalance pp yA = 0, rsh`_0 != 0 -> imbalance pp yB1 = 0, imbalance pp yB = 0 &
              imbalance pp yW = 0]) ->
  exists (QA QB QC : {poly F}) (out : nat -> T1 * T2 * T1), [/\
    [/\ interpolates (d_gen dom) (2 ^ (b + lam)) (q_a q) QA,
        interpolates (d_gen dom) (2 ^ (b + lam)) (q_b q) QB &
        interpolates (d_gen dom) (2 ^ (b + lam)) (q_c q) QC],
    (2 * 2 ^ (b + lam))%N.-primitive_root (d_gen d2), d_gen d2 ^+ 2 = d_gen dom,
    party_yields (p_n pp) true (fun ords p =>
      dsha256 dbg pp (p_n pp) p cF c1 c2 (nth k0 crs p) (nth q qs p) (a p) (ax p)
              rsh`_p ssh`_p (fm p) (dm p) (g1m p) (g2m p) ords rs) out &
    let A := pk_alpha_g1 pk + (a_query pk)`_0 + \sum_(j < 2 ^ lam) interpolated pp yA j
             + r *: pk_delta_g1 pk in
    let B1 := pk_beta_g1 pk + (b_g1_query pk)`_0 + \sum_(j < 2 ^ lam) interpolated pp yB1 j
             + s *: pk_delta_g1 pk in
    let B := pk_beta_g2 pk + (b_g2_query pk)`_0 + \sum_(j < 2 ^ lam) interpolated pp yB j
             + s *: pk_delta_g2 pk in
    let C := s *: A + r *: B1 - (r * s) *: pk_delta_g1 pk
             + \sum_(j < 2 ^ lam) interpolated pp yW j
             + \sum_(i < 2 ^ (b + lam)) (QA * QB - QC).[d_gen d2 ^+ (2 * i + 1)] *: (h_query pk)`_i in
    collect_proof dbg pp (mkseq out (p_n pp)) = Ok (A, B, C)].
Proof. exact: c78_prover. Qed.
Print Assumptions C78_prover.

(** C78: what the client obtains if party [q] returns [v].  The client of a release build obtains a
    proof with the errors multiplied by the weight of [q]; that of a debug build panics. *)
Theorem C78_client (F : fftField) (T1 T2 : lmodType F) lam (pp : pss F) (out : nat -> T1 * T2 * T1)
    proof q v :
  pss_new F false (2 ^ lam) = Ok pp -> (q < p_n pp)%N ->
  collect_proof false pp (mkseq out (p_n pp)) = Ok proof ->
  let w := weight pp q 0 in
  collect_proof false pp (mkseq (replaced out q v) (p_n pp)) =
  Ok (proof.1.1 + w *: (v.1.1 - (out q).1.1), proof.1.2 + w *: (v.1.2 - (out q).1.2),
      proof.2 + w *: (v.2 - (out q).2)) /\
  (ff_generator F ^+ p_n pp != 1 -> w != 0).
Proof. exact: c78_client. Qed.
Print Assumptions C78_client.

Theorem C78_client_debug (F : fftField) (T1 T2 : lmodType F) lam (pp : pss F) (out : nat -> T1 * T2 * T1)
    proof q v :
  pss_new F true (2 ^ lam) = Ok pp -> (q < p_n pp)%N ->
  collect_proof true pp (mkseq out (p_n pp)) = Ok proof -> v != out q ->
  collect_proof true pp (mkseq (replaced out q v) (p_n pp)) = Panic.
Proof. exact: c78_client_debug. Qed.
Print Assumptions C78_client_debug.

(** C78: the verdict on a proof that differs from an accepted one. *)
Theorem C78_verdict (F : fftField) (T1 T2 T3 : lmodType F) (e : T1 -> T2 -> T3) vk public
    (A dA : T1) (B dB : T2) (C dC : T1) :
  bilinear_map e -> accepts e vk public (A, B, C) ->
  (accepts e vk public (A + dA, B + dB, C + dC) <->
   e dA B + e A dB + e dA dB = e dC (vk_delta_g2 vk)).
Proof. exact: c78_verdict. Qed.
Print Assumptions C78_verdict.

(** C78: every single party can make the verifier reject, by adding anything to its share of C; all
    constraints of the circuit are satisfied and everybody else does what they should. *)
Theorem C78_denial (F : fftField) (T1 T2 T3 : lmodType F) (e : T1 -> T2 -> T3) lam b (pp : pss F) dom d2
    (cF : codec F) (c1 : codec T1) (c2 : codec T2) mb mb1 mb2
    (cs : r1cs F) (z : seq F) (alpha beta gamma delta t : F) (g1 : T1) (g2 : T2)
    rf (r1 : nat -> rng T1) (r2 : nat -> rng T2) gen1 gen2 test_rng (r s : F) (rs : nat -> rng F) i0 :
  bilinear_map e -> (forall x, e x g2 = 0 -> x = 0) ->
  pss_new F false (2 ^ lam) = Ok pp -> ff_generator F ^+ p_n pp != 1 -> (0 < b + lam)%N ->
  domain_new F (2 ^ (b + lam)) = Some dom -> domain_new F (2 * 2 ^ (b + lam)) = Some d2 ->
  codec_ok cF mb -> codec_ok c1 mb1 -> codec_ok c2 mb2 -> (2 ^ b < 256 ^ 8)%N ->
  well_formed cs (size z) -> z`_0 = 1 ->
  least_pow2 (cm_num_constraints (r1_matrices cs) + num_instance_variables (r1_matrices cs))
             (2 ^ (b + lam)) ->
  gamma != 0 -> delta != 0 ->
  satisfied cs z ->
  exists pk vk ins (out : nat -> T1 * T2 * T1) proof, [/\
    setup cs (size z) alpha beta gamma delta t g1 g2 = Ok (pk, vk),
    deal_inputs false pp rf r1 r2 gen1 gen2 test_rng pk (r1_matrices cs) z r s = Ok ins,
    party_yields (p_n pp) false
      (fun ords p => run_party false pp cF c1 c2 (nth i0 ins p) ords rs p) out,
    collect_proof false pp (mkseq out (p_n pp)) = Ok proof /\ accepts e vk (public_part cs z) proof &
    forall q x, (q < p_n pp)%N -> exists2 proof',
      collect_proof false pp (mkseq (replaced out q ((out q).1, (out q).2 + x)) (p_n pp)) = Ok proof' &
      (accepts e vk (public_part cs z) proof' <-> x = 0)].
Proof. exact: c78_denial. Qed.
Print Assumptions C78_denial.

(** C78: one party that uses other witness shares, everybody else has the shares of the witness [z].
    The client obtains the honest proof with errors [dA], [dB1], [dB], [dW] in the four inner
    products, all multiples of the sum of the weights of this party. *)
Theorem C78_one_party (F : fftField) (T1 T2 : lmodType F) lam b (pp : pss F) dom d2
    (cF : codec F) (c1 : codec T1) (c2 : codec T2) mb mb1 mb2
    (pk : proving_key T1 T2) (z : seq F) (ni : nat) (q : qap_t F)
    (ra rax rq : rng F) k0 crs a ax qs
    (fm : nat -> seq (fft_mask F)) (gen : F) dm (g1 : T1) g1m (g2 : T2) g2m
    (rsh ssh : seq F) (r s : F) (rs : nat -> rng F) u va vax :
  pss_new F false (2 ^ lam) = Ok pp -> domain_new F (2 ^ (b + lam)) = Some dom ->
  domain_new F (2 * 2 ^ (b + lam)) = Some d2 ->
  codec_ok cF mb -> codec_ok c1 mb1 -> codec_ok c2 mb2 -> (2 ^ b < 256 ^ 8)%N ->
  (* the key belongs to the circuit *)
  (0 < ni <= size z)%N -> size (a_query pk) = size z -> size (b_g1_query pk) = size z ->
  size (b_g2_query pk) = size z -> size (l_query pk) = (size z - ni)%N ->
  (2 ^ (b + lam) - 2 ^ lam < size (h_query pk) <= 2 ^ (b + lam))%N ->
  size (q_a q) = (2 ^ (b + lam))%N -> size (q_b q) = (2 ^ (b + lam))%N ->
  size (q_c q) = (2 ^ (b + lam))%N -> q_domain q = dom ->
  (* the dealer *)
  pack_key false pp pk = Ok crs -> pack_from_witness false pp (drop 1 z) ra = Ok a ->
  pack_from_witness false pp (drop ni z) rax = Ok ax -> qap_pss false pp q rq = Ok qs ->
  (forall i, (i < 3)%N -> fft_masks false pp true (d_gen d2) (d_gen_inv dom) (2 ^ (b + lam))
                            (fun p => nth (no_mask F) (fm p) i)) ->
  (forall i, (3 <= i < 6)%N -> fft_masks false pp false 1 (d_gen dom) (2 ^ (b + lam))
                            (fun p => nth (no_mask F) (fm p) i)) ->
  degred_masks false pp (gen : Fm F) (2 ^ b) dm ->
  (forall i, (i < 4)%N -> msm_masks false pp g1 (fun p => nth (msm_mask_zero T1) (g1m p) i)) ->
  msm_masks false pp g2 g2m ->
  sharing (T := Fm F) pp (2 * 2 ^ lam) rsh (nseq (2 ^ lam) r) ->
  sharing (T := Fm F) pp (2 * 2 ^ lam) ssh (nseq (2 ^ lam) s) ->
  (forall p, (p < p_n pp)%N -> rsh`_p = 0) \/ (forall p, (p < p_n pp)%N -> rsh`_p != 0) ->
  (* party [u] uses [va] and [vax] *)
  (u < p_n pp)%N -> size va = size (nth [::] a u) -> size vax = size (nth [::] ax u) ->
  let w := \sum_(j < 2 ^ lam) weight pp u j in
  let err (T : lmodType F) (bs : seq T) (v : seq F) (sh : seq (seq F)) : T :=
    w *: \sum_(e < size v) (v`_e - (nth [::] sh u)`_e) *: bs`_e in
  let dA := err T1 (k_s (nth k0 crs u)) va a in let dB1 := err T1 (k_h (nth k0 crs u)) va a in
  let dB := err T2 (k_v (nth k0 crs u)) va a in let dW := err T1 (k_w (nth k0 crs u)) vax ax in
  exists (QA QB QC : {poly F}) (out : nat -> T1 * T2 * T1), [/\
    [/\ interpolates (d_gen dom) (2 ^ (b + lam)) (q_a q) QA,
        interpolates (d_gen dom) (2 ^ (b + lam)) (q_b q) QB &
        interpolates (d_gen dom) (2 ^ (b + lam)) (q_c q) QC],
    (2 * 2 ^ (b + lam))%N.-primitive_root (d_gen d2), d_gen d2 ^+ 2 = d_gen dom,
    party_yields (p_n pp) true (fun ords p =>
      dsha256 false pp (p_n pp) p cF c1 c2 (nth k0 crs p) (nth q qs p)
              (replaced (nth [::] a) u va p) (replaced (nth [::] ax) u vax p)
              rsh`_p ssh`_p (fm p) (dm p) (g1m p) (g2m p) ords rs) out &
    let A := pk_alpha_g1 pk + (a_query pk)`_0 + \sum_(1 <= i < size z) z`_i *: (a_query pk)`_i
             + r *: pk_delta_g1 pk in
    let B1 := pk_beta_g1 pk + (b_g1_query pk)`_0 + \sum_(1 <= i < size z) z`_i *: (b_g1_query pk)`_i
             + s *: pk_delta_g1 pk in
    let B := pk_beta_g2 pk + (b_g2_query pk)`_0 + \sum_(1 <= i < size z) z`_i *: (b_g2_query pk)`_i
             + s *: pk_delta_g2 pk in
    let C := s *: A + r *: B1 - (r * s) *: pk_delta_g1 pk
             + \sum_(i < size z - ni) z`_(ni + i) *: (l_query pk)`_i
             + \sum_(i < 2 ^ (b + lam)) (QA * QB - QC).[d_gen d2 ^+ (2 * i + 1)] *: (h_query pk)`_i in
    collect_proof false pp (mkseq out (p_n pp)) =
    Ok (A + dA, B + dB, C + (s *: dA + r *: dB1 + dW))].
Proof. exact: c78_one_party. Qed.
Print Assumptions C78_one_party.

