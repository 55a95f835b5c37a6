(** Property theorems only; proofs are in RefThm.v. *)
From mathcomp Require Import all_ssreflect all_algebra.
From mathcomp Require Import zify.
From Verif Require Import Base ModelField ModelUtils ModelPss ModelPack ModelFft ModelNet ModelProto ModelQap.
From Verif Require Import ModelTests Spec SpecNet SpecProto SpecGroth.
From Verif Require Import KingProofs FieldProofs UtilsProofs PssProofs PackProofs FftProofs.
From Verif Require Import ProtoProofs DegProofs ProtoThm ExtProofs GrothThm TestsThm.
Set Implicit Arguments.
Unset Strict Implicit.
Unset Printing Implicit Defensive.
Import GRing.Theory.
Local Open Scope ring_scope.
Local Notation Fm F := [lmodType F of F^o].
From Verif Require Import RefThm.

(** C68: the reference of the tests: the polynomial that has the values of the quotient on the coset;
    for a satisfied QAP the quotient itself. *)
Theorem C68_libsnark_ref (F : fftField) b lam dom (va vb vc : seq F) (N := (2 ^ (b + lam))%N)
    (g := ff_generator F) :
  domain_new F N = Some dom -> size va = N -> size vb = N -> size vc = N -> g ^+ N != 1 ->
  exists (A B C : {poly F}) (hc : seq F), [/\
    [/\ interpolates (d_gen dom) N va A, interpolates (d_gen dom) N vb B &
        interpolates (d_gen dom) N vc C],
    libsnark_ref dom va vb vc = Ok hc, size hc = N,
    forall i, (i < N)%N -> let x := g * d_gen dom ^+ i in
      (A * B - C).[x] = (Poly hc).[x] * (x ^+ N - 1) &
    (forall i, va`_i * vb`_i = vc`_i) -> A * B - C = Poly hc * ('X^N - 1)].
Proof. exact: c68_libsnark_ref. Qed.
Print Assumptions C68_libsnark_ref.

(** C68: the other reference: the values on the odd powers of the root of double order. *)
Theorem C68_circom_ref (F : fftField) b lam dom d2 (va vb vc : seq F) (N := (2 ^ (b + lam))%N) :
  domain_new F N = Some dom -> domain_new F (2 * N) = Some d2 ->
  size va = N -> size vb = N -> size vc = N ->
  exists (A B C : {poly F}), [/\
    [/\ interpolates (d_gen dom) N va A, interpolates (d_gen dom) N vb B &
        interpolates (d_gen dom) N vc C],
    (2 * N)%N.-primitive_root (d_gen d2) &
    circom_ref dom va vb vc = Ok (mkseq (fun i => (A * B - C).[d_gen d2 ^+ (2 * i + 1)]) N)].
Proof. exact: c68_circom_ref. Qed.
Print Assumptions C68_circom_ref.

(** C68: [libsnark_dummy_ext_witness], for any three vectors: the parties hold shares of what the
    reference computes. *)
Theorem C68_libsnark_test (F : fftField) dbg lam b (pp : pss F) dom (cF : codec F) mb (q : qap_t F)
    (masks : nat -> seq (fft_mask F)) (r0 : rng F) (r : nat -> rng F) :
  pss_new F dbg (2 ^ lam) = Ok pp -> domain_new F (2 ^ (b + lam)) = Some dom ->
  codec_ok cF mb -> (2 ^ b < 256 ^ 8)%N ->
  ff_generator F ^+ (2 ^ (b + lam)) != 1 ->
  (forall i, (i < 3)%N -> fft_masks dbg pp true (ff_generator F) (d_gen_inv dom) (2 ^ (b + lam))
                            (fun p => nth (no_mask F) (masks p) i)) ->
  (forall i, (3 <= i < 6)%N -> fft_masks dbg pp true 1 (d_gen dom) (2 ^ (b + lam))
                            (fun p => nth (no_mask F) (masks p) i)) ->
  fft_masks dbg pp false (ff_generator F)^-1 (d_gen_inv dom) (2 ^ (b + lam))
                            (fun p => nth (no_mask F) (masks p) 6) ->
  size (q_a q) = (2 ^ (b + lam))%N -> size (q_b q) = (2 ^ (b + lam))%N ->
  size (q_c q) = (2 ^ (b + lam))%N -> q_domain q = dom ->
  exists qs h out, [/\ qap_pss dbg pp q r0 = Ok qs, libsnark_ref dom (q_a q) (q_b q) (q_c q) = Ok h,
    party_yields (p_n pp) false (fun ords p =>
      libsnark_test_party dbg pp (p_n pp) p ords cF (masks p) r qs) out,
    vsharing (T := Fm F) pp (2 * 2 ^ lam) (2 ^ b) out (blocks (T := Fm F) pp h) &
    unpack2_rows dbg pp (mkseq out (p_n pp)) = Ok h /\
    libsnark_check dbg pp dom (q_a q) (q_b q) (q_c q) (mkseq out (p_n pp)) = Ok tt].
Proof. exact: c68_libsnark_test. Qed.
Print Assumptions C68_libsnark_test.

(** C68: [circom_dummy_ext_witness], for any three vectors; [unpack] in place of [unpack2] gives the
    same (the last lines of [ext_witness_circom]). *)
Theorem C68_circom_test (F : fftField) dbg lam b (pp : pss F) dom d2 (cF : codec F) mb (gen : F) (q : qap_t F)
    (masks : nat -> seq (fft_mask F)) (dmasks : nat -> degred_mask (Fm F)) (r0 : rng F) (r : nat -> rng F) :
  pss_new F dbg (2 ^ lam) = Ok pp -> domain_new F (2 ^ (b + lam)) = Some dom ->
  domain_new F (2 * 2 ^ (b + lam)) = Some d2 ->
  codec_ok cF mb -> (2 ^ b < 256 ^ 8)%N ->
  (forall i, (i < 3)%N -> fft_masks dbg pp true (d_gen d2) (d_gen_inv dom) (2 ^ (b + lam))
                            (fun p => nth (no_mask F) (masks p) i)) ->
  (forall i, (3 <= i < 6)%N -> fft_masks dbg pp false 1 (d_gen dom) (2 ^ (b + lam))
                            (fun p => nth (no_mask F) (masks p) i)) ->
  degred_masks dbg pp (gen : Fm F) (2 ^ b) dmasks ->
  size (q_a q) = (2 ^ (b + lam))%N -> size (q_b q) = (2 ^ (b + lam))%N ->
  size (q_c q) = (2 ^ (b + lam))%N -> q_domain q = dom ->
  exists qs h out, [/\ qap_pss dbg pp q r0 = Ok qs, circom_ref dom (q_a q) (q_b q) (q_c q) = Ok h,
    party_yields (p_n pp) false (fun ords p =>
      circom_test_party dbg pp (p_n pp) p ords cF (masks p) r qs (dmasks p)) out,
    vsharing (T := Fm F) pp (2 * 2 ^ lam) (2 ^ b) out (blocks (T := Fm F) pp h) &
    unpack2_rows dbg pp (mkseq out (p_n pp)) = Ok h /\
    unpack_rows pp (mkseq out (p_n pp)) = Ok h /\
    circom_check dbg pp dom (q_a q) (q_b q) (q_c q) (mkseq out (p_n pp)) = Ok tt].
Proof. exact: c68_circom_test. Qed.
Print Assumptions C68_circom_test.

(** C69: the final check of the test accepts results exactly if the vector which they share is that
    of the squares. *)
Theorem C69_check_exact (F : fftField) dbg lam (pp : pss F) (secrets z : seq F) (y : nat -> seq F) k :
  pss_new F dbg (2 ^ lam) = Ok pp -> size secrets = p_l pp -> size z = p_l pp ->
  vsharing (T := Fm F) pp (2 * p_l pp) 1 y (fun _ j => z`_j) ->
  ((if dbg then p_n pp - 1 else 2 * p_l pp) <= k)%N -> (k <= p_n pp)%N ->
  deg_red_check dbg pp secrets (Received (mkseq y k) (iota 0 k)) = Ok tt <->
  z = [seq x ^+ 2 | x <- secrets].
Proof. exact: c69_check_exact. Qed.
Print Assumptions C69_check_exact.

(** C69: [test_deg_red], for any secrets: squared shares give sharings of the squares again.  The
    test reconstructs from the first [k = n - 1] parties; a release build from any [2l] or more. *)
Theorem C69_deg_red_test (F : fftField) dbg lam (pp : pss F) (gen : F) (cF : codec F) mb (secrets : seq F)
    (masks : nat -> degred_mask (Fm F)) (r0 : rng F) (r : nat -> rng F) :
  pss_new F dbg (2 ^ lam) = Ok pp -> codec_ok cF mb -> size secrets = p_l pp ->
  degred_masks dbg pp (gen : Fm F) 1 masks ->
  exists shares (out : nat -> seq F), [/\ deg_red_shares dbg pp secrets r0 = Ok shares,
    vsharing (T := Fm F) pp (2 * p_l pp) 1 out (fun _ j => secrets`_j ^+ 2),
    yields (p_n pp) false (fun ords p =>
      deg_red_party dbg pp (p_n pp) p ords cF r shares (masks p)) out &
    forall k, ((if dbg then p_n pp - 1 else 2 * p_l pp) <= k)%N -> (k <= p_n pp)%N ->
      deg_red_check dbg pp secrets (Received (mkseq out k) (iota 0 k)) = Ok tt].
Proof. exact: c69_deg_red_test. Qed.
Print Assumptions C69_deg_red_test.

(** C67: the final checks of the tests of the transforms accept a list of results exactly if what is
    unpacked from it is right. *)
Theorem C67_checks_exact (F : fftField) k (pp : pss F) dom (v : seq F) (result : seq (seq F)) :
  domain_new F (2 ^ k) = Some dom -> size v = (2 ^ k)%N -> [/\
    d_ifft_works_check pp dom v result = Ok tt <->
      exists c, [/\ unpack_rows pp result = Ok c, size c = (2 ^ k)%N &
                    v = evals (T := Fm F) 1 (d_gen dom) (2 ^ k) c],
    d_fft_works_check pp dom v result = Ok tt <->
      unpack_rows pp result = Ok (evals (T := Fm F) 1 (d_gen dom) (2 ^ k) v) &
    round_trip_check pp v result = Ok tt <-> unpack_rows pp result = Ok v].
Proof. exact: c67_checks_exact. Qed.
Print Assumptions C67_checks_exact.

(** C68: likewise for the tests of the witness extensions. *)
Theorem C68_checks_exact (F : fftField) (dbg : bool) (pp : pss F) dom (va vb vc : seq F) (result : seq (seq F)) :
  (libsnark_check dbg pp dom va vb vc result = Ok tt <->
     exists2 h, libsnark_ref dom va vb vc = Ok h & unpack2_rows dbg pp result = Ok h) /\
  (circom_check dbg pp dom va vb vc result = Ok tt <->
     exists2 h, circom_ref dom va vb vc = Ok h & unpack2_rows dbg pp result = Ok h).
Proof. exact: c68_checks_exact. Qed.
Print Assumptions C68_checks_exact.

