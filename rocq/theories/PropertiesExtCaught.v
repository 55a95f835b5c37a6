(** Property theorems only; proofs are in ExtCaughtThm.v. *)
From mathcomp Require Import all_ssreflect all_algebra.
From mathcomp Require Import zify.
From Verif Require Import Base ModelField ModelUtils ModelPss ModelPack ModelFft ModelNet.
From Verif Require Import ModelProto ModelQap ModelProve Spec SpecNet SpecProto SpecTamper SpecExtCaught.
From Verif Require Import NetProofs JoinProofs KingProofs RoundProofs LogProofs PartyProofs.
From Verif Require Import FieldProofs UtilsProofs PssProofs PackProofs FftProofs ProtoProofs DegProofs.
From Verif Require Import NetThm PssThm ProtoThm QapProofs ExtProofs GrothThm ProveProofs ProveThm.
From Verif Require Import KingFail TamperProofs TamperFft TamperThm ProveTamperThm ExtTamperThm.
Set Implicit Arguments.
Unset Strict Implicit.
Unset Printing Implicit Defensive.
Import GRing.Theory.
Local Open Scope ring_scope.
Local Notation Fm F := [lmodType F of F^o].
From Verif Require Import ExtCaughtThm.

(** C79: [circom_h] in debug builds, if some entry of the parties' vectors is not balanced: no party
    ever gets a result, and the king can always be brought to panic in one of the three inverse
    transforms, whatever has happened before. *)
Theorem C79_circom_caught (F : fftField) lam b (pp : pss F) dom d2 (cF : codec F) mb
    (q : nat -> qap_t F) (masks : nat -> seq (fft_mask F)) (dmasks : nat -> degred_mask (Fm F))
    (r : nat -> rng F) ords :
  pss_new F true (2 ^ lam) = Ok pp -> domain_new F (2 ^ (b + lam)) = Some dom ->
  domain_new F (2 * 2 ^ (b + lam)) = Some d2 -> codec_ok cF mb -> (2 ^ b < 256 ^ 8)%N ->
  (forall i, (i < 3)%N -> fft_masks true pp true (d_gen d2) (d_gen_inv dom) (2 ^ (b + lam))
                            (fun p => nth (no_mask F) (masks p) i)) ->
  (forall p, (p < p_n pp)%N -> q_domain (q p) = dom) ->
  (forall p, (p < p_n pp)%N ->
    [/\ size (q_a (q p)) = (2 ^ b)%N, size (q_b (q p)) = (2 ^ b)%N & size (q_c (q p)) = (2 ^ b)%N]) ->
  (exists2 e, (e < 2 ^ b)%N &
    [\/ imbalance (T := Fm F) pp (entry (T := Fm F) (fun p => q_a (q p)) e) != 0,
        imbalance (T := Fm F) pp (entry (T := Fm F) (fun p => q_b (q p)) e) != 0 |
        imbalance (T := Fm F) pp (entry (T := Fm F) (fun p => q_c (q p)) e) != 0]) ->
  (forall i, hash_ok (ords i)) ->
  king_panics_first (mkseq (fun p =>
    circom_h true pp (p_n pp) p ords cF (q p) (masks p) (dmasks p) r) (p_n pp)).
Proof. exact: c79_circom_caught. Qed.
Print Assumptions C79_circom_caught.

(** C79: the same of [libsnark_h] *)
Theorem C79_libsnark_caught (F : fftField) lam b (pp : pss F) dom (cF : codec F) mb
    (q : nat -> qap_t F) (masks : nat -> seq (fft_mask F)) (r : nat -> rng F) ords :
  pss_new F true (2 ^ lam) = Ok pp -> domain_new F (2 ^ (b + lam)) = Some dom ->
  codec_ok cF mb -> (2 ^ b < 256 ^ 8)%N ->
  (forall i, (i < 3)%N -> fft_masks true pp true (ff_generator F) (d_gen_inv dom) (2 ^ (b + lam))
                            (fun p => nth (no_mask F) (masks p) i)) ->
  (forall p, (p < p_n pp)%N -> q_domain (q p) = dom) ->
  (forall p, (p < p_n pp)%N ->
    [/\ size (q_a (q p)) = (2 ^ b)%N, size (q_b (q p)) = (2 ^ b)%N & size (q_c (q p)) = (2 ^ b)%N]) ->
  (exists2 e, (e < 2 ^ b)%N &
    [\/ imbalance (T := Fm F) pp (entry (T := Fm F) (fun p => q_a (q p)) e) != 0,
        imbalance (T := Fm F) pp (entry (T := Fm F) (fun p => q_b (q p)) e) != 0 |
        imbalance (T := Fm F) pp (entry (T := Fm F) (fun p => q_c (q p)) e) != 0]) ->
  (forall i, hash_ok (ords i)) ->
  king_panics_first (mkseq (fun p =>
    libsnark_h true pp (p_n pp) p ords cF (q p) (masks p) r) (p_n pp)).
Proof. exact: c79_libsnark_caught. Qed.
Print Assumptions C79_libsnark_caught.

(** C79: the prover in debug builds, with any vectors as shares of the key, of the QAP and of the
    witness: if an entry of the QAP shares or one of the four vectors of inner products that the
    parties send is not balanced, no party ever gets a share of a proof, and the king can always be
    brought to panic.  With r = 0 the second product is not computed. *)
Theorem C79_prover_caught (F : fftField) (T1 T2 : lmodType F) lam b (pp : pss F) dom d2
    (cF : codec F) (c1 : codec T1) (c2 : codec T2) mb mb1 mb2 (q : nat -> qap_t F)
    (crs : nat -> key_share T1 T2) (a ax : nat -> seq F)
    (fm : nat -> seq (fft_mask F)) (gen : F) dm (g1 : T1) g1m (g2 : T2) g2m
    (r s : nat -> F) (rs : nat -> rng F) ords m mx :
  pss_new F true (2 ^ lam) = Ok pp -> domain_new F (2 ^ (b + lam)) = Some dom ->
  domain_new F (2 * 2 ^ (b + lam)) = Some d2 ->
  codec_ok cF mb -> codec_ok c1 mb1 -> codec_ok c2 mb2 -> (2 ^ b < 256 ^ 8)%N ->
  (forall i, (i < 3)%N -> fft_masks true pp true (d_gen d2) (d_gen_inv dom) (2 ^ (b + lam))
                            (fun p => nth (no_mask F) (fm p) i)) ->
  (forall i, (3 <= i < 6)%N -> fft_masks true pp false 1 (d_gen dom) (2 ^ (b + lam))
                            (fun p => nth (no_mask F) (fm p) i)) ->
  degred_masks true pp (gen : Fm F) (2 ^ b) dm ->
  (forall i, (i < 4)%N -> msm_masks true pp g1 (fun p => nth (msm_mask_zero T1) (g1m p) i)) ->
  msm_masks true pp g2 g2m ->
  (forall p, (p < p_n pp)%N -> q_domain (q p) = dom) ->
  (forall p, (p < p_n pp)%N ->
    [/\ size (q_a (q p)) = (2 ^ b)%N, size (q_b (q p)) = (2 ^ b)%N & size (q_c (q p)) = (2 ^ b)%N]) ->
  (forall p, (p < p_n pp)%N ->
    [/\ size (k_s (crs p)) = m, size (k_h (crs p)) = m, size (k_v (crs p)) = m & size (a p) = m]) ->
  (forall p, (p < p_n pp)%N -> size (k_w (crs p)) = mx /\ size (ax p) = mx) ->
  (forall p, (p < p_n pp)%N -> r p = 0) \/ (forall p, (p < p_n pp)%N -> r p != 0) ->
  [\/ exists2 e, (e < 2 ^ b)%N &
      [\/ imbalance (T := Fm F) pp (entry (T := Fm F) (fun p => q_a (q p)) e) != 0,
          imbalance (T := Fm F) pp (entry (T := Fm F) (fun p => q_b (q p)) e) != 0 |
          imbalance (T := Fm F) pp (entry (T := Fm F) (fun p => q_c (q p)) e) != 0],
      imbalance pp (products (fun p => k_s (crs p)) a m) != 0,
      r 0%N != 0 /\ imbalance pp (products (fun p => k_h (crs p)) a m) != 0 |
      imbalance pp (products (fun p => k_v (crs p)) a m) != 0 \/
      imbalance pp (products (fun p => k_w (crs p)) ax mx) != 0] ->
  (forall i, hash_ok (ords i)) ->
  king_panics_first (mkseq (fun p =>
    dsha256 true pp (p_n pp) p cF c1 c2 (crs p) (q p) (a p) (ax p) (r p) (s p) (fm p) (dm p)
            (g1m p) (g2m p) ords rs) (p_n pp)).
Proof. exact: c79_prover_caught. Qed.
Print Assumptions C79_prover_caught.

(** C79: any other vectors of a single party are unbalanced, whatever the degree of the sharings below
    n: with the theorems above, one wrong share of the QAP stops every protocol of a debug build. *)
Theorem C79_one_party_unbalanced (F : fftField) lam b (pp : pss F) deg (q : nat -> qap_t F) sa sb sc u
    (qu : qap_t F) :
  pss_new F true (2 ^ lam) = Ok pp -> (deg <= (p_n pp).-1)%N -> (u < p_n pp)%N ->
  vsharing (T := Fm F) pp deg (2 ^ b) (fun p => q_a (q p)) sa ->
  vsharing (T := Fm F) pp deg (2 ^ b) (fun p => q_b (q p)) sb ->
  vsharing (T := Fm F) pp deg (2 ^ b) (fun p => q_c (q p)) sc ->
  size (q_a qu) = (2 ^ b)%N -> size (q_b qu) = (2 ^ b)%N -> size (q_c qu) = (2 ^ b)%N ->
  [|| q_a qu != q_a (q u), q_b qu != q_b (q u) | q_c qu != q_c (q u)] ->
  let q' p := if p == u then qu else q p in
  exists2 e, (e < 2 ^ b)%N &
    [\/ imbalance (T := Fm F) pp (entry (T := Fm F) (fun p => q_a (q' p)) e) != 0,
        imbalance (T := Fm F) pp (entry (T := Fm F) (fun p => q_b (q' p)) e) != 0 |
        imbalance (T := Fm F) pp (entry (T := Fm F) (fun p => q_c (q' p)) e) != 0].
Proof. exact: c79_one_party_unbalanced. Qed.
Print Assumptions C79_one_party_unbalanced.

