(** Property theorems only; proofs are in ProveThm.v. *)
From mathcomp Require Import all_ssreflect all_algebra.
From mathcomp Require Import zify.
From Verif Require Import RingTac Base ModelField ModelUtils ModelPss ModelPack ModelFft ModelNet.
From Verif Require Import ModelProto ModelQap ModelProve Spec SpecNet SpecProto SpecGroth.
From Verif Require Import NetProofs KingProofs NetThm PartyProofs.
From Verif Require Import FieldProofs UtilsProofs PssProofs PackProofs FftProofs ProtoProofs DegProofs.
From Verif Require Import PssThm ProtoThm QapProofs ExtProofs GrothThm ProveProofs.
From Verif Require Import ExampleField ExamplesNet.
Set Implicit Arguments.
Unset Strict Implicit.
Unset Printing Implicit Defensive.
Import GRing.Theory.
Local Open Scope ring_scope.
Local Notation Fm F := [lmodType F of F^o].
From Verif Require Import ProveThm.

(** C38: the shares of the proving key. *)
Theorem C38_pack_key (F : fftField) (T1 T2 : lmodType F) (dbg : bool) lam (pp : pss F)
    (pk : proving_key T1 T2) :
  pss_new F dbg (2 ^ lam) = Ok pp ->
  (0 < size (a_query pk))%N -> (0 < size (b_g1_query pk))%N -> (0 < size (b_g2_query pk))%N ->
  (dbg -> all (fun k => 2 ^ lam %| k)%N (shared_lengths pk)) ->
  exists out, pack_key dbg pp pk = Ok (mkseq out (p_n pp)) /\ packed_key pp pk out.
Proof. exact: c38_pack_key. Qed.
Print Assumptions C38_pack_key.

(** C38: in debug builds the lengths must be multiples of [l]. *)
Theorem C38_debug_panic (F : fftField) (T1 T2 : lmodType F) lam (pp : pss F) (pk : proving_key T1 T2) :
  pss_new F true (2 ^ lam) = Ok pp -> ~~ all (fun k => 2 ^ lam %| k)%N (shared_lengths pk) ->
  pack_key true pp pk = Panic.
Proof. exact: c38_debug_panic. Qed.
Print Assumptions C38_debug_panic.

(** C39: the whole prover, from the dealer's inputs to the client's reconstruction. *)
Theorem C39_prover (F : fftField) (T1 T2 : lmodType F) (dbg : bool) lam b (pp : pss F) dom d2
    (cF : codec F) (c1 : codec T1) (c2 : codec T2) mb mb1 mb2
    (pk : proving_key T1 T2) (z : seq F) (ni : nat) (q : qap_t F)
    (ra rax rq : rng F) k0 crs a ax qs
    (fm : nat -> seq (fft_mask F)) (gen : F) dm (g1 : T1) g1m (g2 : T2) g2m
    (rsh ssh : seq F) (r s : F) (rs : nat -> rng F) :
  pss_new F dbg (2 ^ lam) = Ok pp -> domain_new F (2 ^ (b + lam)) = Some dom ->
  domain_new F (2 * 2 ^ (b + lam)) = Some d2 ->
  codec_ok cF mb -> codec_ok c1 mb1 -> codec_ok c2 mb2 -> (2 ^ b < 256 ^ 8)%N ->
  (* the key belongs to the circuit *)
  (0 < ni <= size z)%N -> size (a_query pk) = size z -> size (b_g1_query pk) = size z ->
  size (b_g2_query pk) = size z -> size (l_query pk) = (size z - ni)%N ->
  (2 ^ (b + lam) - 2 ^ lam < size (h_query pk) <= 2 ^ (b + lam))%N ->
  size (q_a q) = (2 ^ (b + lam))%N -> size (q_b q) = (2 ^ (b + lam))%N ->
  size (q_c q) = (2 ^ (b + lam))%N -> q_domain q = dom ->
  (* the dealer *)
  pack_key dbg pp pk = Ok crs -> pack_from_witness dbg pp (drop 1 z) ra = Ok a ->
  pack_from_witness dbg pp (drop ni z) rax = Ok ax -> qap_pss dbg pp q rq = Ok qs ->
  (forall i, (i < 3)%N -> fft_masks dbg pp true (d_gen d2) (d_gen_inv dom) (2 ^ (b + lam))
                            (fun p => nth (no_mask F) (fm p) i)) ->
  (forall i, (3 <= i < 6)%N -> fft_masks dbg pp false 1 (d_gen dom) (2 ^ (b + lam))
                            (fun p => nth (no_mask F) (fm p) i)) ->
  degred_masks dbg pp (gen : Fm F) (2 ^ b) dm ->
  (forall i, (i < 4)%N -> msm_masks dbg pp g1 (fun p => nth (msm_mask_zero T1) (g1m p) i)) ->
  msm_masks dbg pp g2 g2m ->
  sharing (T := Fm F) pp (2 * 2 ^ lam) rsh (nseq (2 ^ lam) r) ->
  sharing (T := Fm F) pp (2 * 2 ^ lam) ssh (nseq (2 ^ lam) s) ->
  (* either all or none of the shares of r are zero, see C40 *)
  (forall p, (p < p_n pp)%N -> rsh`_p = 0) \/ (forall p, (p < p_n pp)%N -> rsh`_p != 0) ->
  exists (QA QB QC : {poly F}) (out : nat -> T1 * T2 * T1), [/\
    [/\ interpolates (d_gen dom) (2 ^ (b + lam)) (q_a q) QA,
        interpolates (d_gen dom) (2 ^ (b + lam)) (q_b q) QB &
        interpolates (d_gen dom) (2 ^ (b + lam)) (q_c q) QC],
    (2 * 2 ^ (b + lam))%N.-primitive_root (d_gen d2), d_gen d2 ^+ 2 = d_gen dom,
    party_yields (p_n pp) false (fun ords p =>
      dsha256 dbg pp (p_n pp) p cF c1 c2 (nth k0 crs p) (nth q qs p) (nth [::] a p) (nth [::] ax p)
              rsh`_p ssh`_p (fm p) (dm p) (g1m p) (g2m p) ords rs) out &
    let A := pk_alpha_g1 pk + (a_query pk)`_0 + \sum_(1 <= i < size z) z`_i *: (a_query pk)`_i
             + r *: pk_delta_g1 pk in
    let B1 := pk_beta_g1 pk + (b_g1_query pk)`_0 + \sum_(1 <= i < size z) z`_i *: (b_g1_query pk)`_i
             + s *: pk_delta_g1 pk in
    let B := pk_beta_g2 pk + (b_g2_query pk)`_0 + \sum_(1 <= i < size z) z`_i *: (b_g2_query pk)`_i
             + s *: pk_delta_g2 pk in
    let C := s *: A + r *: B1 - (r * s) *: pk_delta_g1 pk
             + \sum_(i < size z - ni) z`_(ni + i) *: (l_query pk)`_i
             + \sum_(i < 2 ^ (b + lam)) (QA * QB - QC).[d_gen d2 ^+ (2 * i + 1)] *: (h_query pk)`_i in
    [/\ reconstruct dbg pp (mkseq (fun p => (out p).1.1) (p_n pp)) = Ok A,
        reconstruct dbg pp (mkseq (fun p => (out p).1.2) (p_n pp)) = Ok B &
        reconstruct dbg pp (mkseq (fun p => (out p).2) (p_n pp)) = Ok C]].
Proof. exact: c39_prover. Qed.
Print Assumptions C39_prover.

(** C39: the shares of r and s handed out by the sha256 example (release builds) satisfy the
    hypotheses. *)
Theorem C39_example_randomness (F : fftField) lam (pp : pss F) (x : F) (r : rng F) sh :
  pss_new F false (2 ^ lam) = Ok pp ->
  pack (T := Fm F) false pp (nseq (p_n pp) x) r = Ok sh ->
  sharing (T := Fm F) pp (2 * 2 ^ lam) sh (nseq (2 ^ lam) x) /\
  ((forall p, (p < p_n pp)%N -> sh`_p = 0) \/ (forall p, (p < p_n pp)%N -> sh`_p != 0)).
Proof. exact: c39_example_randomness. Qed.
Print Assumptions C39_example_randomness.

(** C40: for every r and every party there is randomness of the dealer for which this party's
    share of r is zero; this party then returns the neutral element and sends nothing. *)
Theorem C40_zero_share (F : fftField) (T : lmodType F) dbg lam (pp : pss F) (r : F) p :
  pss_new F dbg (2 ^ lam) = Ok pp -> ff_generator F ^+ p_n pp != 1 -> (p < p_n pp)%N ->
  exists2 rands : seq F, size rands = p_t pp & exists2 shares : seq F,
    pack_pts (T := Fm F) dbg pp (nseq (p_l pp) r) rands = Ok shares &
    shares`_p = 0 /\
    forall (cT : codec T) Z K BG1 H a s ord mask,
      compute_B1 dbg pp (p_n pp) p cT Z K BG1 H a s shares`_p ord mask = CRet (Ok 0).
Proof. exact: c40_zero_share. Qed.
Print Assumptions C40_zero_share.

(** C40: the claim is false.  r = 5 is dealt with randomness (2, 8), the share of party 3 is zero.
    All eight parties end normally, and the client reconstructs a wrong B in G2. *)
Theorem C40_all_take_part_refuted : exists (rands : seq nat) (s : seq action) (d : cfg (F17 * F17)) vs,
  let b2 := (7%:R + 2%:R + (5%:R * 4%:R + 7%:R * 9%:R) + 3%:R * 6%:R : F17) in
  [/\ sharing (T := T17) pp2 4 (deal17 [:: 5; 5]%N rands) [:: 5%:R; 5%:R],
      all clean s,
      run s (init (mkseq (b1_b2 (deal17 [:: 5; 5]%N rands) (deal17 [:: 3; 3]%N [:: 1; 4]%N)) 8)) = Some d,
      second_results (procs d) = Some vs &
      exists2 v, reconstruct (T := T17) false pp2 vs = Ok v & v != b2].
Proof. exact: c40_all_take_part_refuted. Qed.
Print Assumptions C40_all_take_part_refuted.

