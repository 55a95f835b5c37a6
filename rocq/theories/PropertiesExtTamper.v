(** Property theorems only; proofs are in ExtTamperThm.v. *)
From mathcomp Require Import all_ssreflect all_algebra.
From mathcomp Require Import zify.
From Verif Require Import RingTac Base ModelField ModelUtils ModelPss ModelPack ModelFft ModelNet.
From Verif Require Import ModelProto ModelQap ModelProve ModelMain Spec SpecNet SpecProto SpecGroth.
From Verif Require Import SpecVerify SpecTamper SpecExtTamper.
From Verif Require Import NetProofs KingProofs NetThm PartyProofs.
From Verif Require Import FieldProofs UtilsProofs PssProofs PackProofs FftProofs ProtoProofs DegProofs.
From Verif Require Import PssThm ProtoThm QapProofs ExtProofs GrothThm ProveProofs ProveThm.
From Verif Require Import TamperProofs TamperFft TamperThm ProveTamperThm.
Set Implicit Arguments.
Unset Strict Implicit.
Unset Printing Implicit Defensive.
Import GRing.Theory.
Local Open Scope ring_scope.
Local Notation Fm F := [lmodType F of F^o].
From Verif Require Import ExtTamperThm.

(** C79: whatever vectors the parties use, they determine one vector. *)
Theorem C79_guessed (F : fftField) dbg lam b (pp : pss F) (x : nat -> seq F) :
  pss_new F dbg (2 ^ lam) = Ok pp -> (2 ^ b < 256 ^ 8)%N ->
  exists! v, guessed_strides pp lam b x v.
Proof. exact: c79_guessed. Qed.
Print Assumptions C79_guessed.

(** C79: [circom_h] on any vectors of the right lengths, if nobody crashes.  In release builds all
    parties finish on every schedule, with what C37 says about the vectors that the inputs
    interpolate to.  The same holds in debug builds if the inputs are balanced. *)
Theorem C79_circom_h (F : fftField) dbg lam b (pp : pss F) dom d2 (cF : codec F) mb (gen : F)
    (q : nat -> qap_t F) (masks : nat -> seq (fft_mask F)) (dmasks : nat -> degred_mask (Fm F))
    (r : nat -> rng F) (va vb vc : seq F) :
  pss_new F dbg (2 ^ lam) = Ok pp -> domain_new F (2 ^ (b + lam)) = Some dom ->
  domain_new F (2 * 2 ^ (b + lam)) = Some d2 -> codec_ok cF mb -> (2 ^ b < 256 ^ 8)%N ->
  (forall i, (i < 3)%N -> fft_masks dbg pp true (d_gen d2) (d_gen_inv dom) (2 ^ (b + lam))
                            (fun p => nth (no_mask F) (masks p) i)) ->
  (forall i, (3 <= i < 6)%N -> fft_masks dbg pp false 1 (d_gen dom) (2 ^ (b + lam))
                            (fun p => nth (no_mask F) (masks p) i)) ->
  degred_masks dbg pp (gen : Fm F) (2 ^ b) dmasks ->
  (forall p, (p < p_n pp)%N -> q_domain (q p) = dom) ->
  (forall p, (p < p_n pp)%N ->
    [/\ size (q_a (q p)) = (2 ^ b)%N, size (q_b (q p)) = (2 ^ b)%N & size (q_c (q p)) = (2 ^ b)%N]) ->
  (dbg -> forall e, (e < 2 ^ b)%N ->
    [/\ imbalance (T := Fm F) pp (entry (T := Fm F) (fun p => q_a (q p)) e) = 0,
        imbalance (T := Fm F) pp (entry (T := Fm F) (fun p => q_b (q p)) e) = 0 &
        imbalance (T := Fm F) pp (entry (T := Fm F) (fun p => q_c (q p)) e) = 0]) ->
  guessed_strides pp lam b (fun p => q_a (q p)) va ->
  guessed_strides pp lam b (fun p => q_b (q p)) vb ->
  guessed_strides pp lam b (fun p => q_c (q p)) vc ->
  exists (A B C : {poly F}) (out : nat -> seq F), [/\
    [/\ interpolates (d_gen dom) (2 ^ (b + lam)) va A,
        interpolates (d_gen dom) (2 ^ (b + lam)) vb B &
        interpolates (d_gen dom) (2 ^ (b + lam)) vc C],
    (2 * 2 ^ (b + lam))%N.-primitive_root (d_gen d2) /\ d_gen d2 ^+ 2 = d_gen dom,
    vsharing (T := Fm F) pp (2 * 2 ^ lam) (2 ^ b) out (blocks (T := Fm F) pp
      (mkseq (fun i => (A * B - C).[d_gen d2 ^+ (2 * i + 1)]) (2 ^ (b + lam)))) &
    party_yields (p_n pp) true
      (fun ords p => circom_h dbg pp (p_n pp) p ords cF (q p) (masks p) (dmasks p) r) out].
Proof. exact: c79_circom_h. Qed.
Print Assumptions C79_circom_h.

(** C79: the same for [libsnark_h].  What comes out is the vector [hc] with
    (A B - C)(x) = hc(x) Z(x) on the coset; if A B - C is not a multiple of Z it is not a quotient. *)
Theorem C79_libsnark_h (F : fftField) dbg lam b (pp : pss F) dom (cF : codec F) mb
    (q : nat -> qap_t F) (masks : nat -> seq (fft_mask F)) (r : nat -> rng F) (va vb vc : seq F) :
  pss_new F dbg (2 ^ lam) = Ok pp -> domain_new F (2 ^ (b + lam)) = Some dom ->
  codec_ok cF mb -> (2 ^ b < 256 ^ 8)%N -> ff_generator F ^+ (2 ^ (b + lam)) != 1 ->
  (forall i, (i < 3)%N -> fft_masks dbg pp true (ff_generator F) (d_gen_inv dom) (2 ^ (b + lam))
                            (fun p => nth (no_mask F) (masks p) i)) ->
  (forall i, (3 <= i < 6)%N -> fft_masks dbg pp true 1 (d_gen dom) (2 ^ (b + lam))
                            (fun p => nth (no_mask F) (masks p) i)) ->
  fft_masks dbg pp false (ff_generator F)^-1 (d_gen_inv dom) (2 ^ (b + lam))
                            (fun p => nth (no_mask F) (masks p) 6) ->
  (forall p, (p < p_n pp)%N -> q_domain (q p) = dom) ->
  (forall p, (p < p_n pp)%N ->
    [/\ size (q_a (q p)) = (2 ^ b)%N, size (q_b (q p)) = (2 ^ b)%N & size (q_c (q p)) = (2 ^ b)%N]) ->
  (dbg -> forall e, (e < 2 ^ b)%N ->
    [/\ imbalance (T := Fm F) pp (entry (T := Fm F) (fun p => q_a (q p)) e) = 0,
        imbalance (T := Fm F) pp (entry (T := Fm F) (fun p => q_b (q p)) e) = 0 &
        imbalance (T := Fm F) pp (entry (T := Fm F) (fun p => q_c (q p)) e) = 0]) ->
  guessed_strides pp lam b (fun p => q_a (q p)) va ->
  guessed_strides pp lam b (fun p => q_b (q p)) vb ->
  guessed_strides pp lam b (fun p => q_c (q p)) vc ->
  exists (A B C : {poly F}) (hc : seq F) (out : nat -> seq F), [/\
    [/\ interpolates (d_gen dom) (2 ^ (b + lam)) va A,
        interpolates (d_gen dom) (2 ^ (b + lam)) vb B &
        interpolates (d_gen dom) (2 ^ (b + lam)) vc C],
    size hc = (2 ^ (b + lam))%N /\
    (forall i, (i < 2 ^ (b + lam))%N -> let x := ff_generator F * d_gen dom ^+ i in
      (A * B - C).[x] = (Poly hc).[x] * (ff_generator F ^+ (2 ^ (b + lam)) - 1)),
    vsharing (T := Fm F) pp (2 * 2 ^ lam) (2 ^ b) out (blocks (T := Fm F) pp hc) &
    party_yields (p_n pp) true
      (fun ords p => libsnark_h dbg pp (p_n pp) p ords cF (q p) (masks p) r) out].
Proof. exact: c79_libsnark_h. Qed.
Print Assumptions C79_libsnark_h.

(** C79: the errors of one party: it uses [v] instead of its share vector, and the vector that the
    others' and its own interpolate to differs by the errors times its weights. *)
Theorem C79_one_party (F : fftField) dbg lam b (pp : pss F) deg (x : nat -> seq F) (vx w : seq F) u
    (v : seq F) :
  pss_new F dbg (2 ^ lam) = Ok pp -> (deg <= 4 * 2 ^ lam)%N -> (u < p_n pp)%N ->
  vsharing (T := Fm F) pp deg (2 ^ b) x (strides (T := Fm F) b (b + lam) vx) ->
  guessed_strides pp lam b (replaced x u v) w ->
  forall e j, (e < 2 ^ b)%N -> (j < 2 ^ lam)%N ->
    strides (T := Fm F) b (b + lam) w e j =
    strides (T := Fm F) b (b + lam) vx e j + weight pp u j * (v`_e - (x u)`_e).
Proof. exact: c79_one_party. Qed.
Print Assumptions C79_one_party.

(** C79: the prover on any shares of the QAP and of the witness. *)
Theorem C79_prover (F : fftField) (T1 T2 : lmodType F) dbg lam b (pp : pss F) dom d2
    (cF : codec F) (c1 : codec T1) (c2 : codec T2) mb mb1 mb2
    (pk : proving_key T1 T2) (nz ni : nat) (q : nat -> qap_t F)
    k0 crs (a ax : nat -> seq F)
    (fm : nat -> seq (fft_mask F)) (gen : F) dm (g1 : T1) g1m (g2 : T2) g2m
    (rsh ssh : seq F) (r s : F) (rs : nat -> rng F) (va vb vc : seq F) :
  pss_new F dbg (2 ^ lam) = Ok pp -> domain_new F (2 ^ (b + lam)) = Some dom ->
  domain_new F (2 * 2 ^ (b + lam)) = Some d2 ->
  codec_ok cF mb -> codec_ok c1 mb1 -> codec_ok c2 mb2 -> (2 ^ b < 256 ^ 8)%N ->
  (* the key belongs to a circuit with [nz] variables, [ni] of them public *)
  (0 < ni <= nz)%N -> size (a_query pk) = nz -> size (b_g1_query pk) = nz ->
  size (b_g2_query pk) = nz -> size (l_query pk) = (nz - ni)%N ->
  (2 ^ (b + lam) - 2 ^ lam < size (h_query pk) <= 2 ^ (b + lam))%N ->
  (* the dealer *)
  pack_key dbg pp pk = Ok crs ->
  (forall i, (i < 3)%N -> fft_masks dbg pp true (d_gen d2) (d_gen_inv dom) (2 ^ (b + lam))
                            (fun p => nth (no_mask F) (fm p) i)) ->
  (forall i, (3 <= i < 6)%N -> fft_masks dbg pp false 1 (d_gen dom) (2 ^ (b + lam))
                            (fun p => nth (no_mask F) (fm p) i)) ->
  degred_masks dbg pp (gen : Fm F) (2 ^ b) dm ->
  (forall i, (i < 4)%N -> msm_masks dbg pp g1 (fun p => nth (msm_mask_zero T1) (g1m p) i)) ->
  msm_masks dbg pp g2 g2m ->
  sharing (T := Fm F) pp (2 * 2 ^ lam) rsh (nseq (2 ^ lam) r) ->
  sharing (T := Fm F) pp (2 * 2 ^ lam) ssh (nseq (2 ^ lam) s) ->
  (forall p, (p < p_n pp)%N -> rsh`_p = 0) \/ (forall p, (p < p_n pp)%N -> rsh`_p != 0) ->
  (* what the parties use as shares of the QAP *)
  (forall p, (p < p_n pp)%N -> q_domain (q p) = dom) ->
  (forall p, (p < p_n pp)%N ->
    [/\ size (q_a (q p)) = (2 ^ b)%N, size (q_b (q p)) = (2 ^ b)%N & size (q_c (q p)) = (2 ^ b)%N]) ->
  (dbg -> forall e, (e < 2 ^ b)%N ->
    [/\ imbalance (T := Fm F) pp (entry (T := Fm F) (fun p => q_a (q p)) e) = 0,
        imbalance (T := Fm F) pp (entry (T := Fm F) (fun p => q_b (q p)) e) = 0 &
        imbalance (T := Fm F) pp (entry (T := Fm F) (fun p => q_c (q p)) e) = 0]) ->
  guessed_strides pp lam b (fun p => q_a (q p)) va ->
  guessed_strides pp lam b (fun p => q_b (q p)) vb ->
  guessed_strides pp lam b (fun p => q_c (q p)) vc ->
  (* what the parties use as witness shares *)
  let m := div_ceil (nz - 1) (2 ^ lam) in let mx := div_ceil (nz - ni) (2 ^ lam) in
  (forall p, (p < p_n pp)%N -> size (a p) = m) -> (forall p, (p < p_n pp)%N -> size (ax p) = mx) ->
  let yA := products (fun p => k_s (nth k0 crs p)) a m in
  let yB1 := products (fun p => k_h (nth k0 crs p)) a m in
  let yB := products (fun p => k_v (nth k0 crs p)) a m in
  let yW := products (fun p => k_w (nth k0 crs p)) ax mx in
  (dbg -> [/\ imbalance pp yA = 0, rsh`_0 != 0 -> imbalance pp yB1 = 0, imbalance pp yB = 0 &
              imbalance pp yW = 0]) ->
  exists (QA QB QC : {poly F}) (out : nat -> T1 * T2 * T1), [/\
    [/\ interpolates (d_gen dom) (2 ^ (b + lam)) va QA,
        interpolates (d_gen dom) (2 ^ (b + lam)) vb QB &
        interpolates (d_gen dom) (2 ^ (b + lam)) vc QC],
    (2 * 2 ^ (b + lam))%N.-primitive_root (d_gen d2) /\ d_gen d2 ^+ 2 = d_gen dom,
    party_yields (p_n pp) true (fun ords p =>
      dsha256 dbg pp (p_n pp) p cF c1 c2 (nth k0 crs p) (q p) (a p) (ax p)
              rsh`_p ssh`_p (fm p) (dm p) (g1m p) (g2m p) ords rs) out &
    let A := pk_alpha_g1 pk + (a_query pk)`_0 + \sum_(j < 2 ^ lam) interpolated pp yA j
             + r *: pk_delta_g1 pk in
    let B1 := pk_beta_g1 pk + (b_g1_query pk)`_0 + \sum_(j < 2 ^ lam) interpolated pp yB1 j
             + s *: pk_delta_g1 pk in
    let B := pk_beta_g2 pk + (b_g2_query pk)`_0 + \sum_(j < 2 ^ lam) interpolated pp yB j
             + s *: pk_delta_g2 pk in
    let C := s *: A + r *: B1 - (r * s) *: pk_delta_g1 pk
             + \sum_(j < 2 ^ lam) interpolated pp yW j
             + \sum_(i < 2 ^ (b + lam)) (QA * QB - QC).[d_gen d2 ^+ (2 * i + 1)] *: (h_query pk)`_i in
    collect_proof dbg pp (mkseq out (p_n pp)) = Ok (A, B, C)].
Proof. exact: c79_prover. Qed.
Print Assumptions C79_prover.

