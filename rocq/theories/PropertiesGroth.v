(** Property theorems only; proofs are in GrothThm.v. *)
From mathcomp Require Import all_ssreflect all_algebra.
From mathcomp Require Import zify.
From Verif Require Import RingTac Base ModelField ModelUtils ModelPss ModelPack ModelFft ModelNet.
From Verif Require Import ModelProto ModelQap Spec SpecNet SpecProto SpecGroth.
From Verif Require Import NetProofs KingProofs NetThm PartyProofs.
From Verif Require Import FieldProofs UtilsProofs PssProofs PackProofs FftProofs ProtoProofs DegProofs.
From Verif Require Import ProtoThm QapProofs ExtProofs.
Set Implicit Arguments.
Unset Strict Implicit.
Unset Printing Implicit Defensive.
Import GRing.Theory.
Local Open Scope ring_scope.
Local Notation Fm F := [lmodType F of F^o].
From Verif Require Import GrothThm.

(** C34: the QAP of a constraint system and an assignment. *)
Theorem C34_qap (F : fftField) (m : matrices F) (z : seq F) dom :
  domain_new F (cm_num_constraints m + num_instance_variables m) = Some dom ->
  size (cm_a m) = cm_num_constraints m -> size (cm_b m) = cm_num_constraints m ->
  (num_instance_variables m <= size z)%N ->
  all (row_below (size z)) (cm_a m) -> all (row_below (size z)) (cm_b m) ->
  exists q, [/\ qap m z = Ok q,
    [/\ q_domain q = dom, num_inputs q = num_instance_variables m &
        num_constraints q = cm_num_constraints m],
    least_pow2 (cm_num_constraints m + num_instance_variables m) (d_size dom),
    [/\ size (q_a q) = d_size dom, size (q_b q) = d_size dom & size (q_c q) = d_size dom] &
    [/\ forall i, (i < cm_num_constraints m)%N ->
          [/\ (q_a q)`_i = row_value (nth [::] (cm_a m) i) z,
              (q_b q)`_i = row_value (nth [::] (cm_b m) i) z &
              (q_c q)`_i = (q_a q)`_i * (q_b q)`_i],
        forall i, (i < num_instance_variables m)%N ->
          [/\ (q_a q)`_(cm_num_constraints m + i) = z`_i,
              (q_b q)`_(cm_num_constraints m + i) = 0 &
              (q_c q)`_(cm_num_constraints m + i) = 0],
        forall i, (cm_num_constraints m + num_instance_variables m <= i)%N ->
          [/\ (q_a q)`_i = 0, (q_b q)`_i = 0 & (q_c q)`_i = 0] &
        forall i, (q_a q)`_i * (q_b q)`_i = (q_c q)`_i]].
Proof. exact: c34_qap. Qed.
Print Assumptions C34_qap.

(** C34: the field has no domain of this size. *)
Theorem C34_no_domain (F : fftField) (m : matrices F) (z : seq F) :
  (2 ^ ff_two_adicity F < cm_num_constraints m + num_instance_variables m)%N ->
  qap m z = Err Generic.
Proof. exact: c34_no_domain. Qed.
Print Assumptions C34_no_domain.

(** C34: the assignment is too short for the inputs, or for an index used by a constraint. *)
Theorem C34_short_assignment (F : fftField) (m : matrices F) (z : seq F) dom :
  domain_new F (cm_num_constraints m + num_instance_variables m) = Some dom ->
  size (cm_a m) = cm_num_constraints m -> size (cm_b m) = cm_num_constraints m ->
  ~~ [&& (num_instance_variables m <= size z)%N, all (row_below (size z)) (cm_a m) &
         all (row_below (size z)) (cm_b m)] ->
  qap m z = Panic.
Proof. exact: c34_short_assignment. Qed.
Print Assumptions C34_short_assignment.

(** C35: the shares of the QAP. *)
Theorem C35_qap_pss (F : fftField) dbg lam b (pp : pss F) (q : qap_t F) r :
  pss_new F dbg (2 ^ lam) = Ok pp ->
  size (q_a q) = (2 ^ (b + lam))%N -> size (q_b q) = (2 ^ (b + lam))%N ->
  size (q_c q) = (2 ^ (b + lam))%N ->
  exists xa xb xc : nat -> seq F, [/\
    qap_pss dbg pp q r = Ok (mkseq (fun p => Qap (num_inputs q) (num_constraints q)
                                      (xa p) (xb p) (xc p) (q_domain q)) (p_n pp)),
    vsharing (T := Fm F) pp (2 * p_l pp) (2 ^ b) xa (strides (T := Fm F) b (b + lam) (q_a q)),
    vsharing (T := Fm F) pp (2 * p_l pp) (2 ^ b) xb (strides (T := Fm F) b (b + lam) (q_b q)) &
    vsharing (T := Fm F) pp (2 * p_l pp) (2 ^ b) xc (strides (T := Fm F) b (b + lam) (q_c q))].
Proof. exact: c35_qap_pss. Qed.
Print Assumptions C35_qap_pss.

(** C35: a domain with fewer points than secrets in a sharing is dropped silently. *)
Theorem C35_small_domain (F : fftField) dbg lam k (pp : pss F) (q : qap_t F) r :
  pss_new F dbg (2 ^ lam) = Ok pp -> (k < lam)%N ->
  size (q_a q) = (2 ^ k)%N -> size (q_b q) = (2 ^ k)%N -> size (q_c q) = (2 ^ k)%N ->
  qap_pss dbg pp q r = Ok (nseq (p_n pp) (Qap (num_inputs q) (num_constraints q)
                                             [::] [::] [::] (q_domain q))).
Proof. exact: c35_small_domain. Qed.
Print Assumptions C35_small_domain.

(** C36: the quotient of the witness extension. *)
Theorem C36_libsnark_h (F : fftField) dbg lam b (pp : pss F) dom (cF : codec F) mb
    (q : nat -> qap_t F) (masks : nat -> seq (fft_mask F)) (va vb vc : seq F) deg (r : nat -> rng F) :
  pss_new F dbg (2 ^ lam) = Ok pp -> domain_new F (2 ^ (b + lam)) = Some dom ->
  codec_ok cF mb -> (2 ^ b < 256 ^ 8)%N -> (deg <= 4 * 2 ^ lam - 1)%N ->
  ff_generator F ^+ (2 ^ (b + lam)) != 1 ->
  (forall i, (i < 3)%N -> fft_masks dbg pp true (ff_generator F) (d_gen_inv dom) (2 ^ (b + lam))
                            (fun p => nth (no_mask F) (masks p) i)) ->
  (forall i, (3 <= i < 6)%N -> fft_masks dbg pp true 1 (d_gen dom) (2 ^ (b + lam))
                            (fun p => nth (no_mask F) (masks p) i)) ->
  fft_masks dbg pp false (ff_generator F)^-1 (d_gen_inv dom) (2 ^ (b + lam))
                            (fun p => nth (no_mask F) (masks p) 6) ->
  size va = (2 ^ (b + lam))%N -> size vb = (2 ^ (b + lam))%N -> size vc = (2 ^ (b + lam))%N ->
  (forall i, va`_i * vb`_i = vc`_i) ->
  (forall p, (p < p_n pp)%N -> q_domain (q p) = dom) ->
  vsharing (T := Fm F) pp deg (2 ^ b) (fun p => q_a (q p)) (strides (T := Fm F) b (b + lam) va) ->
  vsharing (T := Fm F) pp deg (2 ^ b) (fun p => q_b (q p)) (strides (T := Fm F) b (b + lam) vb) ->
  vsharing (T := Fm F) pp deg (2 ^ b) (fun p => q_c (q p)) (strides (T := Fm F) b (b + lam) vc) ->
  exists (A B C h : {poly F}) (out : nat -> seq F), [/\
    [/\ interpolates (d_gen dom) (2 ^ (b + lam)) va A,
        interpolates (d_gen dom) (2 ^ (b + lam)) vb B &
        interpolates (d_gen dom) (2 ^ (b + lam)) vc C],
    A * B - C = h * ('X^(2 ^ (b + lam)) - 1), (size h < 2 ^ (b + lam))%N,
    vsharing (T := Fm F) pp (2 * 2 ^ lam) (2 ^ b) out
      (blocks (T := Fm F) pp (mkseq (fun i => h`_i) (2 ^ (b + lam)))) &
    party_yields (p_n pp) false
      (fun ords p => libsnark_h dbg pp (p_n pp) p ords cF (q p) (masks p) r) out].
Proof. exact: c36_libsnark_h. Qed.
Print Assumptions C36_libsnark_h.

(** C37: the values of the quotient times the vanishing polynomial on the odd coset. *)
Theorem C37_circom_h (F : fftField) dbg lam b (pp : pss F) dom d2 (cF : codec F) mb (gen : F)
    (q : nat -> qap_t F) (masks : nat -> seq (fft_mask F)) (dmasks : nat -> degred_mask (Fm F))
    (va vb vc : seq F) deg (r : nat -> rng F) :
  pss_new F dbg (2 ^ lam) = Ok pp -> domain_new F (2 ^ (b + lam)) = Some dom ->
  domain_new F (2 * 2 ^ (b + lam)) = Some d2 ->
  codec_ok cF mb -> (2 ^ b < 256 ^ 8)%N -> (deg <= 4 * 2 ^ lam - 1)%N ->
  (forall i, (i < 3)%N -> fft_masks dbg pp true (d_gen d2) (d_gen_inv dom) (2 ^ (b + lam))
                            (fun p => nth (no_mask F) (masks p) i)) ->
  (forall i, (3 <= i < 6)%N -> fft_masks dbg pp false 1 (d_gen dom) (2 ^ (b + lam))
                            (fun p => nth (no_mask F) (masks p) i)) ->
  degred_masks dbg pp (gen : Fm F) (2 ^ b) dmasks ->
  size va = (2 ^ (b + lam))%N -> size vb = (2 ^ (b + lam))%N -> size vc = (2 ^ (b + lam))%N ->
  (forall p, (p < p_n pp)%N -> q_domain (q p) = dom) ->
  vsharing (T := Fm F) pp deg (2 ^ b) (fun p => q_a (q p)) (strides (T := Fm F) b (b + lam) va) ->
  vsharing (T := Fm F) pp deg (2 ^ b) (fun p => q_b (q p)) (strides (T := Fm F) b (b + lam) vb) ->
  vsharing (T := Fm F) pp deg (2 ^ b) (fun p => q_c (q p)) (strides (T := Fm F) b (b + lam) vc) ->
  exists (A B C : {poly F}) (out : nat -> seq F), [/\
    [/\ interpolates (d_gen dom) (2 ^ (b + lam)) va A,
        interpolates (d_gen dom) (2 ^ (b + lam)) vb B &
        interpolates (d_gen dom) (2 ^ (b + lam)) vc C],
    (2 * 2 ^ (b + lam))%N.-primitive_root (d_gen d2), d_gen d2 ^+ 2 = d_gen dom,
    vsharing (T := Fm F) pp (2 * 2 ^ lam) (2 ^ b) out (blocks (T := Fm F) pp
      (mkseq (fun i => (A * B - C).[d_gen d2 ^+ (2 * i + 1)]) (2 ^ (b + lam)))) &
    party_yields (p_n pp) false
      (fun ords p => circom_h dbg pp (p_n pp) p ords cF (q p) (masks p) (dmasks p) r) out].
Proof. exact: c37_circom_h. Qed.
Print Assumptions C37_circom_h.

(** C37: what these values are for a satisfied QAP: minus twice the quotient on the odd coset. *)
Theorem C37_vanishing_odd (F : fftField) N (z : F) (A B C h : {poly F}) :
  (0 < N)%N -> (2 * N)%N.-primitive_root z -> A * B - C = h * ('X^N - 1) ->
  forall i, (A * B - C).[z ^+ (2 * i + 1)] = h.[z ^+ (2 * i + 1)] * - 2%:R.
Proof. exact: c37_vanishing_odd. Qed.
Print Assumptions C37_vanishing_odd.

(** C37: without a domain of twice the size the party panics. *)
Theorem C37_no_double_domain (F : fftField) dbg (pp : pss F) n me ords (cF : codec F) q mask dmask r :
  (2 ^ ff_two_adicity F < 2 * d_size (q_domain q))%N ->
  circom_h dbg pp n me ords cF q mask dmask r = PRet Panic.
Proof. exact: c37_no_double_domain. Qed.
Print Assumptions C37_no_double_domain.

