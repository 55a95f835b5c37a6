(** Property theorems only; proofs are in ExtViewThm.v. *)
From mathcomp Require Import all_ssreflect all_algebra.
From mathcomp Require Import zify.
From Verif Require Import RingTac Base ModelField ModelUtils ModelPss ModelPack ModelFft ModelNet.
From Verif Require Import ModelProto ModelQap ModelProve ModelMain.
From Verif Require Import Spec SpecNet SpecView SpecProto SpecGroth SpecVerify SpecExt.
From Verif Require Import NetProofs KingProofs LogProofs NetThm PartyProofs.
From Verif Require Import FieldProofs UtilsProofs PssProofs PackProofs FftProofs ProtoProofs DegProofs.
From Verif Require Import PssThm ProtoThm QapProofs ExtProofs GrothThm MaskProofs.
From Verif Require Import ViewProofs ViewThm.
Set Implicit Arguments.
Unset Strict Implicit.
Unset Printing Implicit Defensive.
Import GRing.Theory.
Local Open Scope ring_scope.
Local Notation Fm F := [lmodType F of F^o].
From Verif Require Import ExtViewThm.

(** C60: what at most [t] parties see of [libsnark_h] (their results and all messages they receive, in
    any schedule) does not depend on the vectors shared among the others: some translation of the
    randomness of the seven masks leaves their masks and their views as they are when the vectors
    change.  The king's own randomness [rs] may be known, and the messages the king collects are not
    part of these views (C28). *)
Theorem C60_libsnark_h (F : fftField) (dbg : bool) lam b (pp : pss F) dom (cF : codec F) mb
    (q q' : nat -> qap_t F) (sa sb sc sa' sb' sc' : nat -> nat -> F) deg (P : seq nat)
    (rs : nat -> rng F) :
  pss_new F dbg (2 ^ lam) = Ok pp -> domain_new F (2 ^ (b + lam)) = Some dom ->
  codec_ok cF mb -> (2 ^ b < 256 ^ 8)%N -> (deg <= 4 * 2 ^ lam - 1)%N ->
  ff_generator F ^+ (2 ^ (b + lam)) != 1 -> ff_generator F ^+ p_n pp != 1 ->
  uniq P -> all (fun p => p < p_n pp)%N P -> (size P <= p_t pp)%N ->
  (forall p, (p < p_n pp)%N -> q_domain (q p) = dom) ->
  (forall p, (p < p_n pp)%N -> q_domain (q' p) = dom) ->
  vsharing (T := Fm F) pp deg (2 ^ b) (fun p => q_a (q p)) sa ->
  vsharing (T := Fm F) pp deg (2 ^ b) (fun p => q_b (q p)) sb ->
  vsharing (T := Fm F) pp deg (2 ^ b) (fun p => q_c (q p)) sc ->
  vsharing (T := Fm F) pp deg (2 ^ b) (fun p => q_a (q' p)) sa' ->
  vsharing (T := Fm F) pp deg (2 ^ b) (fun p => q_b (q' p)) sb' ->
  vsharing (T := Fm F) pp deg (2 ^ b) (fun p => q_c (q' p)) sc' ->
  exists dv di do_ : nat -> rng F, forall values r_in r_out : nat -> rng F, exists ms ms' out out',
  [/\ forall i, (i < 7)%N -> libsnark_mask dbg pp dom (2 ^ (b + lam)) i (values i) (r_in i) (r_out i) = Ok (ms i),
      forall i, (i < 7)%N -> libsnark_mask dbg pp dom (2 ^ (b + lam)) i (fun j => values i j + dv i j)
        (fun j => r_in i j + di i j) (fun j => r_out i j + do_ i j) = Ok (ms' i),
      party_yields (p_n pp) false (fun ords p => plog (libsnark_h dbg pp (p_n pp) p ords cF (q p)
        (mkseq (fun i => nth (no_mask F) (ms i) p) 7) rs) [::]) out,
      party_yields (p_n pp) false (fun ords p => plog (libsnark_h dbg pp (p_n pp) p ords cF (q' p)
        (mkseq (fun i => nth (no_mask F) (ms' i) p) 7) rs) [::]) out' &
      forall p, p \in P -> out' p = out p /\
        forall i, (i < 7)%N -> nth (no_mask F) (ms' i) p = nth (no_mask F) (ms i) p].
Proof. exact: c60_libsnark_h. Qed.
Print Assumptions C60_libsnark_h.

(** C60: the same for [circom_h], with six masks for the transforms and one for the degree reduction. *)
Theorem C60_circom_h (F : fftField) (dbg : bool) lam b (pp : pss F) dom d2 (cF : codec F) mb
    (q q' : nat -> qap_t F) (sa sb sc sa' sb' sc' : nat -> nat -> F) deg (P : seq nat)
    (rs : nat -> rng F) :
  pss_new F dbg (2 ^ lam) = Ok pp -> domain_new F (2 ^ (b + lam)) = Some dom ->
  domain_new F (2 * 2 ^ (b + lam)) = Some d2 ->
  codec_ok cF mb -> (2 ^ b < 256 ^ 8)%N -> (deg <= 4 * 2 ^ lam - 1)%N ->
  ff_generator F ^+ p_n pp != 1 ->
  uniq P -> all (fun p => p < p_n pp)%N P -> (size P <= p_t pp)%N ->
  (forall p, (p < p_n pp)%N -> q_domain (q p) = dom) ->
  (forall p, (p < p_n pp)%N -> q_domain (q' p) = dom) ->
  vsharing (T := Fm F) pp deg (2 ^ b) (fun p => q_a (q p)) sa ->
  vsharing (T := Fm F) pp deg (2 ^ b) (fun p => q_b (q p)) sb ->
  vsharing (T := Fm F) pp deg (2 ^ b) (fun p => q_c (q p)) sc ->
  vsharing (T := Fm F) pp deg (2 ^ b) (fun p => q_a (q' p)) sa' ->
  vsharing (T := Fm F) pp deg (2 ^ b) (fun p => q_b (q' p)) sb' ->
  vsharing (T := Fm F) pp deg (2 ^ b) (fun p => q_c (q' p)) sc' ->
  exists (dv di do_ : nat -> rng F) (ev ei eo : rng F),
  forall (values r_in r_out : nat -> rng F) (u s s' : rng F), exists ms ms' ds ds' out out',
  [/\ (forall i, (i < 6)%N ->
         circom_mask dbg pp dom (d_gen d2) (2 ^ (b + lam)) i (values i) (r_in i) (r_out i) = Ok (ms i)) /\
      degred_mask_sample dbg pp (1 : Fm F) (2 ^ b) u s s' = Ok ds,
      (forall i, (i < 6)%N -> circom_mask dbg pp dom (d_gen d2) (2 ^ (b + lam)) i
         (fun j => values i j + dv i j) (fun j => r_in i j + di i j) (fun j => r_out i j + do_ i j) = Ok (ms' i)) /\
      degred_mask_sample dbg pp (1 : Fm F) (2 ^ b) (fun j => u j + ev j) (fun j => s j + ei j)
        (fun j => s' j + eo j) = Ok ds',
      party_yields (p_n pp) false (fun ords p => plog (circom_h dbg pp (p_n pp) p ords cF (q p)
        (mkseq (fun i => nth (no_mask F) (ms i) p) 6) (nth (degred_mask_zero (Fm F) 0) ds p) rs) [::]) out,
      party_yields (p_n pp) false (fun ords p => plog (circom_h dbg pp (p_n pp) p ords cF (q' p)
        (mkseq (fun i => nth (no_mask F) (ms' i) p) 6) (nth (degred_mask_zero (Fm F) 0) ds' p) rs) [::]) out' &
      forall p, p \in P -> [/\ out' p = out p,
        forall i, (i < 6)%N -> nth (no_mask F) (ms' i) p = nth (no_mask F) (ms i) p &
        nth (degred_mask_zero (Fm F) 0) ds' p = nth (degred_mask_zero (Fm F) 0) ds p]].
Proof. exact: c60_circom_h. Qed.
Print Assumptions C60_circom_h.

