(** Property theorems only; proofs are in MainViewThm.v. *)
From mathcomp Require Import all_ssreflect all_algebra.
From mathcomp Require Import zify.
From Verif Require Import RingTac Base ModelField ModelUtils ModelPss ModelPack ModelFft ModelNet.
From Verif Require Import ModelProto ModelQap ModelProve ModelMain.
From Verif Require Import Spec SpecNet SpecView SpecProto SpecGroth SpecVerify.
From Verif Require Import NetProofs KingProofs LogProofs NetThm PartyProofs.
From Verif Require Import FieldProofs UtilsProofs PssProofs PackProofs FftProofs ProtoProofs DegProofs.
From Verif Require Import PssThm ProtoThm QapProofs ExtProofs GrothThm ProveProofs ProveThm MaskProofs.
From Verif Require Import MainProofs ViewProofs ViewThm.
Set Implicit Arguments.
Unset Strict Implicit.
Unset Printing Implicit Defensive.
Import GRing.Theory.
Local Open Scope ring_scope.
Local Notation Fm F := [lmodType F of F^o].
From Verif Require Import MainViewThm.

(** C58: what at most [t] parties see of the whole sha256 example does not depend on the witness, if
    the shares of the QAP are made with fresh randomness [tr] (C55: the code uses a published
    stream).  Some translation of the randomness of the dealer leaves their inputs, their proof
    shares and all messages they receive as they are when the witness changes; the king's own
    randomness [rs] may be known.  The randomness [r], [s] of the proof is in the inputs of every
    party (C39), and the messages the king collects are not part of these views (C28). *)
Theorem C58_hiding (F : fftField) (T1 T2 : lmodType F) lam b (pp : pss F) dom d2
    (cF : codec F) (c1 : codec T1) (c2 : codec T2) mb mb1 mb2 (cs : r1cs F) (z z' : seq F)
    (pk : proving_key T1 T2) gen1 gen2 (r s : F) (rs : nat -> rng F) (P : seq nat) i0 :
  pss_new F false (2 ^ lam) = Ok pp ->
  domain_new F (2 ^ (b + lam)) = Some dom -> domain_new F (2 * 2 ^ (b + lam)) = Some d2 ->
  codec_ok cF mb -> codec_ok c1 mb1 -> codec_ok c2 mb2 -> (2 ^ b < 256 ^ 8)%N ->
  well_formed cs (size z) -> size z' = size z ->
  let m := r1_matrices cs in
  least_pow2 (cm_num_constraints m + num_instance_variables m) (2 ^ (b + lam)) ->
  (* the key belongs to the circuit *)
  size (a_query pk) = size z -> size (b_g1_query pk) = size z -> size (b_g2_query pk) = size z ->
  size (l_query pk) = (size z - num_instance_variables m)%N ->
  (2 ^ (b + lam) - 2 ^ lam < size (h_query pk) <= 2 ^ (b + lam))%N ->
  (* the groups have the generators [gen1] and [gen2] *)
  (forall x : T1, exists c, x = c *: gen1) -> (forall x : T2, exists c, x = c *: gen2) ->
  ff_generator F ^+ p_n pp != 1 ->
  uniq P -> all (fun p => p < p_n pp)%N P -> (size P <= p_t pp)%N ->
  exists (dt : rng F) (df : nat -> rng F) (dg1 : nat -> rng T1) (dg2 : nat -> rng T2),
  forall (tr : rng F) (rf : nat -> rng F) (r1 : nat -> rng T1) (r2 : nat -> rng T2),
  exists ins ins' out out',
  [/\ deal_inputs false pp rf r1 r2 gen1 gen2 tr pk m z r s = Ok ins,
      deal_inputs false pp (fun k i => rf k i + df k i) (fun k i => r1 k i + dg1 k i)
        (fun k i => r2 k i + dg2 k i) gen1 gen2 (fun i => tr i + dt i) pk m z' r s = Ok ins',
      party_yields (p_n pp) false
        (fun ords p => plog (run_party false pp cF c1 c2 (nth i0 ins p) ords rs p) [::]) out,
      party_yields (p_n pp) false
        (fun ords p => plog (run_party false pp cF c1 c2 (nth i0 ins' p) ords rs p) [::]) out' &
      forall p, p \in P -> nth i0 ins' p = nth i0 ins p /\ out' p = out p].
Proof. exact: c58_hiding. Qed.
Print Assumptions C58_hiding.

