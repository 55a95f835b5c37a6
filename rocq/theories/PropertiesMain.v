(** Property theorems only; proofs are in MainThm.v. *)
From mathcomp Require Import all_ssreflect all_algebra.
From mathcomp Require Import zify.
From Verif Require Import RingTac Base ModelField ModelUtils ModelPss ModelPack ModelFft ModelNet.
From Verif Require Import ModelProto ModelQap ModelProve ModelMain.
From Verif Require Import Spec SpecNet SpecProto SpecGroth SpecVerify.
From Verif Require Import NetProofs KingProofs NetThm PartyProofs.
From Verif Require Import FieldProofs UtilsProofs PssProofs PackProofs FftProofs ProtoProofs DegProofs.
From Verif Require Import PssThm ProtoThm QapProofs ExtProofs GrothThm ProveProofs ProveThm MaskProofs.
From Verif Require Import MainProofs.
Set Implicit Arguments.
Unset Strict Implicit.
Unset Printing Implicit Defensive.
Import GRing.Theory.
Local Open Scope ring_scope.
Local Notation Fm F := [lmodType F of F^o].
From Verif Require Import MainThm.

(** C57: in debug builds the dealer of the sha256 example panics: it packs vectors of length [n]. *)
Theorem C57_debug_panic (F : fftField) (T1 T2 : lmodType F) lam (pp : pss F) rf
    (r1 : nat -> rng T1) (r2 : nat -> rng T2) gen1 gen2 test_rng pk (m : matrices F) z r s q :
  pss_new F true (2 ^ lam) = Ok pp -> qap m z = Ok q ->
  deal_inputs true pp rf r1 r2 gen1 gen2 test_rng pk m z r s = Panic.
Proof. exact: c57_debug_panic. Qed.
Print Assumptions C57_debug_panic.

(** C57: the whole example in release builds.  The setup succeeds, the dealer hands out the inputs,
    all parties finish on every schedule, the client obtains a proof, and the verifier accepts it
    exactly if the polynomial through the defects of the constraints vanishes at the secret point. *)
Theorem C57_example (F : fftField) (T1 T2 T3 : lmodType F) (e : T1 -> T2 -> T3) lam b (pp : pss F) dom d2
    (cF : codec F) (c1 : codec T1) (c2 : codec T2) mb mb1 mb2
    (cs : r1cs F) (z : seq F) (alpha beta gamma delta t : F) (g1 : T1) (g2 : T2)
    rf (r1 : nat -> rng T1) (r2 : nat -> rng T2) gen1 gen2 test_rng (r s : F) (rs : nat -> rng F) i0 :
  bilinear_map e -> pss_new F false (2 ^ lam) = Ok pp -> (0 < b + lam)%N ->
  domain_new F (2 ^ (b + lam)) = Some dom -> domain_new F (2 * 2 ^ (b + lam)) = Some d2 ->
  codec_ok cF mb -> codec_ok c1 mb1 -> codec_ok c2 mb2 -> (2 ^ b < 256 ^ 8)%N ->
  well_formed cs (size z) -> z`_0 = 1 ->
  least_pow2 (cm_num_constraints (r1_matrices cs) + num_instance_variables (r1_matrices cs))
             (2 ^ (b + lam)) ->
  gamma != 0 -> delta != 0 ->
  exists pk vk ins (out : nat -> T1 * T2 * T1) proof, [/\
    setup cs (size z) alpha beta gamma delta t g1 g2 = Ok (pk, vk),
    deal_inputs false pp rf r1 r2 gen1 gen2 test_rng pk (r1_matrices cs) z r s = Ok ins,
    party_yields (p_n pp) false
      (fun ords p => run_party false pp cF c1 c2 (nth i0 ins p) ords rs p) out,
    collect_proof false pp (mkseq out (p_n pp)) = Ok proof &
    forall D : {poly F}, interpolates (d_gen dom) (2 ^ (b + lam))
        (mkseq (defect cs z) (cm_num_constraints (r1_matrices cs))) D ->
      (accepts e vk (public_part cs z) proof <-> D.[t] *: e g1 g2 = 0)].
Proof. exact: c57_example. Qed.
Print Assumptions C57_example.

(** C57: for a satisfied constraint system the verifier accepts. *)
Theorem C57_accepted (F : fftField) (T1 T2 T3 : lmodType F) (e : T1 -> T2 -> T3) lam b (pp : pss F) dom d2
    (cF : codec F) (c1 : codec T1) (c2 : codec T2) mb mb1 mb2
    (cs : r1cs F) (z : seq F) (alpha beta gamma delta t : F) (g1 : T1) (g2 : T2)
    rf (r1 : nat -> rng T1) (r2 : nat -> rng T2) gen1 gen2 test_rng (r s : F) (rs : nat -> rng F) i0 :
  bilinear_map e -> pss_new F false (2 ^ lam) = Ok pp -> (0 < b + lam)%N ->
  domain_new F (2 ^ (b + lam)) = Some dom -> domain_new F (2 * 2 ^ (b + lam)) = Some d2 ->
  codec_ok cF mb -> codec_ok c1 mb1 -> codec_ok c2 mb2 -> (2 ^ b < 256 ^ 8)%N ->
  well_formed cs (size z) -> z`_0 = 1 ->
  least_pow2 (cm_num_constraints (r1_matrices cs) + num_instance_variables (r1_matrices cs))
             (2 ^ (b + lam)) ->
  gamma != 0 -> delta != 0 ->
  satisfied cs z ->
  exists pk vk ins (out : nat -> T1 * T2 * T1) proof, [/\
    setup cs (size z) alpha beta gamma delta t g1 g2 = Ok (pk, vk),
    deal_inputs false pp rf r1 r2 gen1 gen2 test_rng pk (r1_matrices cs) z r s = Ok ins,
    party_yields (p_n pp) false
      (fun ords p => run_party false pp cF c1 c2 (nth i0 ins p) ords rs p) out,
    collect_proof false pp (mkseq out (p_n pp)) = Ok proof &
    accepts e vk (public_part cs z) proof].
Proof. exact: c57_accepted. Qed.
Print Assumptions C57_accepted.

(** C57: otherwise, among any [N] possible secret points there is one for which it rejects ([N] is
    the size of the domain). *)
Theorem C57_rejected (F : fftField) (T1 T2 T3 : lmodType F) (e : T1 -> T2 -> T3) lam b (pp : pss F) dom d2
    (cF : codec F) (c1 : codec T1) (c2 : codec T2) mb mb1 mb2
    (cs : r1cs F) (z : seq F) (alpha beta gamma delta : F) (g1 : T1) (g2 : T2)
    rf (r1 : nat -> rng T1) (r2 : nat -> rng T2) gen1 gen2 test_rng (r s : F) (rs : nat -> rng F) i0 :
  bilinear_map e -> pss_new F false (2 ^ lam) = Ok pp -> (0 < b + lam)%N ->
  domain_new F (2 ^ (b + lam)) = Some dom -> domain_new F (2 * 2 ^ (b + lam)) = Some d2 ->
  codec_ok cF mb -> codec_ok c1 mb1 -> codec_ok c2 mb2 -> (2 ^ b < 256 ^ 8)%N ->
  well_formed cs (size z) -> z`_0 = 1 ->
  least_pow2 (cm_num_constraints (r1_matrices cs) + num_instance_variables (r1_matrices cs))
             (2 ^ (b + lam)) ->
  gamma != 0 -> delta != 0 ->
  ~ satisfied cs z -> e g1 g2 != 0 ->
  forall ts : seq F, uniq ts -> (2 ^ (b + lam) <= size ts)%N -> exists2 t, t \in ts &
  exists pk vk ins (out : nat -> T1 * T2 * T1) proof, [/\
    setup cs (size z) alpha beta gamma delta t g1 g2 = Ok (pk, vk),
    deal_inputs false pp rf r1 r2 gen1 gen2 test_rng pk (r1_matrices cs) z r s = Ok ins,
    party_yields (p_n pp) false
      (fun ords p => run_party false pp cF c1 c2 (nth i0 ins p) ords rs p) out,
    collect_proof false pp (mkseq out (p_n pp)) = Ok proof &
    ~ accepts e vk (public_part cs z) proof].
Proof. exact: c57_rejected. Qed.
Print Assumptions C57_rejected.

