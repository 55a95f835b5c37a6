(** Property theorems only; proofs are in LocalThm.v. *)
From mathcomp Require Import all_ssreflect all_algebra.
From mathcomp Require Import zify.
From Verif Require Import Base ModelField ModelUtils ModelPss ModelPack ModelFft ModelNet ModelProto.
From Verif Require Import ModelDemo Spec.
From Verif Require Import FieldProofs UtilsProofs PssProofs PackProofs FftProofs.
From Verif Require Import PpProofs ProtoThm.
Set Implicit Arguments.
Unset Strict Implicit.
Unset Printing Implicit Defensive.
Import GRing.Theory.
Local Open Scope ring_scope.
Local Notation Fm F := [lmodType F of F^o].
From Verif Require Import LocalThm.

(** C64: the single-machine rendition of the two stages computes the transform; the assertion at
    the end of the program holds *)
Theorem C64_local_dfft (F : fftField) dbg lam b (pp : pss F) dom (x : seq F) :
  pss_new F dbg (2 ^ lam) = Ok pp -> domain_new F (2 ^ (b + lam)) = Some dom ->
  size x = (2 ^ (b + lam))%N ->
  local_dfft_test pp dom x =
    Ok (mkseq (fun i => \sum_(e < 2 ^ (b + lam)) x`_e * d_gen dom ^+ (i * e)) (2 ^ (b + lam))).
Proof. exact: c64_local_dfft. Qed.
Print Assumptions C64_local_dfft.

