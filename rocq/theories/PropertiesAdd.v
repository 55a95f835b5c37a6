(** Property theorems only; proofs are in AddThm.v. *)
From mathcomp Require Import all_ssreflect.
From mathcomp Require Import zify.
From Verif Require Import Base ModelNet ModelDemo SpecNet.
From Verif Require Import RoundProofs FewProofs.
Set Implicit Arguments.
Unset Strict Implicit.
Unset Printing Implicit Defensive.
From Verif Require Import AddThm.

(** C63: whichever clients are silent, every live party gets the sum of the live identifiers ... *)
Theorem C63_add_ids_sum (dbg : bool) n sid ord (dead : pred nat) :
  0 < n <= 256 ^ 4 -> hash_ok ord -> ~~ dead 0 -> (dbg -> \sum_(i < n) i < 256 ^ 4) ->
  every_schedule (with_silent n sid dead (fun p => add_ids_sum dbg n p ord (fun s => CRet (Ok s))))
    (predC dead) (fun _ => (\sum_(i < n | ~~ dead i) i) %% 256 ^ 4).
Proof. exact: c63_add_ids_sum. Qed.
Print Assumptions C63_add_ids_sum.

(** ... with nobody silent the final assertion holds at every party ... *)
Theorem C63_add_ids (dbg : bool) n sid ord :
  0 < n <= 256 ^ 4 -> hash_ok ord -> (dbg -> \sum_(i < n) i < 256 ^ 4) ->
  every_schedule (with_silent n sid pred0 (fun p => add_ids dbg n p ord)) predT (fun _ => tt).
Proof. exact: c63_add_ids. Qed.
Print Assumptions C63_add_ids.

(** ... and it fails as soon as a client other than party 0 is silent, when the sum does not wrap *)
Theorem C63_add_ids_missing (dbg : bool) n (dead : pred nat) d :
  n <= 256 ^ 4 -> \sum_(i < n) i < 256 ^ 4 -> 0 < d < n -> dead d ->
  exists expected, expected_sum dbg n = Ok expected /\
    rassert ((\sum_(i < n | ~~ dead i) i) %% 256 ^ 4 == expected) = Panic.
Proof. exact: c63_add_ids_missing. Qed.
Print Assumptions C63_add_ids_missing.

(** C63: in a debug build every party panics before it has sent anything when the sum of all
    identifiers is no [u32] *)
Theorem C63_add_ids_overflow n me ord : n <= 256 ^ 4 -> 256 ^ 4 <= \sum_(i < n) i ->
  add_ids true n me ord = CRet Panic.
Proof. exact: c63_add_ids_overflow. Qed.
Print Assumptions C63_add_ids_overflow.

