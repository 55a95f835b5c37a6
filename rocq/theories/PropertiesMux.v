(** Property theorems only; proofs are in MuxThm.v. *)
From mathcomp Require Import all_ssreflect.
From mathcomp Require Import zify.
From Verif Require Import Base ModelNet ModelDemo ModelMux SpecNet.
From Verif Require Import NetProofs KingProofs RoundProofs FewProofs AddThm NetThm.
Set Implicit Arguments.
Unset Strict Implicit.
Unset Printing Implicit Defensive.
From Verif Require Import MuxThm.

(** C72: [test_multiplexing] among any number of parties, the peers visited in any order: in every
    schedule each party gets, on each of the three streams, the identifiers of all others, in the
    order in which it visits them, modulo 256 *)
Theorem C72_ids n (ord : nat -> seq nat) : (forall p, p < n -> perm_eq (ord p) (iota 0 n)) ->
  exists ids, every_schedule (mkseq (fun p => multiplexing p (ord p) Ok) n) predT ids /\
    forall p s, p < n -> [seq e.2 | e <- ids p & e.1 == s] =
      if s < 3 then [seq q %% 256 | q <- ord p & q != p] else [::].
Proof. exact: c72_ids. Qed.
Print Assumptions C72_ids.

(** C72: the assertion holds at every party when there are at most 256 parties *)
Theorem C72_test (dbg : bool) n (ord : nat -> seq nat) : n <= 256 ->
  (forall p, p < n -> perm_eq (ord p) (iota 0 n)) ->
  every_schedule (mkseq (fun p => test_multiplexing dbg (\sum_(i < n) i) p (ord p)) n) predT (fun _ => tt).
Proof. exact: c72_test. Qed.
Print Assumptions C72_test.

(** C72: with more parties it fails at every party that hears from another one whose identifier is
    no byte, and nowhere else: every schedule can be completed, and the end state is this one *)
Theorem C72_too_many (dbg : bool) n (ord : nat -> seq nat) : \sum_(i < n) i < 256 ^ 4 ->
  (forall p, p < n -> perm_eq (ord p) (iota 0 n)) ->
  exists (N : nat) (d : cfg unit), [/\ final d,
    forall p, p < n -> nth PHalt (procs d) p =
      PRet (if [forall q : 'I_n, (q != p :> nat) ==> (q < 256)] then Ok tt else Panic) &
    forall s c, all clean s ->
      run s (init (mkseq (fun p => test_multiplexing dbg (\sum_(i < n) i) p (ord p)) n)) = Some c ->
      exists s', [/\ all clean s', run s' c = Some d & size s + size s' = N]].
Proof. exact: c72_too_many. Qed.
Print Assumptions C72_too_many.

(** C72: [add_protocol_inner] of prod.rs: every party gets the sum of all identifiers modulo 2^32,
    in every schedule, so the final assertion holds *)
Theorem C72_add_protocol (dbg : bool) n sid ord : 0 < n <= 256 ^ 4 -> hash_ok ord ->
  (dbg -> \sum_(i < n) i < 256 ^ 4) ->
  exists expected, [/\ expected_sum dbg n = Ok expected,
    every_schedule (mkseq (fun p => pthread sid (add_protocol dbg n p ord)) n) predT (fun _ => expected) &
    add_protocol_check expected (mkseq (fun _ => expected) n)].
Proof. exact: c72_add_protocol. Qed.
Print Assumptions C72_add_protocol.

