(** Property theorems only; proofs are in SetupThm.v. *)
From mathcomp Require Import all_ssreflect.
From mathcomp Require Import zify.
From Verif Require Import Base ModelNet ModelWire ModelSetup SpecNet SpecWire.
From Verif Require Import NetProofs KingProofs RoundProofs NetThm WireProofs SetupProofs MeshProofs GenesisProofs.
Set Implicit Arguments.
Unset Strict Implicit.
Unset Printing Implicit Defensive.
From Verif Require Import SetupThm.

(** C47: if the peers declare different ids, then whatever the order of events everybody succeeds,
    and the king's table has exactly one entry per declared id, the right connection. *)
Theorem C47_setup k (ids : nat -> nat) ord : hash_ok ord ->
  (forall c, 0 < c <= k -> ids c < 256 ^ 4) ->
  (forall c c', 0 < c <= k -> 0 < c' <= k -> ids c = ids c' -> c = c') ->
  exists2 table, perm_eq table [seq (ids c, c) | c <- iota 1 k] &
    every_schedule (mkseq (fun p => pthread 0 (prod_setup k ids ord p)) k.+1) predT
      (fun p => if p == 0 then table else [:: (0, 0)]).
Proof. exact: c47_setup. Qed.
Print Assumptions C47_setup.

(** C47: in every network and every schedule, also with failures, in which the king's set-up
    succeeds: on every connection it has first received at least four bytes, the declared id; its
    table contains for every declared id the last connection on which it was declared; it has
    received SynAck on every connection of the table, and nothing else. *)
Theorem C47_king_heard ps sid k ord s c peers : hash_ok ord ->
  nth PHalt ps 0 = pthread sid (king_setup k ord) -> run s (init ps) = Some c ->
  nth PHalt (procs c) 0 = PRet (Ok peers) ->
  exists hello : nat -> bytes, let ids := fun c => number (take 4 (hello c)) in [/\
    forall c, 0 < c <= k -> 4 <= size (hello c),
    perm_eq peers [seq (ids c, c) | c <- iota 1 k & last_declared k ids c],
    forall c, 0 < c <= k -> exists2 ack, got s (init ps) sid c 0 = hello c :: ack &
      if last_declared k ids c then exists2 b, ack = [:: b] & take 4 b = [:: 1; 0; 0; 0]
      else ack = [::] &
    forall c, ~~ (0 < c <= k) -> got s (init ps) sid c 0 = [::]].
Proof. exact: c47_king_heard. Qed.
Print Assumptions C47_king_heard.

(** C47: a peer whose set-up succeeds was given one connection and has received Syn from the king,
    and nothing else. *)
Theorem C47_peer_heard ps sid p ios id s c v :
  nth PHalt ps p = pthread sid (peer_setup ios id) -> run s (init ps) = Some c ->
  nth PHalt (procs c) p = PRet (Ok v) ->
  [/\ ios = 1, v = [:: (0, 0)],
      exists2 b, got s (init ps) sid 0 p = [:: b] & take 4 b = [:: 0; 0; 0; 0] &
      forall f, 0 < f -> got s (init ps) sid f p = [::]].
Proof. exact: c47_peer_heard. Qed.
Print Assumptions C47_peer_heard.

(** C47: a peer with any other number of connections fails without sending anything. *)
Theorem C47_one_connection ios id : ios != 1 -> peer_setup ios id = CRet (Err BadInput).
Proof. exact: c47_one_connection. Qed.
Print Assumptions C47_one_connection.

(** C48: with arbitrary declared ids the king always succeeds, with the last connection for every
    id; the peers on the other connections wait for ever. *)
Theorem C48_last_wins k (ids : nat -> nat) ord : hash_ok ord ->
  (forall c, 0 < c <= k -> ids c < 256 ^ 4) ->
  let ps := mkseq (fun p => pthread 0 (prod_setup k ids ord p)) k.+1 in
  exists2 table, perm_eq table [seq (ids c, c) | c <- iota 1 k & last_declared k ids c] &
    every_schedule ps (fun p => (p == 0) || last_declared k ids p)
      (fun p => if p == 0 then table else [:: (0, 0)]) /\
    forall s c p r, all clean s -> run s (init ps) = Some c -> 0 < p <= k ->
      ~~ last_declared k ids p -> nth PHalt (procs c) p <> PRet r.
Proof. exact: c48_last_wins. Qed.
Print Assumptions C48_last_wins.

(** C48: the claim is false: two peers declare id 5; the king ends with one connection, the first
    peer can never act again. *)
Theorem C48_identities_refuted : exists d,
  run duplicate_run (init (mkseq (fun p => pthread 0 (prod_setup 2 (fun _ => 5) id p)) 3)) = Some d /\
  [/\ returned (nth PHalt (procs d) 0) = Some (Ok [:: (5, 2)]),
      returned (nth PHalt (procs d) 1) = None, all clean duplicate_run &
      forall la, clean (1, la) -> step (1, la) d = None].
Proof. exact: c48_identities_refuted. Qed.
Print Assumptions C48_identities_refuted.

(** C49: however the parties' connection loops interleave, they can be completed, in [n (n - 1)]
    steps in total; then every pair of parties is connected by one stream opened by the smaller id,
    every party has made and accepted as many connections as it intended to, and no connection is
    left unaccepted. *)
Theorem C49_mesh n s m : run_mesh n s (mesh_new n) = Some m ->
  exists s' m', [/\ run_mesh n s' m = Some m', size s + size s' = n * (n - 1),
    forall a, step_mesh n a m' = None, full_mesh n (table m') &
    forall p, p < n -> [/\ nth 0 (made m') p = n - 1 - p, nth 0 (taken m') p = p &
                           nth [::] (pending m') p = [::]]].
Proof. exact: c49_mesh. Qed.
Print Assumptions C49_mesh.

(** C50: in the local network [is_init] is false for every party at every time, also when the
    initialisation has succeeded: the entry of the party itself never gets a stream. *)
Theorem C50_local_refuted n s m p : run_mesh n s (mesh_new n) = Some m -> p < n ->
  ~~ is_init (nth [::] (table m) p) /\
  ((forall a, step_mesh n a m = None) -> streams_ok p (nth [::] (table m) p)).
Proof. exact: c50_local_refuted. Qed.
Print Assumptions C50_local_refuted.

(** C50: in the production network it is true for every table. *)
Theorem C50_production peers : is_init (prod_table peers).
Proof. exact: c50_production. Qed.
Print Assumptions C50_production.

(** C51: with everybody in time, every party gets its own id back. *)
Theorem C51_genesis n ord : 0 < n -> n <= 256 ^ 4 -> hash_ok ord ->
  every_schedule (mkseq (fun p => pthread 0 (genesis n p ord)) n) predT id.
Proof. exact: c51_genesis. Qed.
Print Assumptions C51_genesis.

(** C51: if any set of other parties never sends, then whatever the order of events the king ends
    in a panic. *)
Theorem C51_late_panics n ord (late : pred nat) : n <= 256 ^ 4 -> hash_ok ord -> ~~ late 0 ->
  has late (iota 1 n.-1) ->
  king_panics_last (mkseq (fun p => pthread 0 (if late p then CHalt else genesis n p ord)) n).
Proof. exact: c51_late_panics. Qed.
Print Assumptions C51_late_panics.

(** C51: the claim is false: party 2 is late, the king panics, and party 1 has succeeded. *)
Theorem C51_error_refuted : exists d,
  run late_run (init (mkseq (fun p => pthread 0 (genesis 3 p id)) 3)) = Some d /\
  [/\ returned (nth PHalt (procs d) 0) = Some Panic, returned (nth PHalt (procs d) 1) = Some (Ok 1) &
      returned (nth PHalt (procs d) 2) = None].
Proof. exact: c51_error_refuted. Qed.
Print Assumptions C51_error_refuted.

(** C54: in whatever order the nodes are stored, the rounds run them in the order of their ids and
    return the results in this order; the lossy one leaves out the last party. *)
Theorem C54_round K nodes n (f : nat -> res K) g : perm_eq nodes (iota 0 n) ->
  (forall i, i < n -> f i = Ok (g i)) -> simulate_network_round nodes f = Ok (mkseq g n).
Proof. exact: c54_round. Qed.
Print Assumptions C54_round.

Theorem C54_lossy K nodes n (f : nat -> res K) g : 0 < n -> perm_eq nodes (iota 0 n) ->
  (forall i, i < n -> f i = Ok (g i)) ->
  simulate_lossy_network_round nodes f = Ok (Received (mkseq g (n - 1)) (iota 0 (n - 1))).
Proof. exact: c54_lossy. Qed.
Print Assumptions C54_lossy.

