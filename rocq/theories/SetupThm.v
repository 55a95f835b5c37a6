(** mpc-net/src/multi.rs, prod.rs: theorems on the set-up of the networks. *)
From mathcomp Require Import all_ssreflect.
From mathcomp Require Import zify.
From Verif Require Import Base ModelNet ModelWire ModelSetup SpecNet SpecWire.
From Verif Require Import NetProofs KingProofs RoundProofs NetThm WireProofs SetupProofs MeshProofs GenesisProofs.
Set Implicit Arguments.
Unset Strict Implicit.
Unset Printing Implicit Defensive.

(** a run with two peers that declare the same id *)
Definition duplicate_run : seq action :=
  [:: (1, LThread 0 KOp); (2, LThread 0 KOp); (0, LThread 0 KOp); (0, LThread 0 KOp);
      (0, LThread 0 KOp); (2, LThread 0 KOp); (2, LThread 0 KOp); (0, LThread 0 KOp);
      (2, LJoin); (0, LJoin)].

(** a genesis round of three parties in which the timeout passes before the message of party 2
    arrives *)
Definition late_run : seq action :=
  [:: (1, LThread 0 KOp); (0, LThread 0 (KArrive 1)); (0, LThread 0 KTimeout); (2, LThread 0 KOp);
      (0, LThread 0 KOp); (1, LThread 0 KOp); (1, LJoin); (0, LAbort 0)].

Definition returned A (x : pproc A) : option (res A) := if x is PRet r then Some r else None.

(*** theorems ***)

(** C47: if the peers declare different ids, then whatever the order of events everybody succeeds,
    and the king's table has exactly one entry per declared id, the right connection. *)
Lemma c47_setup k (ids : nat -> nat) ord : hash_ok ord ->
  (forall c, 0 < c <= k -> ids c < 256 ^ 4) ->
  (forall c c', 0 < c <= k -> 0 < c' <= k -> ids c = ids c' -> c = c') ->
  exists2 table, perm_eq table [seq (ids c, c) | c <- iota 1 k] &
    every_schedule (mkseq (fun p => pthread 0 (prod_setup k ids ord p)) k.+1) predT
      (fun p => if p == 0 then table else [:: (0, 0)]).
Proof.
move=> ordP ids_small ids_inj; have [T' [Q' [R T0 Tp _ _]]] := prod_setup_run ids_small ordP.
have al c : 0 < c <= k -> last_declared k ids c.
  move=> cI; rewrite /last_declared cI; apply/allP => j; rewrite mem_iota => jI.
  apply/eqP => E; have := ids_inj _ _ _ cI E; lia.
exists (declared k ids).
  rewrite /declared perm_rev (_ : [seq c <- _ | _] = iota 1 k) //.
  by apply/all_filterP/allP => c; rewrite mem_iota add1n ltnS; apply: al.
have [] // := channel_every 0 (ltn0Sn k) R (live := predT)
  (vals := fun p => if p == 0 then declared k ids else [:: (0, 0)]).
move=> p; rewrite ltnS => pk _; case: (posnP p) => [->//|p0].
by rewrite Tp ?p0 // ?al ?p0 //; case: p p0 {pk}.
Qed.

(** C47: in every network and every schedule, also with failures, in which the king's set-up
    succeeds: on every connection it has first received at least four bytes, the declared id; its
    table contains for every declared id the last connection on which it was declared; it has
    received SynAck on every connection of the table, and nothing else. *)
Lemma c47_king_heard ps sid k ord s c peers : hash_ok ord ->
  nth PHalt ps 0 = pthread sid (king_setup k ord) -> run s (init ps) = Some c ->
  nth PHalt (procs c) 0 = PRet (Ok peers) ->
  exists hello : nat -> bytes, let ids := fun c => number (take 4 (hello c)) in [/\
    forall c, 0 < c <= k -> 4 <= size (hello c),
    perm_eq peers [seq (ids c, c) | c <- iota 1 k & last_declared k ids c],
    forall c, 0 < c <= k -> exists2 ack, got s (init ps) sid c 0 = hello c :: ack &
      if last_declared k ids c then exists2 b, ack = [:: b] & take 4 b = [:: 1; 0; 0; 0]
      else ack = [::] &
    forall c, ~~ (0 < c <= k) -> got s (init ps) sid c 0 = [::]].
Proof. exact: king_trace. Qed.

(** C47: a peer whose set-up succeeds was given one connection and has received Syn from the king,
    and nothing else. *)
Lemma c47_peer_heard ps sid p ios id s c v :
  nth PHalt ps p = pthread sid (peer_setup ios id) -> run s (init ps) = Some c ->
  nth PHalt (procs c) p = PRet (Ok v) ->
  [/\ ios = 1, v = [:: (0, 0)],
      exists2 b, got s (init ps) sid 0 p = [:: b] & take 4 b = [:: 0; 0; 0; 0] &
      forall f, 0 < f -> got s (init ps) sid f p = [::]].
Proof. exact: peer_trace. Qed.

(** C47: a peer with any other number of connections fails without sending anything. *)
Lemma c47_one_connection ios id : ios != 1 -> peer_setup ios id = CRet (Err BadInput).
Proof. by rewrite /peer_setup => ->. Qed.

(** C48: with arbitrary declared ids the king always succeeds, with the last connection for every
    id; the peers on the other connections wait for ever. *)
Lemma c48_last_wins k (ids : nat -> nat) ord : hash_ok ord ->
  (forall c, 0 < c <= k -> ids c < 256 ^ 4) ->
  let ps := mkseq (fun p => pthread 0 (prod_setup k ids ord p)) k.+1 in
  exists2 table, perm_eq table [seq (ids c, c) | c <- iota 1 k & last_declared k ids c] &
    every_schedule ps (fun p => (p == 0) || last_declared k ids p)
      (fun p => if p == 0 then table else [:: (0, 0)]) /\
    forall s c p r, all clean s -> run s (init ps) = Some c -> 0 < p <= k ->
      ~~ last_declared k ids p -> nth PHalt (procs c) p <> PRet r.
Proof.
move=> ordP ids_small ps; have [T' [Q' [R T0 Tp Tn _]]] := prod_setup_run ids_small ordP.
exists (declared k ids); first by rewrite /declared perm_rev.
have [||H1 H2] := channel_every 0 (ltn0Sn k) R (live := fun p => (p == 0) || last_declared k ids p)
  (vals := fun p => if p == 0 then declared k ids else [:: (0, 0)]).
- move=> p; rewrite ltnS => pk; case: eqP => [->//|/eqP p0] /= al.
  by rewrite Tp // pk andbT lt0n.
- move=> p; rewrite ltnS negb_or => pk /andP[p0 na].
  have pI : 0 < p <= k by lia.
  by have [[K ->] Q0] := Tn p pI na; split=> //; rewrite eq_sym.
split=> // s c p r cs Rs pI na; apply: (H2 s c p r cs Rs); first by lia.
by rewrite negb_or na andbT; lia.
Qed.

(** C48: the claim is false: two peers declare id 5; the king ends with one connection, the first
    peer can never act again. *)
Lemma c48_identities_refuted : exists d,
  run duplicate_run (init (mkseq (fun p => pthread 0 (prod_setup 2 (fun _ => 5) id p)) 3)) = Some d /\
  [/\ returned (nth PHalt (procs d) 0) = Some (Ok [:: (5, 2)]),
      returned (nth PHalt (procs d) 1) = None, all clean duplicate_run &
      forall la, clean (1, la) -> step (1, la) d = None].
Proof.
set ps := mkseq _ _; case E: (run duplicate_run (init ps)) => [d|]; last by move: E; vm_compute.
exists d; move: E; vm_compute => -[<-]; do !split.
case=> [[|j] k||j] //=; first by case: k.
Qed.

(** C49: however the parties' connection loops interleave, they can be completed, in [n (n - 1)]
    steps in total; then every pair of parties is connected by one stream opened by the smaller id,
    every party has made and accepted as many connections as it intended to, and no connection is
    left unaccepted. *)
Lemma c49_mesh n s m : run_mesh n s (mesh_new n) = Some m ->
  exists s' m', [/\ run_mesh n s' m = Some m', size s + size s' = n * (n - 1),
    forall a, step_mesh n a m' = None, full_mesh n (table m') &
    forall p, p < n -> [/\ nth 0 (made m') p = n - 1 - p, nth 0 (taken m') p = p &
                           nth [::] (pending m') p = [::]]].
Proof.
move=> R; have H0 := mesh_inv_new n; have [h Hi] := mesh_run_inv H0 R.
have [s' [m' [R' St [h' Hi']]]] := mesh_completes Hi; exists s', m'.
have [Fm Em Et] := mesh_stuck Hi' St; split=> //.
  have := mesh_run_count Hi R'; have := mesh_run_count H0 R; rewrite Em Et total_steps /=.
  have -> : sumn (nseq n 0) = 0 by rewrite sumn_nseq mul0n.
  lia.
move=> p pn; rewrite Em Et !nth_mkseq //; split=> //.
have Hs := hist_size Hi' pn; have [_ _ _ Hq _] := Hi'; have [_ _ -> _] := Hq p pn.
by rewrite Et nth_mkseq // drop_oversize.
Qed.

(** C50: in the local network [is_init] is false for every party at every time, also when the
    initialisation has succeeded: the entry of the party itself never gets a stream. *)
Lemma c50_local_refuted n s m p : run_mesh n s (mesh_new n) = Some m -> p < n ->
  ~~ is_init (nth [::] (table m) p) /\
  ((forall a, step_mesh n a m = None) -> streams_ok p (nth [::] (table m) p)).
Proof.
move=> R pn; have [h Hi] := mesh_run_inv (mesh_inv_new n) R.
have [[_ _ _ _] Sr _ Hq Ht] := Hi; split.
  apply/negP => /allP /(_ (nth None (nth [::] (table m) p) p)).
  rewrite mem_nth ?Sr // => /(_ isT); rewrite Ht // ltnn.
  case: ifP => // /mem_take; have [_ _ _ ->] := Hq p pn; lia.
move=> St; have [Fm _ _] := mesh_stuck Hi St; rewrite /streams_ok Sr //.
apply/allP => q; rewrite mem_iota add0n => /andP[_ qn]; rewrite Fm // eq_sym.
by case: eqP.
Qed.

(** C50: in the production network it is true for every table. *)
Lemma c50_production peers : is_init (prod_table peers).
Proof. by rewrite /is_init /prod_table all_map; apply/allP. Qed.

(** C51: with everybody in time, every party gets its own id back. *)
Lemma c51_genesis n ord : 0 < n -> n <= 256 ^ 4 -> hash_ok ord ->
  every_schedule (mkseq (fun p => pthread 0 (genesis n p ord)) n) predT id.
Proof. by move=> n0 nb ordP; apply: prog_schedules => //; apply: genesis_prog. Qed.

(** C51: if any set of other parties never sends, then whatever the order of events the king ends
    in a panic. *)
Lemma c51_late_panics n ord (late : pred nat) : n <= 256 ^ 4 -> hash_ok ord -> ~~ late 0 ->
  has late (iota 1 n.-1) ->
  king_panics_last (mkseq (fun p => pthread 0 (if late p then CHalt else genesis n p ord)) n).
Proof. exact: genesis_late_panics. Qed.

(** C51: the claim is false: party 2 is late, the king panics, and party 1 has succeeded. *)
Lemma c51_error_refuted : exists d,
  run late_run (init (mkseq (fun p => pthread 0 (genesis 3 p id)) 3)) = Some d /\
  [/\ returned (nth PHalt (procs d) 0) = Some Panic, returned (nth PHalt (procs d) 1) = Some (Ok 1) &
      returned (nth PHalt (procs d) 2) = None].
Proof.
set ps := mkseq _ _; case E: (run late_run (init ps)) => [d|]; last by move: E; vm_compute.
by exists d; move: E; vm_compute => -[<-].
Qed.

(** C54: in whatever order the nodes are stored, the rounds run them in the order of their ids and
    return the results in this order; the lossy one leaves out the last party. *)
Lemma c54_round K nodes n (f : nat -> res K) g : perm_eq nodes (iota 0 n) ->
  (forall i, i < n -> f i = Ok (g i)) -> simulate_network_round nodes f = Ok (mkseq g n).
Proof.
move=> Hp Hf; rewrite /simulate_network_round.
have -> : sort leq nodes = iota 0 n.
  apply: (sorted_eq leq_trans anti_leq); [exact: sort_sorted leq_total _|exact: iota_sorted|].
  by rewrite perm_sort.
by rewrite (@mapM_ok _ _ f g) // => i0 i; rewrite size_iota => il; rewrite nth_iota //; apply: Hf.
Qed.

Lemma c54_lossy K nodes n (f : nat -> res K) g : 0 < n -> perm_eq nodes (iota 0 n) ->
  (forall i, i < n -> f i = Ok (g i)) ->
  simulate_lossy_network_round nodes f = Ok (Received (mkseq g (n - 1)) (iota 0 (n - 1))).
Proof.
move=> n0 Hp Hf; rewrite /simulate_lossy_network_round -/(simulate_network_round nodes f).
rewrite (c54_round Hp Hf) /= size_sort (perm_size Hp) size_iota.
have -> : (n == 0) = false by lia.
congr (Ok (Received _ _)); rewrite /mkseq -map_take take_iota; congr (map _ (iota _ _)); lia.
Qed.
