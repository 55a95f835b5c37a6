(** The production network after its set-up: programs that address parties by their ids, on nodes
    that know each other by connections. *)
From mathcomp Require Import all_ssreflect.
From Verif Require Import Base ModelNet ModelSetup.
Set Implicit Arguments.
Unset Strict Implicit.
Unset Printing Implicit Defensive.

(** The nodes are those of ModelSetup: node 0 is the king, node [c] is the other end of the king's
    connection [c]; [n] is [n_parties] and the number of nodes.  [peers] is the table of a node as
    its set-up has returned it, a list of (id, node). *)

(** mpc-net/src/prod.rs:318-320, 339-341 [self.connections.peers.get(&id)]: the node to which the
    id leads.  An id that is not in the table gives the number [n], which is no node: sending to it
    and receiving from it fails with a [Generic] error, as "Peer not found" does. *)
Definition addr (n : nat) (peers : seq (nat * nat)) (id : nat) : nat :=
  nth n [seq e.2 | e <- peers & e.1 == id] 0.

(** mpc-net/src/lib.rs:99-113 on such a network: the results store has the ids as keys, what
    arrives comes from nodes.  [to_ids] is the store of the code for what the nodes have sent.  An id that
    is not in the table gives no entry (the error of [recv_from] is dropped, lib.rs:103).
    Simplification: the king also takes a message from nodes that its table does not contain, and
    drops it; in the code it stays in the stream. *)
Definition to_ids (n : nat) (peers : seq (nat * nat)) (st : seq (option bytes)) : seq (option bytes) :=
  mkseq (fun id => if id == 0 then nth None st 0 else nth None st (addr n peers id)) n.

(** the opposite, for a collection that has begun *)
Definition id_at (n : nat) (peers : seq (nat * nat)) (c : nat) : nat :=
  if c == 0 then 0 else (find (fun id => addr n peers id == c) (iota 1 n.-1)).+1.
Definition to_conns (n : nat) (peers : seq (nat * nat)) (st : seq (option bytes)) :
    seq (option bytes) :=
  mkseq (fun c => nth None st (id_at n peers c)) n.

(** prod.rs:313-349: a thread whose [send_to] and [recv_from] go through the table *)
Fixpoint over B (n : nat) (peers : seq (nat * nat)) (t : cproc B) : cproc B :=
  match t with
  | CRet r => CRet r
  | CSend to b k => CSend (addr n peers to) b (over n peers k)
  | CRecv from k => CRecv (addr n peers from) (fun b => over n peers (k b))
  | CGather st k => CGather (to_conns n peers st) (fun st => over n peers (k (to_ids n peers st)))
  | CHalt => CHalt
  end.

(** the same for a party *)
Fixpoint pover A (n : nat) (peers : seq (nat * nat)) (x : pproc A) : pproc A :=
  match x with
  | PRet r => PRet r
  | PJoin B ts k => PJoin [seq (st.1, over n peers st.2) | st <- ts] (fun rs => pover n peers (k rs))
  | PHalt => PHalt
  end.

(** the table of a peer, prod.rs:223-237 *)
Definition peer_table : seq (nat * nat) := [:: (0, 0)].

(** The network in which the king has the table [peers], and node [c] runs the program of the id
    [ids c] that it has declared; [P id] is the program of party [id]. *)
Definition prod_net A (n : nat) (peers : seq (nat * nat)) (ids : nat -> nat) (P : nat -> pproc A) :
    seq (pproc A) :=
  mkseq (fun c => if c == 0 then pover n peers (P 0) else pover n peer_table (P (ids c))) n.

(** prod.rs:188-242, then the program of the party: node [c] of the [k + 1] sets up its connections
    and runs the program of the id it has declared on the table it has got *)
Definition prod_main A (k : nat) (ids : nat -> nat) (ord : hash_order) (P : nat -> pproc A) (c : nat) :
    pproc A :=
  pbind (pthread 0 (prod_setup k ids ord c))
        (fun peers => pover k.+1 peers (P (if c == 0 then 0 else ids c))).
