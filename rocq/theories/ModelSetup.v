(** Setting up the networks: prod.rs (king and peers over given connections), multi.rs (the local
    test network) and the simulation helpers. *)
From mathcomp Require Import all_ssreflect.
From Verif Require Import Base ModelNet ModelWire.
Set Implicit Arguments.
Unset Strict Implicit.
Unset Printing Implicit Defensive.

(** ** mpc-net/src/prod.rs:188-297

    The participants are the king, node 0, and the other ends 1..k of the connections [ios] handed
    to the king, in the order of [ios]; node [i] declares the id [ids i].  Simplifications: the four
    bytes of the id, which are sent before the connection is multiplexed, are a message of their
    own on the same stream; packets are messages (what ModelWire says about frames justifies it);
    TLS is not modelled. *)

(** [HashMap<u32, Peer>], as a list of (id, connection): insertion replaces an earlier entry *)
Definition peers_insert (peers : seq (nat * nat)) (id c : nat) : seq (nat * nat) :=
  (id, c) :: [seq e <- peers | e.1 != id].

(** [for c in cs { let b = recv(c).await?; s = f(s, c, b)?; }] *)
Fixpoint recv_each S (f : S -> nat -> bytes -> res S) (s : S) (cs : seq nat) : cproc S :=
  if cs is c :: cs' then CRecv c (fun b => do! s' := clift (f s c b) in recv_each f s' cs')
  else CRet (Ok s).

(** [for c in cs { send(c, b).await?; }] *)
Fixpoint send_each (b : bytes) (cs : seq nat) : cproc unit :=
  if cs is c :: cs' then CSend c b (send_each b cs') else CRet (Ok tt).

(** prod.rs:208-222, the body of the loop over the connections *)
Definition add_peer (peers : seq (nat * nat)) (c : nat) (b : bytes) : res (seq (nat * nat)) :=
  if size b < 4 then Err Generic else Ok (peers_insert peers (be_value (take 4 b)) c).

(** prod.rs:259-273, the check of the answer; [ids] finds the id under which the king knows [c] *)
Definition check_ack (peers : seq (nat * nat)) (_ : unit) (c : nat) (b : bytes) : res unit :=
  let! p := recv_packet b in
  if p is SynAck then Ok tt
  else Err (Protocol (nth 0 [seq e.1 | e <- peers & e.2 == c] 0)).

(** the entries of the table in iteration order *)
Definition peers_values (ord : hash_order) (peers : seq (nat * nat)) : seq nat :=
  [seq nth 0 [seq e.2 | e <- peers & e.1 == id] 0 | id <- ord [seq e.1 | e <- peers]].

(** prod.rs:246-274, the king's part of [synchronize] *)
Definition sync_king (ord : hash_order) (peers : seq (nat * nat)) : cproc unit :=
  let conns := peers_values ord peers in
  do! _ := send_each (enc_packet Syn) conns in
  recv_each (check_ack peers) tt conns.

(** prod.rs:188-242 with id 0 and [k] connections; returns the table of peers *)
Definition king_setup (k : nat) (ord : hash_order) : cproc (seq (nat * nat)) :=
  do! peers := recv_each add_peer [::] (iota 1 k) in
  do! _ := sync_king ord peers in
  clift (Ok peers).

(** prod.rs:188-242, 275-294 with an id that is not 0 and [ios] connections, the first one leading
    to the king *)
Definition peer_setup (ios id : nat) : cproc (seq (nat * nat)) :=
  if ios != 1 then CRet (Err BadInput) else
  CSend 0 (be_bytes 4 id) (CRecv 0 (fun b =>
    do! p := clift (recv_packet b) in
    if p is Syn then CSend 0 (enc_packet SynAck) (CRet (Ok [:: (0, 0)]))
    else CRet (Err (Protocol 0)))).

(** king and peers together *)
Definition prod_setup (k : nat) (ids : nat -> nat) (ord : hash_order) (p : nat) :
    cproc (seq (nat * nat)) :=
  if p == 0 then king_setup k ord else peer_setup 1 (ids p).

(** ** mpc-net/src/multi.rs:109-193, connecting everybody to everybody

    One state for the whole network.  [made p] is the number of connections party [p] has opened;
    [pending p] are the connections (ids of the openers) waiting to be accepted by [p];
    [table p] is the peer table of [p]: for every party whether there is a stream.
    A step is one iteration of the client loop or of the server loop of one party.  Connecting never
    fails because all listeners exist before (multi.rs:250-254). *)
Record mesh := Mesh { made : seq nat; taken : seq nat; pending : seq (seq nat);
                      table : seq (seq (option nat)) }.

(** multi.rs:244-279: the peer table of a party contains the party itself; no streams *)
Definition mesh_new (n : nat) : mesh :=
  Mesh (nseq n 0) (nseq n 0) (nseq n [::]) (nseq n (nseq n None)).

(** multi.rs:131-132 *)
Definition outbound (n me : nat) : nat := n - 1 - me.
Definition inbound (me : nat) : nat := me.

Inductive mesh_step := Connect of nat | Accept of nat.

(** A stream is identified with the party that opened it. *)
Definition set_stream (t : seq (seq (option nat))) (p q opener : nat) :=
  set_nth [::] t p (set_nth None (nth [::] t p) q (Some opener)).

Definition step_mesh (n : nat) (a : mesh_step) (m : mesh) : option mesh :=
  match a with
  | Connect p =>                                               (* multi.rs:159-183 *)
      let c := nth 0 (made m) p in
      if (p < n) && (c < outbound n p) then
        let to := p + c + 1 in
        Some (Mesh (set_nth 0 (made m) p c.+1) (taken m)
                   (set_nth [::] (pending m) to (rcons (nth [::] (pending m) to) p))
                   (set_stream (table m) p to p))
      else None
  | Accept p =>                                                (* multi.rs:135-150 *)
      let c := nth 0 (taken m) p in
      if (p < n) && (c < inbound p) then
        if nth [::] (pending m) p is q :: qs then
          Some (Mesh (made m) (set_nth 0 (taken m) p c.+1)
                     (set_nth [::] (pending m) p qs) (set_stream (table m) p q q))
        else None
      else None
  end.

Fixpoint run_mesh (n : nat) (s : seq mesh_step) (m : mesh) : option mesh :=
  if s is a :: s' then (if step_mesh n a m is Some m' then run_mesh n s' m' else None) else Some m.

(** multi.rs:390-392 [is_init] *)
Definition is_init (peers : seq (option nat)) : bool := all isSome peers.

(** multi.rs:221-232, the check at the end of [connect_to_all] *)
Definition streams_ok (me : nat) (peers : seq (option nat)) : bool :=
  all (fun q => (q == me) || isSome (nth None peers q)) (iota 0 (size peers)).

(** prod.rs:309-311: the table of a production network, every entry has a stream *)
Definition prod_table (peers : seq (nat * nat)) : seq (option nat) := [seq Some e.2 | e <- peers].

(** ** multi.rs:195-219, the genesis round *)

(** ark_serialize of [u32] *)
Definition u32_codec : codec nat :=
  Codec (le_bytes 4) (fun b => if size b < 4 then None else Some (le_value (take 4 b), drop 4 b)).

Definition genesis (n me : nat) (ord : hash_order) : cproc nat :=
  do! from_all := csokr_ser u32_codec n me ord me 0 in
  do! out := clift (if from_all is Some r then Ok (Some (shares r)) else Ok None) in
  do! v := crokss_ser u32_codec n me out in
  clift (Ok v).

(** ** multi.rs:301-363, [simulate_network_round] and [simulate_lossy_network_round]

    [nodes] is the hash map in iteration order; [f] gives the outcome of the task of a party.
    A task that panics makes [handle.await.unwrap()] panic. *)
Definition simulate_network_round K (nodes : seq nat) (f : nat -> res K) : res (seq K) :=
  mapM f (sort leq nodes).

Definition simulate_lossy_network_round K (nodes : seq nat) (f : nat -> res K) : res (received K) :=
  let! result := mapM f (sort leq nodes) in
  let n := size (sort leq nodes) in
  (* [n_parties - 1] overflows in debug builds; in release builds the slice is out of range *)
  if n == 0 then Panic else Ok (Received (take (n - 1) result) (iota 0 (n - 1))).
