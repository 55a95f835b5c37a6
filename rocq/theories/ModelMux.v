(** The tests of mpc-net: [test_multiplexing] of multi.rs and the exchange of identifiers of
    prod.rs, for any number of parties.

    A sequential program that uses several streams is a sequence of phases of one thread.  The
    [unwrap]s of sends and receives are the failures of the network (an error ends the party). *)
From mathcomp Require Import all_ssreflect.
From Verif Require Import Base ModelNet ModelDemo.
Set Implicit Arguments.
Unset Strict Implicit.
Unset Printing Implicit Defensive.

(** multi.rs:418-429 [send_stream] and 431-446 [recv_stream] called on their own *)
Definition send_on (sid to : nat) (b : bytes) : pproc unit := pthread sid (CSend to b (CRet (Ok tt))).
Definition recv_on (sid from : nat) : pproc bytes := pthread sid (CRecv from (fun b => CRet (Ok b))).

(** the order in which the nested loops over [conn.peers.values()] and [sids] visit the streams;
    [peers] lists the keys of the hash map, which contains the party itself *)
Definition visits (me : nat) (peers : seq nat) : seq (nat * nat) :=
  [seq (sid, peer) | peer <- [seq p <- peers | p != me], sid <- [:: 0; 1; 2]].

(** multi.rs:468-481 *)
Fixpoint broadcast (b : bytes) (todo : seq (nat * nat)) : pproc unit :=
  if todo is (sid, peer) :: todo' then
    pbind (send_on sid peer b) (fun _ => broadcast b todo')
  else PRet (Ok tt).

(** multi.rs:484-497; the hash map [ids] is the list of what is pushed, with the stream *)
Fixpoint collect (todo ids : seq (nat * nat)) : pproc (seq (nat * nat)) :=
  if todo is (sid, peer) :: todo' then
    pbind (recv_on sid peer) (fun b =>
    pbind (PRet (vget b 0)) (fun decoded => collect todo' (rcons ids (sid, decoded))))
  else PRet (Ok ids).

(** multi.rs:499-501: one assertion for every stream that has an entry (in hash map order; all
    lists have the same sum) *)
Definition check_sums (dbg : bool) (expected me : nat) (ids : seq (nat * nat)) : res unit :=
  foldM (fun _ sid =>
    if sid \in unzip1 ids then
      let! sum := foldM (u32_add dbg) 0 [seq e.2 | e <- ids & e.1 == sid] in
      let! sum' := u32_add dbg sum me in
      rassert (expected == sum')
    else Ok tt) tt [:: 0; 1; 2].

(** multi.rs:454-504 [test_multiplexing], the closure run by party [me] ([my_id as u8] is the
    remainder modulo 256), with any use [rest] of the received identifiers; and with the assertion *)
Definition multiplexing B (me : nat) (peers : seq nat) (rest : seq (nat * nat) -> res B) : pproc B :=
  pbind (pbind (broadcast [:: me %% 256] (visits me peers)) (fun _ => collect (visits me peers) [::]))
        (fun ids => PRet (rest ids)).

Definition test_multiplexing (dbg : bool) (expected me : nat) (peers : seq nat) : pproc unit :=
  multiplexing me peers (check_sums dbg expected me).

(** prod.rs:517-571 [add_protocol_inner], the closure run by party [me] of [n = n_peers + 1]; the
    king returns the sum itself, the peers what they decode (bincode: four bytes, little endian) *)
Definition add_protocol (dbg : bool) (n me : nat) (ord : hash_order) : cproc nat :=
  do! king_recv := csokr_ser u32_codec n me ord me 0 in
  match king_recv with
  | Some rs =>
      do! _ := clift (rassert (me == 0)) in
      do! sum := clift (foldM (u32_add dbg) 0 (shares rs)) in
      do! _ := client_receive_or_king_send n me (Some (nseq n (enc u32_codec sum))) in
      CRet (Ok sum)
  | None =>
      do! _ := clift (rassert (me != 0)) in
      do! b := client_receive_or_king_send n me None in
      clift (decode u32_codec b)
  end.

(** prod.rs:570 the final assertion *)
Definition add_protocol_check (expected : nat) (sums : seq nat) : bool := all (pred1 expected) sums.
