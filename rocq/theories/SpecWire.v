(** Specification vocabulary for the wire format and the set-up of the networks. *)
From mathcomp Require Import all_ssreflect.
From Verif Require Import Base ModelNet SpecNet.
Set Implicit Arguments.
Unset Strict Implicit.
Unset Printing Implicit Defensive.

(** [x] written with [k] bytes, most significant byte first *)
Definition big_endian (k x : nat) : seq nat := [seq (x %/ 256 ^ (k - i)) %% 256 | i <- iota 1 k].

(** the layout of a stream of frames: every payload preceded by its length *)
Definition layout (bs : seq bytes) : bytes := flatten [seq big_endian 4 (size b) ++ b | b <- bs].

(** the payloads [bs] whose frames are complete in the first [k] bytes of the stream *)
Definition complete (k : nat) (bs : seq bytes) : seq bytes :=
  take (find (fun j => k < size (layout (take j.+1 bs))) (iota 0 (size bs))) bs.

(** every two different parties below [n] are connected by one stream, opened by the smaller one,
    in the tables of both; nobody is connected to itself *)
Definition full_mesh (n : nat) (table : seq (seq (option nat))) : Prop :=
  forall p q, p < n -> q < n ->
    nth None (nth [::] table p) q = if p == q then None else Some (minn p q).

(** A thread without collections gets the messages [tr] (sender, content), in this order, and
    ends with [r]. *)
Inductive receives B : cproc B -> seq (nat * bytes) -> res B -> Prop :=
| RRet r : receives (CRet r) [::] r
| RSend to b k tr r : receives k tr r -> receives (CSend to b k) tr r
| RRecv f b k tr r : receives (k b) tr r -> receives (CRecv f k) ((f, b) :: tr) r.

(** the messages of sender [f] in a trace *)
Definition from_party (f : nat) (tr : seq (nat * bytes)) : seq bytes :=
  [seq e.2 | e <- tr & e.1 == f].

(** connection [c] of [k] is the last one on which its id is declared *)
Definition last_declared (k : nat) (ids : nat -> nat) (c : nat) : bool :=
  (0 < c <= k) && all (fun j => ids j != ids c) (iota c.+1 (k - c)).

(** the number written with the bytes [b], most significant byte first *)
Definition number (b : bytes) : nat := foldl (fun v x => 256 * v + x) 0 b.

(** Whatever the order in which the parties act and messages arrive, nothing is left to be done at
    some point except that the king (party 0) panics. *)
Definition king_panics_last A (ps : seq (pproc A)) : Prop :=
  exists d d' : cfg A, [/\ final d, step (0, LAbort 0) d = Some d',
    nth PHalt (procs d') 0 = PRet Panic &
    forall s c, all clean s -> run s (init ps) = Some c ->
      exists s', all clean s' /\ run s' c = Some d].

Definition little_endian (k x : nat) : seq nat := rev (big_endian k x).
