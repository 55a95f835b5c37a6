(** Specification vocabulary for executions. *)
From mathcomp Require Import all_ssreflect.
From Verif Require Import Base ModelNet.
Set Implicit Arguments.
Unset Strict Implicit.
Unset Printing Implicit Defensive.

(** nothing more can happen *)
Definition final A (c : cfg A) : Prop := forall a, clean a -> step a c = None.

(** Whatever the order in which the parties act and messages arrive (no premature timeout, no
    broken connection), the execution is finite and can only end in one state, in which every
    live party has returned its value; and no live party fails on the way. *)
Definition every_schedule A (ps : seq (pproc A)) (live : pred nat) (vals : nat -> A) : Prop :=
  exists (N : nat) (d : cfg A), [/\
    forall p, p < size ps -> live p -> nth PHalt (procs d) p = PRet (Ok (vals p)),
    final d &
    forall s c, all clean s -> run s (init ps) = Some c ->
      (exists s', [/\ all clean s', run s' c = Some d & size s + size s' = N]) /\
      forall p j, p < size ps -> live p -> step (p, LAbort j) c = None].

(** the parties [P 0 .. P (n-1)], party [d] crashing at the point [(f, ms)] (see [pcrash]);
    for [d >= n] nobody crashes *)
Definition crashing A (n d f : nat) (ms : nat -> nat) (P : nat -> pproc A) : seq (pproc A) :=
  mkseq (fun p => if p == d then pcrash f ms (P p) else P p) n.

(** a thread that sends [outs id] to every [id] of the list in turn and goes on with [k] *)
Definition sends B (outs : nat -> bytes) (ids : seq nat) (k : cproc B) : cproc B :=
  foldr (fun id k => CSend id (outs id) k) k ids.

(** a serialization with [m] bytes per value, which can be decoded from the front of any input and
    does not decode shorter inputs *)
Definition codec_ok T (c : codec T) (m : nat) : Prop :=
  [/\ forall x, size (enc c x) = m,
      forall x rest, dec c (enc c x ++ rest) = Some (x, rest) &
      forall b, size b < m -> dec c b = None].

(** an iteration order visits every key once *)
Definition hash_ok (ord : hash_order) : Prop := forall s, perm_eq (ord s) s.

(** ** Traces *)

(** the message that action [a] sends in state [c] on the stream [(sid, from, to)], if any *)
Definition sent_by A (a : action) (c : cfg A) (sid from to : nat) : seq bytes :=
  match a, nth PHalt (procs c) from with
  | (p, LThread j KOp), PJoin B ts k =>
      match nth (0, CHalt) ts j with
      | (s, CSend t b _) =>
          if [&& p == from, s == sid, t == to, to < size (procs c) & to != from] then [:: b] else [::]
      | _ => [::]
      end
  | _, _ => [::]
  end.

(** does action [a] of state [c] take a message from the stream [(sid, from, to)] *)
Definition takes A (a : action) (c : cfg A) (sid from to : nat) : bool :=
  match a, nth PHalt (procs c) to with
  | (p, LThread j KOp), PJoin B ts k =>
      match nth (0, CHalt) ts j with
      | (s, CRecv f _) => [&& p == to, s == sid, f == from, from < size (procs c) & from != to]
      | _ => false
      end
  | (p, LThread j (KArrive id)), PJoin B ts k =>
      match nth (0, CHalt) ts j with
      | (s, CGather _ _) => [&& p == to, s == sid & id == from]
      | _ => false
      end
  | _, _ => false
  end.

(** all messages sent on the stream during a schedule, and all messages received from it *)
Fixpoint sent A (s : seq action) (c : cfg A) (sid from to : nat) : seq bytes :=
  if s is a :: s' then
    sent_by a c sid from to ++ (if step a c is Some c' then sent s' c' sid from to else [::])
  else [::].

Fixpoint got A (s : seq action) (c : cfg A) (sid from to : nat) : seq bytes :=
  if s is a :: s' then
    (if takes a c sid from to then take 1 (queue c sid from to) else [::])
    ++ (if step a c is Some c' then got s' c' sid from to else [::])
  else [::].

(** a program that takes part in one collection by the king for every entry of [bs] *)
Fixpoint rounds (n me : nat) (ord : hash_order) (bs : seq bytes) : cproc (seq (option csokr)) :=
  if bs is b :: bs' then
    do! r := client_send_or_king_receive n me ord b in
    do! rs := rounds n me ord bs' in
    CRet (Ok (r :: rs))
  else CRet (Ok [::]).

(** Whatever the order in which the parties act and messages arrive, the execution is finite and
    can only end in one state, in which the king (party 0) fails with [v] and all others wait for
    ever; no other party has ever returned anything. *)
Definition king_fails A (ps : seq (pproc A)) (v : res A) : Prop :=
  exists d d' : cfg A, [/\ final d, step (0, LAbort 0) d = Some d', final d',
    nth PHalt (procs d') 0 = PRet v &
    forall s c, all clean s -> run s (init ps) = Some c ->
      (exists s', all clean s' /\ run s' c = Some d) /\
      forall p r, 0 < p < size ps ->
        nth PHalt (procs c) p <> PRet r /\ nth PHalt (procs d') p <> PRet r].

(** the same with a panic of the king *)
Definition king_dies A (ps : seq (pproc A)) : Prop := king_fails ps Panic.

(** the [n] parties run the threads [prog 0 .. prog (n-1)] on stream [sid], those in [dead] do
    nothing at all *)
Definition with_silent A (n sid : nat) (dead : pred nat) (prog : nat -> cproc A) : seq (pproc A) :=
  mkseq (fun p => pthread sid (if dead p then CHalt else prog p)) n.

(** the number of parties below [n] that are not in [dead] *)
Definition live_count (n : nat) (dead : pred nat) : nat := count (predC dead) (iota 0 n).
