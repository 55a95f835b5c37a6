(** Property theorems only; proofs are in NetThm.v. *)
From mathcomp Require Import all_ssreflect.
From mathcomp Require Import zify.
From Verif Require Import Base ModelNet SpecNet NetProofs KingProofs CrashProofs RoundProofs.
Set Implicit Arguments.
Unset Strict Implicit.
Unset Printing Implicit Defensive.
From Verif Require Import NetThm.

(** C41: whatever the order of arrival, the king obtains all messages in party order, with its own
    at index 0, and the others obtain nothing. *)
Theorem C41_king_collects n ord sid (b : nat -> bytes) : 0 < n ->
  every_schedule (mkseq (fun p => pthread sid (client_send_or_king_receive n p ord (b p))) n) predT
    (fun p => if p == 0 then Some (Full (mkseq b n)) else None).
Proof. exact: c41_king_collects. Qed.
Print Assumptions C41_king_collects.

(** C41, serialized: the king obtains the values sent and the ids [0 .. n-1]. *)
Theorem C41_king_collects_values T (c : codec T) n ord sid (x : nat -> T) thr : 0 < n ->
  hash_ok ord -> thr <= n.-1 -> (forall i, i < n -> decode c (enc c (x i)) = Ok (x i)) ->
  every_schedule (mkseq (fun p => pthread sid (csokr_ser c n p ord (x p) thr)) n) predT
    (fun p => if p == 0 then Some (Received (mkseq x n) (iota 0 n)) else None).
Proof. exact: c41_king_collects_values. Qed.
Print Assumptions C41_king_collects_values.

(** C42: in any execution, with any programs of the other parties, premature timeouts and failures,
    when the king's call returns: it has taken at most one message from each party; if it has one
    from each, it returns the decoded values in party order, or an error if one of them cannot be
    decoded; otherwise it returns the decodable ones with their senders, in some order, or a
    protocol error if there are fewer than [thr]. *)
Theorem C42_timeouts (T : eqType) (c : codec T) n ord out thr sid s
    (c0 c' : cfg (option (received T))) r :
  hash_ok ord -> size (procs c0) = n ->
  nth PHalt (procs c0) 0 = pthread sid (csokr_ser c n 0 ord out thr) ->
  run s c0 = Some c' -> nth PHalt (procs c') 0 = PRet r ->
  let heard := (0, enc c out) :: [seq (i, b) | i <- iota 1 n.-1, b <- got s c0 sid i 0] in
  let good := pmap (fun m => if decode c m.2 is Ok x then Some (m.1, x) else None) heard in
  (forall i, 0 < i < n -> size (got s c0 sid i 0) <= 1) /\
  if size heard == n then
    r = if size good == n then Ok (Some (Received [seq m.2 | m <- good] (iota 0 n))) else Err Generic
  else if size good < thr then r = Err (Protocol 0)
  else exists xs ids, [/\ r = Ok (Some (Received xs ids)), size xs = size ids
                        & perm_eq (zip ids xs) good].
Proof. exact: c42_timeouts. Qed.
Print Assumptions C42_timeouts.

(** C43: with at least [n] strings of the same length as entry 0 for the parties, every party obtains its entry. *)
Theorem C43_king_distributes n sid (outs : seq bytes) : 0 < n -> n <= size outs ->
  (forall i, i < n -> size (nth [::] outs i) = size (nth [::] outs 0)) ->
  every_schedule
    (mkseq (fun p => pthread sid (client_receive_or_king_send n p (if p == 0 then Some outs else None))) n)
    predT (nth [::] outs).
Proof. exact: c43_king_distributes. Qed.
Print Assumptions C43_king_distributes.

(** C43: a party other than the king may not supply data, and the king has to. *)
Theorem C43_wrong_role n me outs : me != 0 ->
  client_receive_or_king_send n me (Some outs) = CRet (Err BadInput) /\
  client_receive_or_king_send n 0 None = CRet (Err BadInput).
Proof. exact: c43_wrong_role. Qed.
Print Assumptions C43_wrong_role.

(** C43: the king reports the first party [i] whose string has another length than entry 0, after
    sending to the parties with smaller ids only. *)
Theorem C43_length_mismatch n (outs : seq bytes) i : 0 < i < n -> i < size outs ->
  (forall j, j < i -> size (nth [::] outs j) = size (nth [::] outs 0)) ->
  size (nth [::] outs i) <> size (nth [::] outs 0) ->
  client_receive_or_king_send n 0 (Some outs) =
  sends (nth [::] outs) (iota 1 i.-1) (CRet (Err (Protocol i))).
Proof. exact: c43_length_mismatch. Qed.
Print Assumptions C43_length_mismatch.

(** C43: it panics, after sending what there is, when there are fewer strings than parties. *)
Theorem C43_too_few n (outs : seq bytes) : 0 < size outs < n ->
  (forall j, j < size outs -> size (nth [::] outs j) = size (nth [::] outs 0)) ->
  client_receive_or_king_send n 0 (Some outs) =
  sends (nth [::] outs) (iota 1 (size outs).-1) (CRet Panic).
Proof. exact: c43_too_few. Qed.
Print Assumptions C43_too_few.

Theorem C43_none n : client_receive_or_king_send n 0 (Some [::]) = CRet Panic.
Proof. exact: c43_none. Qed.
Print Assumptions C43_none.

(** C44: if one schedule without premature timeouts and failures ends, then all such schedules can
    be completed, with the same number of steps and the same final state. *)
Theorem C44_schedule_independence A (c d : cfg A) s0 :
  (forall p, separate (nth PHalt (procs c) p)) ->
  all clean s0 -> run s0 c = Some d -> final d ->
  forall s c', all clean s -> run s c = Some c' ->
  exists s', [/\ all clean s', run s' c' = Some d & size s + size s' = size s0].
Proof. exact: c44_schedule_independence. Qed.
Print Assumptions C44_schedule_independence.

(** C44: hence two complete schedules agree. *)
Theorem C44_same_end A (c d d' : cfg A) s s' :
  (forall p, separate (nth PHalt (procs c) p)) ->
  all clean s -> run s c = Some d -> final d ->
  all clean s' -> run s' c = Some d' -> final d' -> d = d' /\ size s = size s'.
Proof. exact: c44_same_end. Qed.
Print Assumptions C44_same_end.

(** C44: crashes.  In whatever execution and at whatever moment party [d] stops, this is described
    by a crash point [(f, ms)]: with it the same schedule leads to the same messages in flight and
    the same states of the others, and from then on [d] sends nothing on any stream, whatever
    happens. *)
Theorem C44_every_stop_is_a_crash A n (P : nat -> pproc A) d s e : d < n ->
  run s (init (mkseq P n)) = Some e ->
  exists f ms e', [/\ run s (init (crashing n d f ms P)) = Some e', qs e' = qs e,
    forall p, p != d -> nth PHalt (procs e') p = nth PHalt (procs e) p &
    forall s' sid to, sent s' e' sid d to = [::]].
Proof. exact: c44_every_stop_is_a_crash. Qed.
Print Assumptions C44_every_stop_is_a_crash.

(** C44: conversely, whatever the crashing party does before it stops, and whatever the others do,
    is what happens in an execution in which [d] does not crash but the others stop waiting. *)
Theorem C44_a_crash_only_stops A n (P : nat -> pproc A) d f ms s e' : d < n ->
  run s (init (crashing n d f ms P)) = Some e' ->
  exists s0 e, [/\ run s0 (init (mkseq P n)) = Some e, qs e = qs e' &
    forall p, p != d -> nth PHalt (procs e) p = nth PHalt (procs e') p].
Proof. exact: c44_a_crash_only_stops. Qed.
Print Assumptions C44_a_crash_only_stops.

(** C45: without premature timeouts, the messages collected in every round are those of that round,
    for any number of rounds on the same stream and in every schedule. *)
Theorem C45_rounds_separate n ord sid k (b : nat -> nat -> bytes) : 0 < n ->
  every_schedule (mkseq (fun p => pthread sid (rounds n p ord (mkseq (b p) k))) n) predT
    (fun p => mkseq (fun i => if p == 0 then Some (Full (mkseq (b^~ i) n)) else None) k).
Proof. exact: c45_rounds_separate. Qed.
Print Assumptions C45_rounds_separate.

(** C45: a message that arrives after the timeout of its round is taken for the message of the next
    round: here party 1 sends [1] and then [2], and the king's second collection contains [1]. *)
Theorem C45_late_message_refuted :
  let prog p := pthread 0 (rounds 2 p id [:: [:: p]; [:: p.+1]]) in
  exists s d, run s (init (mkseq prog 2)) = Some d /\
    nth PHalt (procs d) 0
    = PRet (Ok [:: Some (Partial [:: (0, [:: 0])]); Some (Full [:: [:: 1]; [:: 1]])]).
Proof. exact: c45_late_message_refuted. Qed.
Print Assumptions C45_late_message_refuted.

(** C52: a vector is recovered from its serialization, whatever follows. *)
Theorem C52_vector_round_trip T (c : codec T) m (s : seq T) rest : codec_ok c m ->
  size s < 256 ^ 8 -> dec (vec_codec c) (enc (vec_codec c) s ++ rest) = Some (s, rest).
Proof. exact: c52_vector_round_trip. Qed.
Print Assumptions C52_vector_round_trip.

(** C52: the size depends on the length only. *)
Theorem C52_vector_size T (c : codec T) m (s : seq T) : codec_ok c m ->
  size (enc (vec_codec c) s) = 8 + size s * m.
Proof. exact: c52_vector_size. Qed.
Print Assumptions C52_vector_size.

(** C52: a truncated serialization is rejected. *)
Theorem C52_truncated T (c : codec T) m (s : seq T) k : codec_ok c m ->
  size s < 256 ^ 8 -> k < size (enc (vec_codec c) s) ->
  dec (vec_codec c) (take k (enc (vec_codec c) s)) = None.
Proof. exact: c52_truncated. Qed.
Print Assumptions C52_truncated.

(** C53: on every stream what was sent (after what was already in flight) is what was received
    followed by what is still in flight, in order; for every schedule. *)
Theorem C53_fifo A (c c' : cfg A) s sid from to : run s c = Some c' ->
  from < size (procs c) -> to < size (procs c) ->
  queue c sid from to ++ sent s c sid from to = got s c sid from to ++ queue c' sid from to.
Proof. exact: c53_fifo. Qed.
Print Assumptions C53_fifo.

(** C53: a step of a thread bound to stream [sid] changes no other stream, and on stream [sid] only
    queues to or from the party that acts. *)
Theorem C53_isolation A (c c' : cfg A) p la sid from to : step (p, la) c = Some c' ->
  from < size (procs c) -> to < size (procs c) ->
  (match nth PHalt (procs c) p, la with
   | PJoin B ts k, LThread j _ => (nth (0, CHalt) ts j).1 != sid
   | _, _ => true
   end) || (from != p) && (to != p) ->
  queue c' sid from to = queue c sid from to.
Proof. exact: c53_isolation. Qed.
Print Assumptions C53_isolation.

