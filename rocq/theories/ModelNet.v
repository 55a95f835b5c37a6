(** mpc-net/src: message passing between the parties, and the two king rounds of [MpcNet] and
    [MpcSerNet].

    Execution model.  A party is a sequence of phases.  A phase is a list of threads, one per
    future of a [tokio::try_join!], each bound to the stream it communicates on
    ([MultiplexedStreamID]); code outside a [try_join!] is a phase of one thread.  Local
    computation takes no step of its own.  A step is one send, one receive, one arrival at the
    king's collection, the end of a collection, or the end of a phase.

    Simplifications.  Streams are reliable unbounded FIFO queues, one per (stream, sender,
    receiver); byte values are natural numbers; in the collection a failed receive is the same as
    a message that does not arrive (lib.rs:103, 112 drop the error). *)
From mathcomp Require Import all_ssreflect.
From Verif Require Import Base.
Set Implicit Arguments.
Unset Strict Implicit.
Unset Printing Implicit Defensive.

Definition bytes := seq nat.

(** A thread.  [CSend to b k] is [send_to(to, b, sid).await?; k];
    [CRecv from k] is [let b = recv_from(from, sid).await?; k(b)];
    [CGather st k] is the [timeout(.., retrieve_task)] of lib.rs:99-112 with the content [st] of the
    results store (entry [i] for party [i]); [CHalt] is a thread stopped by a crash. *)
Inductive cproc (B : Type) : Type :=
| CRet of res B
| CSend of nat & bytes & cproc B
| CRecv of nat & (bytes -> cproc B)
| CGather of seq (option bytes) & (seq (option bytes) -> cproc B)
| CHalt.
Arguments CRet {B}.
Arguments CSend {B}.
Arguments CRecv {B}.
Arguments CGather {B}.
Arguments CHalt {B}.

(** sequencing with [?] *)
Fixpoint cbind A B (m : cproc A) (f : A -> cproc B) : cproc B :=
  match m with
  | CRet (Ok a) => f a
  | CRet (Err e) => CRet (Err e)
  | CRet Panic => CRet Panic
  | CSend to b m => CSend to b (cbind m f)
  | CRecv from k => CRecv from (fun b => cbind (k b) f)
  | CGather st k => CGather st (fun st => cbind (k st) f)
  | CHalt => CHalt
  end.

Notation "'do!' x ':=' m 'in' k" := (cbind m (fun x => k))
  (at level 200, x pattern, m at level 100, k at level 200, right associativity).

(** A party: [PJoin ts k] is [let rs = try_join!(ts)?; k(rs)] where every thread of [ts] is paired
    with the number of its stream; [PHalt] is a party that has crashed between two phases. *)
Inductive pproc (A : Type) : Type :=
| PRet of res A
| PJoin B of seq (nat * cproc B) & (seq B -> pproc A)
| PHalt.
Arguments PRet {A}.
Arguments PJoin {A B}.
Arguments PHalt {A}.

Fixpoint pbind A B (m : pproc A) (f : A -> pproc B) : pproc B :=
  match m with
  | PRet (Ok a) => f a
  | PRet (Err e) => PRet (Err e)
  | PRet Panic => PRet Panic
  | PJoin C ts k => PJoin ts (fun rs => pbind (k rs) f)
  | PHalt => PHalt
  end.

(** a party that runs one thread on stream [sid] *)
Definition pthread A (sid : nat) (t : cproc A) : pproc A :=
  PJoin [:: (sid, t)] (fun rs => PRet (if rs is [:: r] then Ok r else Panic)).

(** Crashes.  [ccrash m t]: the thread stops before its [m+1]-st operation.  [pcrash f ms p]: the
    party takes part in its first [f] phases and in the next one each thread [j] stops before
    its [ms j + 1]-st operation; if they all end before, the party stops after that phase.
    Every crash point of a party is of this form. *)
Fixpoint ccrash B (m : nat) (t : cproc B) : cproc B :=
  match t with
  | CRet r => CRet r
  | CHalt => CHalt
  | CSend to b k => if m is m'.+1 then CSend to b (ccrash m' k) else CHalt
  | CRecv from k => if m is m'.+1 then CRecv from (fun b => ccrash m' (k b)) else CHalt
  | CGather st k => if m is m'.+1 then CGather st (fun st => ccrash m' (k st)) else CHalt
  end.

Fixpoint pcrash A (f : nat) (ms : nat -> nat) (p : pproc A) : pproc A :=
  match p with
  | PRet r => PRet r
  | PHalt => PHalt
  | PJoin B ts k =>
      if f is f'.+1 then PJoin ts (fun rs => pcrash f' ms (k rs))
      else PJoin [seq ((nth (0, CHalt) ts j).1, ccrash (ms j) (nth (0, CHalt) ts j).2)
                 | j <- iota 0 (size ts)] (fun _ => PHalt)
  end.

(** ** The network *)

Record cfg (A : Type) := Cfg { procs : seq (pproc A); qs : seq (seq bytes) }.

Definition qidx (n sid from to : nat) : nat := (sid * n + from) * n + to.

Definition queue A (c : cfg A) (sid from to : nat) : seq bytes :=
  nth [::] (qs c) (qidx (size (procs c)) sid from to).

(** all parties at the start of their programs, nothing in flight *)
Definition init A (ps : seq (pproc A)) : cfg A := Cfg ps [::].

Definition running B (t : cproc B) : bool :=
  match t with CSend _ _ _ | CRecv _ _ | CGather _ _ => true | _ => false end.
Definition stopped B (t : cproc B) : bool :=
  match t with CHalt | CRet (Err _) | CRet Panic => true | _ => false end.

(** party [x] will never again send on stream [sid]: it has returned, or it has crashed or failed
    and has no thread left running on [sid] *)
Definition silent A (x : pproc A) (sid : nat) : bool :=
  match x with
  | PRet _ | PHalt => true
  | PJoin B ts k => has (fun st => stopped st.2) ts
                    && ~~ has (fun st => (st.1 == sid) && running st.2) ts
  end.

(** What a thread may do: perform its pending send or receive; take the message of party [id] into
    the collection; end the collection, because everything is there or because the timeout has
    passed and what is missing will never come; end the collection by a timeout although messages
    are still to come; fail in the pending operation. *)
Inductive kind := KOp | KArrive of nat | KGathered | KTimeout | KFail.

(** What a party may do: a step of thread [j]; end the phase when all threads have returned a
    value; end the phase because thread [j] has failed or panicked. *)
Inductive laction := LThread of nat & kind | LJoin | LAbort of nat.
Definition action : Type := nat * laction.

(** effect on the queues: nothing, a message to party [to], or the first message from [from] taken *)
Inductive qop := QNone | QPush of nat & bytes | QPop of nat.

(** One step of a thread of party [me] among [n] on one stream: [rd from] is the queue from [from]
    to [me], [gone id] tells that [id] will not send any more.  Sending to or receiving from an
    unknown party or oneself fails (multi.rs:394-415, no stream). *)
Definition tstep B (n me : nat) (rd : nat -> seq bytes) (gone : nat -> bool)
    (a : kind) (t : cproc B) : option (cproc B * qop) :=
  match t, a with
  | CSend to b k, KOp =>
      if (to < n) && (to != me) then Some (k, QPush to b) else Some (CRet (Err Generic), QNone)
  | CSend _ _ _, KFail => Some (CRet (Err Generic), QNone)
  | CRecv from k, KOp =>
      if (from < n) && (from != me) then
        if rd from is b :: _ then Some (k b, QPop from) else None
      else Some (CRet (Err Generic), QNone)
  | CRecv _ _, KFail => Some (CRet (Err Generic), QNone)
  | CGather st k, KArrive id =>
      if (0 < id < n) && (id != me) && ~~ isSome (nth None st id) then
        if rd id is b :: _ then Some (CGather (set_nth None st id (Some b)) k, QPop id) else None
      else None
  | CGather st k, KGathered =>
      if all (fun id => [|| id == me, isSome (nth None st id) | gone id && nilp (rd id)])
             (iota 1 n.-1)
      then Some (k st, QNone) else None
  | CGather st k, KTimeout => Some (k st, QNone)
  | _, _ => None
  end.

(** the values returned by the threads of a phase, if all have returned one *)
Fixpoint results B (ts : seq (nat * cproc B)) : option (seq B) :=
  match ts with
  | [::] => Some [::]
  | (_, CRet (Ok b)) :: ts => omap (cons b) (results ts)
  | _ => None
  end.

(** One step of party [me]: its new state, and the effect on the queues of one stream. *)
Definition pstep A (n me : nat) (rd : nat -> nat -> seq bytes) (gone : nat -> nat -> bool)
    (a : laction) (x : pproc A) : option (pproc A * (nat * qop)) :=
  match x with
  | PJoin B ts k =>
      match a with
      | LThread j a =>
          if j < size ts then
            let: (sid, t) := nth (0, CHalt) ts j in
            if tstep n me (rd sid) (gone sid) a t is Some (t', op)
            then Some (PJoin (set_nth (0, CHalt) ts j (sid, t')) k, (sid, op)) else None
          else None
      | LJoin => if results ts is Some rs then Some (k rs, (0, QNone)) else None
      | LAbort j =>
          match nth (0, CHalt) ts j with
          | (_, CRet (Err e)) => Some (PRet (Err e), (0, QNone))
          | (_, CRet Panic) => Some (PRet Panic, (0, QNone))
          | _ => None
          end
      end
  | _ => None
  end.

Definition apply_q (n me : nat) (o : nat * qop) (q : seq (seq bytes)) : seq (seq bytes) :=
  match o with
  | (_, QNone) => q
  | (sid, QPush to b) =>
      let i := qidx n sid me to in set_nth [::] q i (rcons (nth [::] q i) b)
  | (sid, QPop from) =>
      let i := qidx n sid from me in set_nth [::] q i (behead (nth [::] q i))
  end.

(** One step of the whole network. *)
Definition step A (a : action) (c : cfg A) : option (cfg A) :=
  let n := size (procs c) in
  let: (p, la) := a in
  if pstep n p (fun sid from => queue c sid from p)
       (fun sid id => silent (nth PHalt (procs c) id) sid) la (nth PHalt (procs c) p)
    is Some (x, o)
  then Some (Cfg (set_nth PHalt (procs c) p x) (apply_q n p o (qs c))) else None.

(** a schedule *)
Fixpoint run A (s : seq action) (c : cfg A) : option (cfg A) :=
  if s is a :: s' then (if step a c is Some c' then run s' c' else None) else Some c.

(** actions that are neither a premature timeout nor a failure *)
Definition clean (a : action) : bool :=
  match a.2 with
  | LThread _ KTimeout | LThread _ KFail | LAbort _ => false
  | _ => true
  end.

(** threads running at the same time use different streams, in every phase the party can reach *)
Fixpoint separate A (p : pproc A) : Prop :=
  match p with
  | PJoin B ts k => uniq [seq st.1 | st <- ts] /\ forall rs, separate (k rs)
  | _ => True
  end.

(** ** mpc-net/src/lib.rs *)

(** lib.rs:55-58 [ClientSendOrKingReceiveResult]; the hash map is the list of its entries in
    iteration order *)
Inductive csokr := Full of seq bytes | Partial of seq (nat * bytes).

(** Iteration order of a [HashMap<u32, _>]: arbitrary, so a parameter; it maps the keys to the
    order in which they are visited. *)
Definition hash_order := seq nat -> seq nat.

Definition clift A (r : res A) : cproc A := CRet r.

(** keys of the results store *)
Definition store_ids (st : seq (option bytes)) : seq nat :=
  [seq i <- iota 0 (size st) | isSome (nth None st i)].

Definition store_get (st : seq (option bytes)) (i : nat) : bytes := odflt [::] (nth None st i).

(** lib.rs:86-136 [client_send_or_king_receive] *)
Definition client_send_or_king_receive (n me : nat) (ord : hash_order) (b : bytes) :
    cproc (option csokr) :=
  if me == 0 then
    CGather (nseq n None) (fun st =>
      let ret := set_nth None st 0 (Some (odflt b (nth None st 0))) in
      if size (store_ids ret) == n
      then CRet (Ok (Some (Full [seq store_get ret x | x <- iota 0 n])))
      else CRet (Ok (Some (Partial [seq (x, store_get ret x) | x <- ord (store_ids ret)]))))
  else CSend 0 b (CRet (Ok None)).

(** lib.rs:155-164, the loop over the other parties *)
Fixpoint king_send (outs : seq bytes) (m : nat) (ids : seq nat) : cproc unit :=
  if ids is id :: ids' then
    do! b := clift (vget outs id) in
    if size b != m then CRet (Err (Protocol id)) else CSend id b (king_send outs m ids')
  else CRet (Ok tt).

(** lib.rs:137-176 [client_receive_or_king_send] *)
Definition client_receive_or_king_send (n me : nat) (out : option (seq bytes)) : cproc bytes :=
  match out with
  | Some outs =>
      if me != 0 then CRet (Err BadInput) else
      do! b0 := clift (vget outs 0) in
      do! _ := king_send outs (size b0) (filter (fun p => p != me) (iota 0 n)) in
      clift (vget outs me)
  | None =>
      if me == 0 then CRet (Err BadInput) else CRecv 0 (fun b => CRet (Ok b))
  end.

(** ** mpc-net/src/ser_net.rs *)

(** ark_serialize: [serialize_compressed] and [deserialize_compressed] of a type.  Decoding reads
    a prefix and returns the rest of the input. *)
Record codec (T : Type) := Codec { enc : T -> bytes; dec : bytes -> option (T * bytes) }.

(** [deserialize_compressed(&b[..])]: left-over bytes are ignored *)
Definition decode T (c : codec T) (b : bytes) : res T :=
  if dec c b is Some (x, _) then Ok x else Err Generic.

(** ser_net.rs:8-12 [ReceivedShares] *)
Record received (T : Type) := Received { shares : seq T; parties : seq nat }.

(** ser_net.rs:16-99 [client_send_or_king_receive_serialized] *)
Definition csokr_ser T (c : codec T) (n me : nat) (ord : hash_order) (out : T) (threshold : nat) :
    cproc (option (received T)) :=
  do! bytes_in := client_send_or_king_receive n me ord (enc c out) in
  match bytes_in with
  | Some (Full bs) =>
      do! ret := clift (mapM (decode c) bs) in
      clift (Ok (Some (Received ret (iota 0 n))))
  | Some (Partial rs) =>
      let rs' := pmap (fun r => if decode c r.2 is Ok x then Some (r.1, x) else None) rs in
      if size rs' < threshold then CRet (Err (Protocol 0))
      else clift (Ok (Some (Received [seq r.2 | r <- rs'] [seq r.1 | r <- rs'])))
  | None => clift (Ok None)
  end.

(** ser_net.rs:101-120 [client_receive_or_king_send_serialized] *)
Definition crokss_ser T (c : codec T) (n me : nat) (out : option (seq T)) : cproc T :=
  do! b := client_receive_or_king_send n me (omap (map (enc c)) out) in
  clift (decode c b).

(** ark_serialize [Vec<T>]: the length as [u64] little endian, then the elements *)
Fixpoint le_bytes (k x : nat) : bytes :=
  if k is k'.+1 then x %% 256 :: le_bytes k' (x %/ 256) else [::].
Fixpoint le_value (b : bytes) : nat :=
  if b is x :: b' then x + 256 * le_value b' else 0.

Fixpoint dec_seq T (c : codec T) (k : nat) (b : bytes) : option (seq T * bytes) :=
  if k is k'.+1 then
    if dec c b is Some (x, b') then
      if dec_seq c k' b' is Some (s, b'') then Some (x :: s, b'') else None
    else None
  else Some ([::], b).

Definition vec_codec T (c : codec T) : codec (seq T) :=
  Codec (fun s => le_bytes 8 (size s) ++ flatten (map (enc c) s))
        (fun b => if size b < 8 then None else dec_seq c (le_value (take 8 b)) (drop 8 b)).
