(** What travels on a connection: the frames of multi.rs and the packets of prod.rs. *)
From mathcomp Require Import all_ssreflect.
From Verif Require Import Base ModelNet.
Set Implicit Arguments.
Unset Strict Implicit.
Unset Printing Implicit Defensive.

(** ** mpc-net/src/multi.rs:24-33 [wrap_stream]

    A [Framed] stream with a [LengthDelimitedCodec]: every frame is its length as a big endian
    [u32] followed by the payload.  The builder sets no maximal length, so the default of
    tokio-util, 8 MiB, is in force.  The limit is a parameter of the definitions; [frame_limit] is
    its value.  Reads deliver the byte stream in pieces of arbitrary size. *)
Definition be_bytes (k x : nat) : bytes := rev (le_bytes k x).
Definition be_value (b : bytes) : nat := le_value (rev b).

Definition frame_limit : nat := 2 ^ 23.

(** tokio-util [LengthDelimitedCodec::encode]: what one [send] of a payload (multi.rs:424,
    prod.rs:360) writes *)
Definition frame (max : nat) (b : bytes) : res bytes :=
  if max < size b then Err Generic else Ok (be_bytes 4 (size b) ++ b).

(** State of the reading side: what has been read and not yet been consumed, the length of the
    frame whose head has been consumed, and whether the decoder has failed (after which the
    stream yields nothing more). *)
Record reader := Reader { r_buf : bytes; r_head : option nat; r_failed : bool }.
Definition reader_new : reader := Reader [::] None false.

(** tokio-util [LengthDelimitedCodec::decode]: at most one frame *)
Definition decode_head (max : nat) (r : reader) : reader :=
  if r_failed r then r else
  if r_head r is Some _ then r else
  if size (r_buf r) < 4 then r else
  let n := be_value (take 4 (r_buf r)) in
  if max < n then Reader (r_buf r) None true else Reader (drop 4 (r_buf r)) (Some n) false.

Definition decode_one (max : nat) (r : reader) : reader * option bytes :=
  let r := decode_head max r in
  if r_head r is Some n then
    if size (r_buf r) < n then (r, None)
    else (Reader (drop n (r_buf r)) None (r_failed r), Some (take n (r_buf r)))
  else (r, None).

(** [Framed::poll_next] decodes until nothing more can be decoded, and then reads.  [fuel] bounds
    the number of frames in the buffer (each takes 4 bytes or more). *)
Fixpoint decode_some (fuel max : nat) (r : reader) : reader * seq bytes :=
  if fuel is fuel'.+1 then
    match decode_one max r with
    | (r', Some b) => let: (r'', bs) := decode_some fuel' max r' in (r'', b :: bs)
    | (r', None) => (r', [::])
    end
  else (r, [::]).

Definition decode_all (max : nat) (r : reader) : reader * seq bytes :=
  decode_some (size (r_buf r)).+2 max r.

(** one read of [chunk] *)
Definition feed (max : nat) (r : reader) (chunk : bytes) : reader * seq bytes :=
  decode_all max (Reader (r_buf r ++ chunk) (r_head r) (r_failed r)).

(** all frames obtained from a sequence of reads *)
Fixpoint feeds (max : nat) (r : reader) (chunks : seq bytes) : reader * seq bytes :=
  if chunks is c :: cs then
    let: (r', bs) := feed max r c in
    let: (r'', bs') := feeds max r' cs in (r'', bs ++ bs')
  else (r, [::]).

(** what the writer puts on the connection when it sends [bs] one after the other; it stops at
    the first failure *)
Fixpoint frames (max : nat) (bs : seq bytes) : res bytes :=
  if bs is b :: bs' then
    let! f := frame max b in let! fs := frames max bs' in Ok (f ++ fs)
  else Ok [::].

(** ** mpc-net/src/prod.rs:126-131 [ProtocolPacket]

    bincode2 with its default configuration: the variant as [u32], lengths as [u64], both little
    endian; left-over input is ignored. *)
Inductive packet := Syn | SynAck | Packet of bytes.

Definition enc_packet (p : packet) : bytes :=
  match p with
  | Syn => le_bytes 4 0
  | SynAck => le_bytes 4 1
  | Packet b => le_bytes 4 2 ++ le_bytes 8 (size b) ++ b
  end.

Definition dec_packet (b : bytes) : res packet :=
  if size b < 4 then Err Generic else
  let tag := le_value (take 4 b) in
  let b := drop 4 b in
  if tag == 0 then Ok Syn else
  if tag == 1 then Ok SynAck else
  if tag == 2 then
    if size b < 8 then Err Generic else
    let n := le_value (take 8 b) in
    let b := drop 8 b in
    if size b < n then Err Generic else Ok (Packet (take n b))
  else Err Generic.

(** prod.rs:352-362 [send_packet] on a connection that exists: the bytes written *)
Definition send_packet (max : nat) (p : packet) : res bytes := frame max (enc_packet p).

(** prod.rs:364-378 [recv_packet] on the next frame *)
Definition recv_packet (b : bytes) : res packet := dec_packet b.

(** prod.rs:313-331 [recv_from], after the frame has arrived *)
Definition recv_from (b : bytes) : res bytes :=
  let! p := recv_packet b in
  if p is Packet b' then Ok b' else Err Generic.

(** prod.rs:333-349 [send_to] *)
Definition send_to (max : nat) (b : bytes) : res bytes := send_packet max (Packet b).
