(** Property theorems only; proofs are in WireThm.v. *)
From mathcomp Require Import all_ssreflect.
From mathcomp Require Import zify.
From Verif Require Import Base ModelNet ModelWire SpecNet SpecWire RoundProofs WireProofs.
Set Implicit Arguments.
Unset Strict Implicit.
Unset Printing Implicit Defensive.
From Verif Require Import WireThm.

(** C46: the bytes of a packet. *)
Theorem C46_packet_layout p : enc_packet p =
  match p with
  | Syn => [:: 0; 0; 0; 0]
  | SynAck => [:: 1; 0; 0; 0]
  | Packet b => [:: 2; 0; 0; 0] ++ little_endian 8 (size b) ++ b
  end.
Proof. exact: c46_packet_layout. Qed.
Print Assumptions C46_packet_layout.

(** C46: decoding an encoded packet returns it, whatever follows in the frame. *)
Theorem C46_packet_round_trip p rest : (if p is Packet b then size b < 256 ^ 8 else true) ->
  dec_packet (enc_packet p ++ rest) = Ok p.
Proof. exact: c46_packet_round_trip. Qed.
Print Assumptions C46_packet_round_trip.

(** C46: payloads up to the limit are written with their length in front; a larger one is refused. *)
Theorem C46_written max bs : frames max bs =
  if all (fun b => size b <= max) bs then Ok (layout bs) else Err Generic.
Proof. exact: c46_written. Qed.
Print Assumptions C46_written.

(** C46: however the bytes are cut into reads, the reader obtains exactly the payloads, and is in
    its initial state afterwards. *)
Theorem C46_stream max bs chunks : max < 256 ^ 4 -> all (fun b => size b <= max) bs ->
  flatten chunks = layout bs -> feeds max reader_new chunks = (reader_new, bs).
Proof. exact: c46_stream. Qed.
Print Assumptions C46_stream.

(** C46: when only the first [k] bytes have arrived, it has obtained the payloads whose frames are
    complete. *)
Theorem C46_prefix max bs chunks k : max < 256 ^ 4 -> all (fun b => size b <= max) bs ->
  flatten chunks = take k (layout bs) -> (feeds max reader_new chunks).2 = complete k bs.
Proof. exact: c46_prefix. Qed.
Print Assumptions C46_prefix.

(** C46: after a length above the limit the stream yields nothing more. *)
Theorem C46_bad_length max bs x rest chunks : max < 256 ^ 4 -> all (fun b => size b <= max) bs ->
  max < x < 256 ^ 4 -> flatten chunks = layout bs ++ big_endian 4 x ++ rest ->
  (feeds max reader_new chunks).2 = bs /\ r_failed (feeds max reader_new chunks).1.
Proof. exact: c46_bad_length. Qed.
Print Assumptions C46_bad_length.

(** C46: [send_to] of prod.rs writes a frame with a packet if it fits into the 8 MiB limit of the
    codec, and fails otherwise; what was written is received by [recv_from]. *)
Theorem C46_send_to b : send_to frame_limit b =
  if size b + 12 <= 2 ^ 23
  then Ok (layout [:: [:: 2; 0; 0; 0] ++ little_endian 8 (size b) ++ b]) else Err Generic.
Proof. exact: c46_send_to. Qed.
Print Assumptions C46_send_to.

Theorem C46_send_receive b w chunks : send_to frame_limit b = Ok w -> flatten chunks = w ->
  exists2 f, feeds frame_limit reader_new chunks = (reader_new, [:: f]) & recv_from f = Ok b.
Proof. exact: c46_send_receive. Qed.
Print Assumptions C46_send_receive.

(** C46: exactly the packets are accepted: what is decoded is the packet at the front of the frame,
    and a frame that does not begin with a packet (too short, an unknown variant, or fewer bytes
    than announced) is an error. *)
Theorem C46_decoded b : all (fun x => x < 256) b ->
  match dec_packet b with
  | Ok p => (if p is Packet x then size x < 256 ^ 8 else true) /\ exists rest, b = enc_packet p ++ rest
  | Err e => e = Generic /\ forall p rest, (if p is Packet x then size x < 256 ^ 8 else true) ->
                              b <> enc_packet p ++ rest
  | Panic => False
  end.
Proof. exact: c46_decoded. Qed.
Print Assumptions C46_decoded.

(** C46: [recv_from] returns the data of a data packet; everything else (a Syn or SynAck, or a frame
    that is no packet) is an error. *)
Theorem C46_only_data b : recv_from b =
  if dec_packet b is Ok (Packet x) then Ok x else Err Generic.
Proof. exact: c46_only_data. Qed.
Print Assumptions C46_only_data.

Theorem C46_handshake_is_no_data rest :
  recv_from ([:: 0; 0; 0; 0] ++ rest) = Err Generic /\ recv_from ([:: 1; 0; 0; 0] ++ rest) = Err Generic.
Proof. exact: c46_handshake_is_no_data. Qed.
Print Assumptions C46_handshake_is_no_data.

