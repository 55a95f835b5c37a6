(** mpc-net/src/multi.rs, prod.rs: theorems on frames and packets. *)
From mathcomp Require Import all_ssreflect.
From mathcomp Require Import zify.
From Verif Require Import Base ModelNet ModelWire SpecNet SpecWire RoundProofs WireProofs.
Set Implicit Arguments.
Unset Strict Implicit.
Unset Printing Implicit Defensive.

Lemma be_bytesE k x : be_bytes k x = big_endian k x.
Proof.
apply: (@eq_from_nth _ 0); first by rewrite size_be_bytes size_map size_iota.
rewrite size_be_bytes => i ik; rewrite nth_rev ?size_le_bytes //.
rewrite (nth_map 0) ?size_iota // nth_iota // add1n.
have H j : j < k -> nth 0 (le_bytes k x) j = (x %/ 256 ^ j) %% 256.
  elim: k x j {ik} => // k IH x [|j] /= jk; first by rewrite expn0 divn1.
  by rewrite IH // expnS divnMA.
by rewrite H //; lia.
Qed.

Lemma le_bytesE k x : le_bytes k x = little_endian k x.
Proof. by rewrite /little_endian -be_bytesE /be_bytes revK. Qed.

Lemma layout_cat bs1 bs2 : layout (bs1 ++ bs2) = layout bs1 ++ layout bs2.
Proof. by rewrite /layout map_cat flatten_cat. Qed.

Lemma layout_size bs i j : i <= j -> size (layout (take i bs)) <= size (layout (take j bs)).
Proof.
move=> ij; rewrite -(cat_take_drop i (take j bs)) take_take // layout_cat size_cat; lia.
Qed.

Lemma framesE max bs w : frames max bs = Ok w -> w = layout bs.
Proof.
elim: bs w => [|b bs IH] w /=; first by case=> <-.
case E: (frame max b) => [f|e|] //=; case Es: (frames max bs) => [fs|e|] //= [<-].
rewrite (IH _ Es) -[layout (b :: bs)]/((big_endian 4 (size b) ++ b) ++ layout bs) -be_bytesE.
by move: E; rewrite /frame; case: ifP => // _ [<-].
Qed.

Lemma frames_ok max bs : all (fun b => size b <= max) bs -> frames max bs = Ok (layout bs).
Proof.
move=> H; suff [w E] : exists w, frames max bs = Ok w by rewrite E (framesE E).
elim: bs H => [|b bs IH] /=; first by exists [::].
case/andP=> sb /IH[w ->]; rewrite /frame ltnNge sb /=; by eexists.
Qed.

Lemma limit_ok : frame_limit < 256 ^ 4.
Proof. by rewrite /frame_limit -[256]/(2 ^ 8) -expnM ltn_exp2l. Qed.

Lemma find_iota (P : pred nat) n j : j <= n -> (j < n -> P j) -> (forall i, i < j -> ~~ P i) ->
  find P (iota 0 n) = j.
Proof.
move=> jn Pj Nj; rewrite -(subnKC jn) iotaD find_cat.
have -> : has P (iota 0 j) = false.
  by apply/negbTE/hasPn => i; rewrite mem_iota; apply: Nj.
rewrite size_iota add0n; case E: (n - j) => [|m]; first by rewrite addn0.
by rewrite /= Pj ?addn0 //; lia.
Qed.

Lemma le_value_lt8 (s : bytes) : all (fun x => x < 256) s -> le_value (take 8 s) < 256 ^ 8.
Proof.
move=> a; have a8 : all (fun x => x < 256) (take 8 s) by apply/allP => y /mem_take yb; apply: (allP a).
have s8 : size (take 8 s) <= 8 by rewrite size_take; case: ifP => // /negbT; rewrite -leqNgt.
by apply: leq_trans (le_value_lt a8) _; rewrite leq_exp2l.
Qed.

(*** theorems ***)

(** C46: the bytes of a packet. *)
Lemma c46_packet_layout p : enc_packet p =
  match p with
  | Syn => [:: 0; 0; 0; 0]
  | SynAck => [:: 1; 0; 0; 0]
  | Packet b => [:: 2; 0; 0; 0] ++ little_endian 8 (size b) ++ b
  end.
Proof. by case: p => [||b]; rewrite ?/enc_packet -?le_bytesE //. Qed.

(** C46: decoding an encoded packet returns it, whatever follows in the frame. *)
Lemma c46_packet_round_trip p rest : (if p is Packet b then size b < 256 ^ 8 else true) ->
  dec_packet (enc_packet p ++ rest) = Ok p.
Proof. exact: dec_enc_packet. Qed.

(** C46: payloads up to the limit are written with their length in front; a larger one is refused. *)
Lemma c46_written max bs : frames max bs =
  if all (fun b => size b <= max) bs then Ok (layout bs) else Err Generic.
Proof.
case: ifP => [|/negbT]; first exact: frames_ok.
elim: bs => //= b bs IH; rewrite negb_and -ltnNge /frame; case: ltnP => //= sb H.
by rewrite IH.
Qed.

(** C46: however the bytes are cut into reads, the reader obtains exactly the payloads, and is in
    its initial state afterwards. *)
Lemma c46_stream max bs chunks : max < 256 ^ 4 -> all (fun b => size b <= max) bs ->
  flatten chunks = layout bs -> feeds max reader_new chunks = (reader_new, bs).
Proof.
move=> max_ok Hb Ec; rewrite feeds_new Ec /feed /= -[layout bs]cats0.
by rewrite (decode_all_frames max_ok [::] (frames_ok Hb)) decode_all_nil cats0.
Qed.

(** C46: when only the first [k] bytes have arrived, it has obtained the payloads whose frames are
    complete. *)
Lemma c46_prefix max bs chunks k : max < 256 ^ 4 -> all (fun b => size b <= max) bs ->
  flatten chunks = take k (layout bs) -> (feeds max reader_new chunks).2 = complete k bs.
Proof.
move=> max_ok Hb Ec; rewrite feeds_new Ec /feed /=.
case: (ltnP (size (layout bs)) k) => [gt_k|le_k].
  rewrite take_oversize ?(ltnW gt_k) // -[layout bs]cats0.
  rewrite (decode_all_frames max_ok [::] (frames_ok Hb)) decode_all_nil cats0 /=.
  rewrite /complete (@find_iota _ _ (size bs)) ?take_size ?ltnn // => i il.
  rewrite -leqNgt; apply: leq_trans (ltnW gt_k); rewrite -[X in _ <= size (layout X)]take_size.
  exact: layout_size.
have [j [w1 [-> E1 le_j s1 H]]] := frames_prefix max_ok (frames_ok Hb) le_k.
rewrite /complete; congr take; apply/esym/find_iota => //.
  move=> lt_j; have Hj : all (fun b => size b <= max) (take j.+1 bs).
    by move: Hb; rewrite -{1}(cat_take_drop j.+1 bs) all_cat => /andP[].
  exact: H lt_j (frames_ok Hj).
move=> i ij; rewrite -leqNgt (leq_trans _ s1) // (framesE E1); exact: layout_size.
Qed.

(** C46: after a length above the limit the stream yields nothing more. *)
Lemma c46_bad_length max bs x rest chunks : max < 256 ^ 4 -> all (fun b => size b <= max) bs ->
  max < x < 256 ^ 4 -> flatten chunks = layout bs ++ big_endian 4 x ++ rest ->
  (feeds max reader_new chunks).2 = bs /\ r_failed (feeds max reader_new chunks).1.
Proof.
move=> max_ok Hb /andP[mx lt_x]; rewrite feeds_new => ->; rewrite -be_bytesE.
have sh := size_be_bytes 4 x; have vh := be_bytesK lt_x.
move: (be_bytes 4 x) sh vh {lt_x} => h sh vh.
rewrite /feed /= (decode_all_frames max_ok _ (frames_ok Hb)) {max_ok}.
rewrite decode_allE /decode_one decode_headE size_cat sh -[_ + _ < 4]/false takel_cat ?sh //.
by rewrite take_oversize ?sh // vh mx /= cats0.
Qed.

(** C46: [send_to] of prod.rs writes a frame with a packet if it fits into the 8 MiB limit of the
    codec, and fails otherwise; what was written is received by [recv_from]. *)
Lemma c46_send_to b : send_to frame_limit b =
  if size b + 12 <= 2 ^ 23
  then Ok (layout [:: [:: 2; 0; 0; 0] ++ little_endian 8 (size b) ++ b]) else Err Generic.
Proof.
rewrite -[X in layout [:: X]](c46_packet_layout (Packet b)) /send_to /send_packet.
rewrite /frame_limit; move: (2 ^ 23) => L.
rewrite -[layout _]/((big_endian 4 (size (enc_packet (Packet b))) ++ enc_packet (Packet b)) ++ [::]).
rewrite cats0 -be_bytesE /frame size_enc_packet addnC.
by case: ltnP.
Qed.

Lemma c46_send_receive b w chunks : send_to frame_limit b = Ok w -> flatten chunks = w ->
  exists2 f, feeds frame_limit reader_new chunks = (reader_new, [:: f]) & recv_from f = Ok b.
Proof.
rewrite /send_to /send_packet => E Ec; exists (enc_packet (Packet b)).
  have [le_s _] := frame_ok E.
  have Es : frames frame_limit [:: enc_packet (Packet b)] = Ok w by rewrite /= E /= cats0.
  apply: (@c46_stream _ [:: enc_packet (Packet b)]); first exact: limit_ok.
    by rewrite /= le_s.
  by rewrite Ec (framesE Es).
have [le_s _] := frame_ok E; rewrite size_enc_packet in le_s.
have lt4 : size b < 256 ^ 4 by exact: leq_ltn_trans (leq_trans (leq_addl _ _) le_s) limit_ok.
have lt8 : size b < 256 ^ 8 by apply: leq_trans lt4 _; rewrite leq_exp2l.
have := @dec_enc_packet (Packet b) [::] lt8; rewrite cats0 /recv_from /recv_packet => ->.
by [].
Qed.

(** C46: exactly the packets are accepted: what is decoded is the packet at the front of the frame,
    and a frame that does not begin with a packet (too short, an unknown variant, or fewer bytes
    than announced) is an error. *)
Lemma c46_decoded b : all (fun x => x < 256) b ->
  match dec_packet b with
  | Ok p => (if p is Packet x then size x < 256 ^ 8 else true) /\ exists rest, b = enc_packet p ++ rest
  | Err e => e = Generic /\ forall p rest, (if p is Packet x then size x < 256 ^ 8 else true) ->
                              b <> enc_packet p ++ rest
  | Panic => False
  end.
Proof.
move=> ab; have DE := dec_enc_packet.
have : le_value (take 8 (drop 4 b)) < 256 ^ 8.
  by apply: le_value_lt8; apply/allP => y /mem_drop yb; apply: (allP ab).
move: (256 ^ 8) DE => M DE lt8; case E: (dec_packet b) => [p|e|].
- split.
    case: p E => // x; rewrite /dec_packet; case: ifP => // _; case: ifP => // _; case: ifP => // _.
    case: ifP => // _; case: ifP => // /negbT; rewrite -leqNgt => s8.
    by case: ifP => // /negbT; rewrite -leqNgt => sx [<-]; rewrite size_takel.
  have ak k x : all (fun x => x < 256) x -> size x = k -> le_bytes k (le_value x) = x.
    elim: k x => [|k IH] [|y x] //= /andP[ly ax] [sx].
    by rewrite addnC mulnC modnMDl modn_small // divnMDl // divn_small // addn0 IH.
  have at4 : all (fun x => x < 256) (take 4 b) by apply/allP => y /mem_take yb; apply: (allP ab).
  have a8 : all (fun x => x < 256) (take 8 (drop 4 b)).
    by apply/allP => y /mem_take /mem_drop yb; apply: (allP ab).
  move: E; rewrite /dec_packet; case: ifP => // /negbT; rewrite -leqNgt => s4.
  have {}at4 := ak 4 _ at4 (size_takel s4).
  case: eqP => [e0 [<-]|_].
    exists (drop 4 b); have -> : enc_packet Syn = take 4 b by rewrite -{1}at4 e0.
    by rewrite cat_take_drop.
  case: eqP => [e1 [<-]|_].
    exists (drop 4 b); have -> : enc_packet SynAck = take 4 b by rewrite -{1}at4 e1.
    by rewrite cat_take_drop.
  case: eqP => // e2; case: ifP => // /negbT; rewrite -leqNgt => s8.
  case: ifP => // /negbT; rewrite -leqNgt => sx [<-].
  have {}a8 := ak 8 _ a8 (size_takel s8).
  set x := take _ (drop 8 _); have Ex : size x = le_value (take 8 (drop 4 b)) by rewrite size_takel.
  exists (drop (size x) (drop 8 (drop 4 b))).
  have -> : enc_packet (Packet x) = take 4 b ++ take 8 (drop 4 b) ++ x.
    by rewrite -{1}at4 e2 -{1}a8 -Ex.
  by rewrite -!catA Ex /x !cat_take_drop.
- split; last first.
    by move=> p rest Hp Eb; move: E; rewrite Eb (DE _ _ Hp).
  move: E; rewrite /dec_packet; do !case: ifP => _ //; by case.
by move: E; rewrite /dec_packet; do !case: ifP => _ //.
Qed.

(** C46: [recv_from] returns the data of a data packet; everything else (a Syn or SynAck, or a frame
    that is no packet) is an error. *)
Lemma c46_only_data b : recv_from b =
  if dec_packet b is Ok (Packet x) then Ok x else Err Generic.
Proof.
rewrite /recv_from /recv_packet; case E: (dec_packet b) => [[||x]|e|] //=.
  by move: E; rewrite /dec_packet; do !case: ifP => _ //; case=> <-.
by move: E; rewrite /dec_packet; do !case: ifP => _ //.
Qed.

Lemma c46_handshake_is_no_data rest :
  recv_from ([:: 0; 0; 0; 0] ++ rest) = Err Generic /\ recv_from ([:: 1; 0; 0; 0] ++ rest) = Err Generic.
Proof.
rewrite !c46_only_data (@dec_packet_tag [:: 0; 0; 0; 0]) //.
by rewrite (@dec_packet_tag [:: 1; 0; 0; 0]).
Qed.
