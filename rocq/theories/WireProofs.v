(** Frames survive any chunking. *)
From mathcomp Require Import all_ssreflect.
From mathcomp Require Import zify.
From Verif Require Import Base ModelNet ModelWire RoundProofs.
Set Implicit Arguments.
Unset Strict Implicit.
Unset Printing Implicit Defensive.

Lemma dropl_cat T n (s t : seq T) : n <= size s -> drop n (s ++ t) = drop n s ++ t.
Proof.
move=> le_n; rewrite drop_cat; case: ltnP => // ge_n.
have -> : n = size s by apply/eqP; rewrite eqn_leq le_n.
by rewrite subnn drop0 drop_size.
Qed.

Section Reader.
Variable max : nat.
Implicit Types (r : reader) (b c : bytes).

Definition ext r c : reader := Reader (r_buf r ++ c) (r_head r) (r_failed r).
Definition mu r : nat := size (r_buf r) + isSome (r_head r).

Lemma ext_ext r c d : ext (ext r c) d = ext r (c ++ d).
Proof. by rewrite /ext /= catA. Qed.
Lemma ext0 r : ext r [::] = r. Proof. by case: r => b h f; rewrite /ext cats0. Qed.

(** reading the head can be done before or after more bytes arrive *)
Lemma decode_head_ext r c : decode_head max (ext (decode_head max r) c) = decode_head max (ext r c).
Proof.
case: r => b [h|] [] //=; rewrite /decode_head /=.
have Hc : 4 <= size b -> size (b ++ c) < 4 = false by rewrite size_cat; lia.
case: (ltnP (size b) 4) => // le4; rewrite ?(Hc le4) ?(takel_cat _ le4) ?(dropl_cat _ le4).
by case: (max < be_value (take 4 b)).
Qed.

Lemma decode_head_some r c n : r_head (decode_head max r) = Some n ->
  decode_head max (ext r c) = ext (decode_head max r) c.
Proof.
case: r => b [h|] [] //=; rewrite /decode_head /=.
have Hc : 4 <= size b -> size (b ++ c) < 4 = false by rewrite size_cat; lia.
case: (ltnP (size b) 4) => // le4; rewrite ?(Hc le4) ?(takel_cat _ le4) ?(dropl_cat _ le4).
by case: (max < be_value (take 4 b)).
Qed.

Lemma decode_one_some r c r' b : decode_one max r = (r', Some b) ->
  decode_one max (ext r c) = (ext r' c, Some b).
Proof.
rewrite /decode_one; case E: (r_head (decode_head max r)) => [n|] //.
rewrite (decode_head_some c E) /= E.
case: ltnP => // le_n [<- <-].
rewrite size_cat ltnNge (leq_trans le_n (leq_addr _ _)) /= (takel_cat _ le_n) (dropl_cat _ le_n).
by [].
Qed.

Lemma decode_one_none r c r' : decode_one max r = (r', None) ->
  decode_one max (ext r' c) = decode_one max (ext r c).
Proof.
move=> E; have -> : r' = decode_head max r.
  by move: E; rewrite /decode_one; case: (r_head _) => [n|] //; [case: ltnP => // _|]; case.
by rewrite /decode_one decode_head_ext.
Qed.

Lemma mu_head r : mu (decode_head max r) <= mu r.
Proof.
case: r => b [h|] [] //=; rewrite /decode_head /mu /=.
case: ltnP => // le4; case: ifP => //= _.
by rewrite size_drop; lia.
Qed.

Lemma decode_one_mu r r' b : decode_one max r = (r', Some b) -> mu r' < mu r.
Proof.
rewrite /decode_one; case E: (r_head _) => [n|] //; case: ltnP => // le_n [<- _].
apply: leq_trans (mu_head r); rewrite /mu E /= size_drop; lia.
Qed.

Lemma decode_someS f r : decode_some f.+1 max r =
  match decode_one max r with
  | (r', Some b) => let: (r'', bs) := decode_some f max r' in (r'', b :: bs)
  | (r', None) => (r', [::])
  end.
Proof. by []. Qed.

Lemma decode_some_fuel f f' r : mu r < f -> mu r < f' -> decode_some f max r = decode_some f' max r.
Proof.
elim: f f' r => // f IH [//|f'] r H1 H2 /=.
case E: (decode_one max r) => [r' [b|]] //.
have H := decode_one_mu E.
by rewrite (IH f') //; lia.
Qed.

Lemma mu_size r : mu r < (size (r_buf r)).+2.
Proof. by rewrite /mu; case: (isSome _); lia. Qed.

Lemma decode_allE r : decode_all max r =
  match decode_one max r with
  | (r', Some b) => let: (r'', bs) := decode_all max r' in (r'', b :: bs)
  | (r', None) => (r', [::])
  end.
Proof.
rewrite {1}/decode_all decode_someS.
case E: (decode_one max r) => [r' [b|]] //.
rewrite /decode_all (@decode_some_fuel (size (r_buf r)).+1 (size (r_buf r')).+2 r') ?mu_size //.
by have := leq_trans (decode_one_mu E) (mu_size r : mu r <= _).
Qed.

(** decoding what is there and then the rest is decoding everything *)
Lemma decode_all_ext r c : decode_all max (ext r c) =
  let: (r', bs) := decode_all max r in
  let: (r'', bs') := decode_all max (ext r' c) in (r'', bs ++ bs').
Proof.
move: {2}(mu r).+1 (ltnSn (mu r)) => k; elim: k r => // k IH r lt_k.
rewrite (decode_allE r); case E: (decode_one max r) => [r' [b|]].
  rewrite decode_allE (decode_one_some c E) IH; last by have := decode_one_mu E; lia.
  by case: (decode_all max r') => r1 bs; case: (decode_all max (ext r1 c)).
rewrite decode_allE [in RHS]decode_allE (decode_one_none c E).
by case: (decode_one max (ext r c)) => r1 [b|] //; case: (decode_all max r1).
Qed.

Lemma feedsE r c cs : feeds max r (c :: cs) = feed max r (c ++ flatten cs).
Proof.
elim: cs r c => [|d cs IH] r c.
  by rewrite /= cats0; case: (feed max r c) => r' bs; rewrite cats0.
rewrite -[LHS]/(let: (r', bs) := feed max r c in
                let: (r'', bs') := feeds max r' (d :: cs) in (r'', bs ++ bs')).
rewrite -[flatten (d :: cs)]/(d ++ flatten cs) /feed -/(ext r c) -/(ext r (c ++ d ++ flatten cs)).
rewrite -ext_ext [RHS]decode_all_ext; case: (decode_all max (ext r c)) => r' bs.
by rewrite IH.
Qed.

Lemma feeds_new cs : feeds max reader_new cs = feed max reader_new (flatten cs).
Proof. by case: cs => // c cs; rewrite feedsE. Qed.

End Reader.

(** ** bytes of numbers *)
Lemma le_value_lt (b : bytes) : all (fun x => x < 256) b -> le_value b < 256 ^ size b.
Proof.
elim: b => //= x b IH /andP[lt_x /IH lt_b]; rewrite expnS; move: (256 ^ size b) lt_b => B; nia.
Qed.

Lemma size_be_bytes k x : size (be_bytes k x) = k.
Proof. by rewrite size_rev size_le_bytes. Qed.

Lemma be_bytesK k x : x < 256 ^ k -> be_value (be_bytes k x) = x.
Proof. by move=> lt_x; rewrite /be_value revK le_bytesK. Qed.

(** ** frames *)
Section Frames.
Variable max : nat.
Hypothesis max_ok : max < 256 ^ 4.

Lemma frame_ok b w : frame max b = Ok w -> size b <= max /\ w = be_bytes 4 (size b) ++ b.
Proof. by rewrite /frame; case: ltnP => // le_b [<-]. Qed.

Lemma decode_headE b : decode_head max (Reader b None false) =
  if size b < 4 then Reader b None false else
  if max < be_value (take 4 b) then Reader b None true
  else Reader (drop 4 b) (Some (be_value (take 4 b))) false.
Proof. by []. Qed.

Lemma decode_one_frame b w rest : frame max b = Ok w ->
  decode_one max (Reader (w ++ rest) None false) = (Reader rest None false, Some b).
Proof.
case/frame_ok=> le_b ->.
have sh := size_be_bytes 4 (size b).
have vh : be_value (be_bytes 4 (size b)) = size b by apply: be_bytesK; exact: leq_ltn_trans max_ok.
move: (be_bytes 4 (size b)) sh vh => h sh vh.
rewrite /decode_one decode_headE -catA size_cat sh -[_ + _ < 4]/false takel_cat ?sh // dropl_cat ?sh //.
rewrite take_oversize ?sh // drop_oversize ?sh // vh cat0s ltnNge le_b /=.
by rewrite size_cat ltnNge leq_addr /= takel_cat // dropl_cat // take_size drop_size.
Qed.

Lemma decode_all_frames bs w rest : frames max bs = Ok w ->
  decode_all max (Reader (w ++ rest) None false) =
  let: (r, bs') := decode_all max (Reader rest None false) in (r, bs ++ bs').
Proof.
elim: bs w => [|b bs IH] w /=; first by case=> <-; case: (decode_all _ _).
case E: (frame max b) => [f|e|] //=; case Es: (frames max bs) => [fs|e|] //= [<-].
rewrite decode_allE -catA (decode_one_frame _ E) (IH _ Es).
by case: (decode_all _ _).
Qed.

Lemma decode_all_nil : decode_all max reader_new = (reader_new, [::]).
Proof. by rewrite decode_allE. Qed.

(** an incomplete frame yields nothing *)
Lemma decode_all_part b w k : frame max b = Ok w -> k < size w ->
  (decode_all max (Reader (take k w) None false)).2 = [::].
Proof.
case/frame_ok=> le_b ->.
have sh := size_be_bytes 4 (size b).
have vh : be_value (be_bytes 4 (size b)) = size b by apply: be_bytesK; exact: leq_ltn_trans max_ok.
move: (be_bytes 4 (size b)) sh vh => h sh vh lt_k.
have st : size (take k (h ++ b)) = k by rewrite size_takel // ltnW.
rewrite decode_allE /decode_one decode_headE st; case: ltnP => //= le4.
have -> : take 4 (take k (h ++ b)) = h.
  by rewrite take_take // takel_cat ?sh // take_oversize // sh.
rewrite vh ltnNge le_b /= size_drop st.
by case: ltnP => // H; move: lt_k; rewrite size_cat sh; lia.
Qed.

Lemma frames_size bs w j : frames max bs = Ok w -> exists w1 w2,
  [/\ frames max (take j bs) = Ok w1, frames max (drop j bs) = Ok w2 & w = w1 ++ w2].
Proof.
elim: bs w j => [|b bs IH] w j /=; first by case=> <-; exists [::], [::].
case: j => [|j]; first by move=> E; exists [::], w.
case E: (frame max b) => [f|e|] //=; case Es: (frames max bs) => [fs|e|] //= [<-].
have [w1 [w2 [E1 E2 ->]]] := IH _ j Es.
by exists (f ++ w1), w2; rewrite E /= E1 /= catA.
Qed.

Lemma frames_prefix bs w k : frames max bs = Ok w -> k <= size w -> exists j w1, [/\
  (decode_all max (Reader (take k w) None false)).2 = take j bs,
  frames max (take j bs) = Ok w1, j <= size bs, size w1 <= k &
  forall w2, j < size bs -> frames max (take j.+1 bs) = Ok w2 -> k < size w2].
Proof.
elim: bs w k => [|b bs IH] w k /=.
  by case=> <- _; exists 0, [::]; split=> //; rewrite decode_all_nil.
case E: (frame max b) => [f|e|] //=; case Es: (frames max bs) => [fs|e|] //= [<-].
rewrite size_cat => le_k; case: (ltnP k (size f)) => [lt_k|ge_k].
  exists 0, [::]; split=> //; first by rewrite (takel_cat _ (ltnW lt_k)) (decode_all_part E lt_k).
  by move=> w2 _; rewrite take0 /= => -[<-]; rewrite cats0.
have [j [w1 [H1 H2 le_j H3 H4]]] := IH fs (k - size f) Es ltac:(lia).
have Et : take k (f ++ fs) = f ++ take (k - size f) fs.
  by rewrite take_cat ltnNge ge_k.
exists j.+1, (f ++ w1); rewrite /= E /= H2 /=; split=> //.
- rewrite Et decode_allE (decode_one_frame _ E).
  by case: (decode_all _ _) H1 => r bs' /= ->.
- by have := size_cat f w1; lia.
move=> w2 lt_j; rewrite /= ?E /=; case E2: (frames max (take j.+1 bs)) => [x|e|] // [<-].
by have := H4 _ lt_j E2; rewrite size_cat; lia.
Qed.

End Frames.

(** ** packets *)
Lemma dec_packetE (t n b : bytes) : size t = 4 -> size n = 8 -> le_value t = 2 ->
  dec_packet (t ++ n ++ b) =
  if size b < le_value n then Err Generic else Ok (Packet (take (le_value n) b)).
Proof.
move=> st sn vt; rewrite /dec_packet size_cat st -[_ + _ < 4]/false.
rewrite takel_cat ?st // dropl_cat ?st // take_oversize ?st // drop_oversize ?st // cat0s vt /=.
rewrite size_cat sn -[_ + _ < 8]/false.
by rewrite takel_cat ?sn // dropl_cat ?sn // take_oversize ?sn // drop_oversize ?sn // cat0s.
Qed.

Lemma dec_packet_tag (t rest : bytes) : size t = 4 -> le_value t < 2 ->
  dec_packet (t ++ rest) = Ok (if le_value t == 0 then Syn else SynAck).
Proof.
move=> st lt_t; rewrite /dec_packet size_cat st -[_ + _ < 4]/false takel_cat ?st // take_oversize ?st //.
by case: (le_value t) lt_t => [|[|]].
Qed.

Lemma tag_lt x : x < 3 -> x < 256 ^ 4.
Proof. by move=> lt_x; rewrite expnS (leq_trans lt_x) // (@leq_trans (256 * 1)) // leq_mul2l expn_gt0. Qed.

Lemma tagK x : x < 3 -> le_value (le_bytes 4 x) = x.
Proof. by move/tag_lt/le_bytesK. Qed.

Lemma dec_enc_packet p rest : (if p is Packet b then size b < 256 ^ 8 else true) ->
  dec_packet (enc_packet p ++ rest) = Ok p.
Proof.
have s4 x := size_le_bytes 4 x; have s8 x := size_le_bytes 8 x.
have [t0 t1 t2] := And3 (@tagK 0 isT) (@tagK 1 isT) (@tagK 2 isT).
case: p => [_|_|b lt_b]; rewrite /enc_packet.
- by rewrite (dec_packet_tag _ (s4 0)) t0.
- by rewrite (dec_packet_tag _ (s4 1)) t1.
rewrite -!catA (dec_packetE _ (s4 2) (s8 _) t2) (le_bytesK lt_b) {lt_b s4 s8 t0 t1 t2}.
have -> : size (b ++ rest) < size b = false by rewrite size_cat ltnNge leq_addr.
by rewrite takel_cat ?take_size.
Qed.

Lemma size_enc_packet b : size (enc_packet (Packet b)) = 12 + size b.
Proof. by rewrite /enc_packet size_cat size_cat !size_le_bytes addnA. Qed.

Lemma size_sync p : (if p is Packet _ then false else true) -> size (enc_packet p) = 4.
Proof. by case: p => // _; rewrite /enc_packet size_le_bytes. Qed.
