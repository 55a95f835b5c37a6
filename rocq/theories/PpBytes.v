(** Proofs about partial products when clients send arbitrary bytes in the first round. *)
From mathcomp Require Import all_ssreflect all_algebra.
From mathcomp Require Import zify.
From Verif Require Import RingTac Base ModelField ModelUtils ModelPss ModelPack ModelFft.
From Verif Require Import ModelProto Spec SpecNet SpecTamper SpecBytes NetProofs KingProofs RoundProofs.
From Verif Require Import FieldProofs UtilsProofs PssProofs PackProofs FftProofs ProtoProofs DegProofs.
From Verif Require Import KingFail TamperProofs PpProofs TamperPp BytesProofs ModelNet.
Set Implicit Arguments.
Unset Strict Implicit.
Unset Printing Implicit Defensive.
Import GRing.Theory.

(** [bytes_ok] for a round that is followed by others *)
Lemma bytes_go (T U B : Type) (c : codec T) (c' : codec U) n ord (x : nat -> T) thr
    (king : received T -> res (seq U)) (R : nat -> U -> cproc B) (w : nat -> bytes) (y : nat -> T)
    (ans : nat -> U) vals :
  0 < n -> decode c (enc c (x 0)) = Ok (x 0) ->
  (forall p, 0 < p < n -> decode c (w p) = Ok (y p)) -> y 0 = x 0 ->
  (forall i, i < n -> decode c' (enc c' (ans i)) = Ok (ans i)) ->
  (forall i, i < n -> size (enc c' (ans i)) = size (enc c' (ans 0))) ->
  king (Received (mkseq y n) (iota 0 n)) = Ok (mkseq ans n) ->
  king_prog n (fun d => (d != 0) && (n <= d)) (fun p => R p (ans p)) vals ->
  king_prog n (fun d => (d != 0) && (n <= d))
    (fun p => sending w p (serial_round c c' n ord x thr king R p)) vals.
Proof.
move=> n0 x0K wK y0 Hd' Hs Ek HR; have [K E] := round_king c n ord x thr.
set outs := [seq enc c' a | a <- mkseq ans n].
have so : size outs = n by rewrite size_map size_mkseq.
have no i : i < n -> nth [::] outs i = enc c' (ans i).
  by move=> il; rewrite (nth_map (ans 0)) ?size_mkseq // nth_mkseq.
pose P1 p := if p == 0 then sends (nth [::] outs) (iota 1 n.-1) (R 0 (ans 0))
             else CRecv 0 (fun b => cbind (clift (decode c' b)) (R p)).
pose rest (o : option (received T)) : cproc B :=
  do! outs := clift (king_map king o) in do! v := crokss_ser c' n 0 outs in R 0 v.
apply: (@KP_gather _ _ _ _ _ w (fun st => cbind (K st) rest) P1).
- by rewrite /sending /serial_round E.
- by move=> p pI; rewrite sending_client // /P1; have -> : (p == 0) = false by lia.
- move=> d /andP[_ nd]; rewrite (king_rest c' king R w n0 E) //.
  rewrite (arrivedK x0K wK y0) /= /rest /= Ek /= /crokss_ser.
  rewrite [omap _ _]/= -/outs crokss_king ?so //; last by move=> i il; rewrite !no ?Hs.
  by rewrite !cbind_sends /= no // Hd'.
apply: (@KP_scatter _ _ _ _ _ (nth [::] outs)
          (fun p b => cbind (clift (decode c' b)) (R p)) (fun p => R p (ans p))) => //.
- by move=> p pI; rewrite /P1; have -> : (p == 0) = false by lia.
by move=> p /andP[_ pn]; rewrite no //= Hd'.
Qed.

Section PpBytes.
Variable F : fftField.
Variables (pp : pss F) (ok : pp_ok pp) (cF : codec F) (mb : nat).
Hypothesis cF_ok : codec_ok cF mb.
Local Notation l := (p_l pp).
Local Notation n := (p_n pp).
Local Notation Fm := [lmodType F of F^o].
Local Open Scope ring_scope.
Variables (dbg : bool) (m : nat) (xn xd : nat -> seq F) (masks : nat -> degred_mask Fm) (r r' : rng F).
Variable w : nat -> bytes.
Hypotheses (m_ok : (0 < m /\ 2 * m < 256 ^ 8)%N).
Hypotheses (sn0 : size (xn 0%N) = m) (sd0 : size (xd 0%N) = m).

Let x p := [seq u * 1 | u <- xn p] ++ [seq u * 1 | u <- xd p].
Let R ord' p v := deg_red dbg pp n p ord' (T := Fm) cF [seq u * 1^-1 | u <- v] (masks p) r'.

Let d_pp_serial p ord ord' : d_pp dbg pp n p ord ord' cF (xn p) (xd p) (masks p) r r' =
  serial_round (vec_codec cF) (vec_codec cF) n ord x (p_t pp) (d_pp_king dbg pp r) (R ord') p.
Proof. by rewrite /d_pp /d_pp_with oner_eq0. Qed.

Let sending_pp sid ord ord' : mkseq (fun p => pthread sid (sending w p
    (d_pp dbg pp n p ord ord' cF (xn p) (xd p) (masks p) r r'))) n =
  mkseq (fun p => pthread sid (sending w p
    (serial_round (vec_codec cF) (vec_codec cF) n ord x (p_t pp) (d_pp_king dbg pp r) (R ord') p))) n.
Proof. by apply: eq_mkseq_in => p lp; rewrite d_pp_serial. Qed.

Let n0 : (0 < n)%N := ltnW (n_gt1 ok).
Let sx0 : size (x 0%N) = (m + m)%N.
Proof. by rewrite size_cat !size_map sn0 sd0. Qed.
Let x0K : decode (vec_codec cF) (enc (vec_codec cF) (x 0%N)) = Ok (x 0%N).
Proof.
have [m0 ms] := m_ok; have mms : (m + m < 256 ^ 8)%N by rewrite addnn -mul2n.
exact: (vec_dec (T := Fm) cF_ok mms).
Qed.

Lemma d_pp_garbled sid ord ord' p : (0 < p < n)%N ->
  decode (vec_codec cF) (w p) = Err Generic ->
  king_fails (mkseq (fun p => pthread sid (sending w p
    (d_pp dbg pp n p ord ord' cF (xn p) (xd p) (masks p) r r'))) n) (Err Generic).
Proof. by move=> pI Hp; rewrite sending_pp; apply: bytes_undecodable pI Hp. Qed.

Variable y : nat -> seq F.
Hypothesis wK : forall p, (0 < p < n)%N -> decode (vec_codec cF) (w p) = Ok (y p).

Let z p := if p == 0%N then x 0%N else y p.
Let zK p : (0 < p < n)%N -> decode (vec_codec cF) (w p) = Ok (z p).
Proof. by move=> pI; rewrite wK // /z; case: eqP pI => [->|]. Qed.

Lemma d_pp_short sid ord ord' p : (0 < p < n)%N -> (size (y p) < 2 * m)%N ->
  king_dies (mkseq (fun p => pthread sid (sending w p
    (d_pp dbg pp n p ord ord' cF (xn p) (xd p) (masks p) r r'))) n).
Proof.
move=> /andP[p0 pn] Hp; rewrite sending_pp; apply: (bytes_panic _ _ _ _ _ n0 x0K zK erefl).
rewrite /d_pp_king /shares size_mkseq eqxx /dassert implybT [rbind (Ok _) _]/=.
rewrite (@transpose_short _ _ (m + m) p) ?(full_head ok) ?size_mkseq //.
by rewrite nth_mkseq // /z; case: eqP p0 => [->|] //; lia.
Qed.

Hypothesis y_long : forall p, (0 < p < n)%N -> (2 * m <= size (y p))%N.

(** the inputs that would have given these messages *)
Definition tops_of p := if p == 0%N then xn 0%N else take m (y p).
Definition bots_of p := if p == 0%N then xd 0%N else take m (drop m (y p)).

Lemma size_tops p : (p < n)%N -> size (tops_of p) = m.
Proof.
move=> lp; rewrite /tops_of; case: eqP => // /eqP p0.
by have := y_long (p := p); rewrite lt0n p0 lp => /(_ isT) H; rewrite size_takel //; lia.
Qed.

Lemma size_bots p : (p < n)%N -> size (bots_of p) = m.
Proof.
move=> lp; rewrite /bots_of; case: eqP => // /eqP p0.
by have := y_long (p := p); rewrite lt0n p0 lp => /(_ isT) H; rewrite size_takel // size_drop; lia.
Qed.

Let x' p := [seq u * 1 | u <- tops_of p] ++ [seq u * 1 | u <- bots_of p].

Lemma king_bytes_pp : d_pp_king dbg pp r (Received (mkseq z n) (iota 0 n)) =
  d_pp_king dbg pp r (received_from x' n n id).
Proof.
have [m0 _] := m_ok; have mm0 : (0 < m + m)%N by lia.
rewrite /received_from ltnn /d_pp_king /shares !size_mkseq /parties.
suff -> : transpose (mkseq z n) = transpose [seq x' i | i <- iota 0 n] by [].
rewrite (@transpose_take _ _ (m + m)) ?(full_head ok) //.
  congr transpose; rewrite -map_comp; apply/eq_in_map => p; rewrite mem_iota add0n => /andP[_ lp] /=.
  have Em (s : seq F) : [seq u * 1 | u <- s] = s.
    by rewrite -[RHS]map_id; apply: eq_map => u; rewrite mulr1.
  rewrite /z /x' /tops_of /bots_of; case: eqP => [p0|_]; first by rewrite take_oversize // sx0.
  by rewrite !Em takeD.
apply/allP => s /mapP[p]; rewrite mem_iota add0n => /andP[_ lp] ->; rewrite /z.
case: eqP => [_|/eqP p0]; first by rewrite sx0.
by rewrite addnn -mul2n; apply: y_long; rewrite lt0n p0.
Qed.

Lemma d_pp_bytes_caught sid ord ord' :
  (dbg && (unbalanced (T := Fm) pp tops_of m || unbalanced (T := Fm) pp bots_of m))
  || (0 \in guessed pp m bots_of) ->
  king_dies (mkseq (fun p => pthread sid (sending w p
    (d_pp dbg pp n p ord ord' cF (xn p) (xd p) (masks p) r r'))) n).
Proof.
move=> bad; rewrite sending_pp; apply: (bytes_panic _ _ _ _ _ n0 x0K zK erefl).
rewrite king_bytes_pp (d_pp_king_any ok dbg m_ok size_tops size_bots) //; case: ifP bad => //= _ z0.
by have /negbTE -> : ~~ all (fun z => z != 0) (guessed pp m bots_of) by apply/allPn; exists 0; rewrite ?negbK.
Qed.

Lemma d_pp_bytes :
  all (fun z => z != 0) (guessed pp m bots_of) -> degred_ok pp m masks ->
  ~~ (dbg && (unbalanced (T := Fm) pp tops_of m || unbalanced (T := Fm) pp bots_of m)) ->
  exists out : nat -> seq F,
    vsharing (T := Fm) pp (2 * l) m out
      (blocks (T := Fm) pp (PpProofs.running (guessed pp m tops_of) (guessed pp m bots_of))) /\
    forall ord ord', hash_ok ord -> hash_ok ord' ->
      king_prog n (fun d => (d != 0%N) && (n <= d)%N) (fun p =>
        sending w p (d_pp dbg pp n p ord ord' cF (xn p) (xd p) (masks p) r r')) out.
Proof.
move=> nz Hm bal; have l0 := pp_l_gt0 ok; have En := ppn ok; have [m0 ms] := m_ok.
set num := guessed pp m tops_of; set den := guessed pp m bots_of.
have sr : size (PpProofs.running num den) = (m * l)%N by rewrite !size_mkseq.
have [dealt [Ed Hdeal]] := pack_vec_deal (T := Fm) ok dbg r m0 sr.
have Hd' : (2 * l <= 4 * l - 1)%N by lia.
have m_ok' : (0 < m < 256 ^ 8)%N by lia.
pose v p := [seq u * 1^-1 | u <- dealt p].
have Hy : vsharing (T := Fm) pp (2 * l) m v (blocks (T := Fm) pp (PpProofs.running num den)).
  apply: vsharing_ext (vsharing_scale 1^-1 Hdeal) => // e j lt_e lt_j; by rewrite invr1 mulr1.
have [out [Hout Hp]] := deg_red_prog (T := Fm) ok cF_ok dbg r' m_ok' Hd' Hm Hy.
exists out; split=> // ord ord' Ho Ho'.
have sl p : (p < n)%N -> size (dealt p) = m by case: Hdeal => H _ /H.
apply: king_prog_ext (bytes_go ord (p_t pp) (R := R ord') (ans := dealt) n0 x0K zK erefl _ _ _ _) => //.
- by move=> p lp; rewrite d_pp_serial.
- by move=> i lt_i; apply: (vec_dec (T := Fm) (m := m) cF_ok); [lia|apply: sl].
- by move=> i lt_i; rewrite !(size_enc_vec cF_ok) !sl //; lia.
- by rewrite king_bytes_pp (d_pp_king_any ok dbg m_ok size_tops size_bots) // (negPf bal) nz Ed.
by apply: king_prog_dok (Hp ord' Ho') => d /andP[].
Qed.

End PpBytes.
