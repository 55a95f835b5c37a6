(** Theorems about partial products when parties do not send what they should. *)
From mathcomp Require Import all_ssreflect all_algebra.
From mathcomp Require Import zify.
From Verif Require Import RingTac Base ModelField ModelUtils ModelPss ModelPack ModelFft ModelNet.
From Verif Require Import ModelProto Spec SpecNet SpecProto SpecTamper SpecBytes NetProofs.
From Verif Require Import KingProofs KingFail.
From Verif Require Import RoundProofs NetThm FieldProofs UtilsProofs PssProofs PackProofs FftProofs.
From Verif Require Import ProtoProofs DegProofs TamperProofs PpProofs TamperPp PpBytes ProtoThm TamperThm.
Set Implicit Arguments.
Unset Strict Implicit.
Unset Printing Implicit Defensive.
Import GRing.Theory.
Local Open Scope ring_scope.
Local Notation Fm F := [lmodType F of F^o].

Section Guess.
Variable F : fftField.
Variables (pp : pss F) (ok : pp_ok pp).
  Local Notation l := (p_l pp).
  Local Notation n := (p_n pp).

Lemma guessedE m x s : size s = (m * l)%N ->
  (forall e j, (e < m)%N -> (j < l)%N ->
     blocks (T := Fm F) pp s e j = interpolated pp (T := Fm F) (entry (T := Fm F) x e) j) ->
  s = guessed pp m x.
Proof.
move=> ss H; have l0 := pp_l_gt0 ok; apply: (@eq_from_nth _ 0); first by rewrite size_mkseq.
rewrite ss => i li; rewrite nth_mkseq // -H.
- by rewrite /blocks -divn_eq.
- by rewrite ltn_divLR.
by rewrite ltn_mod.
Qed.

Lemma balancedP (x : nat -> seq F) m :
  (forall e, (e < m)%N -> imbalance pp (T := Fm F) (entry (T := Fm F) x e) = 0) ->
  unbalanced (T := Fm F) pp x m = false.
Proof. by move=> H; apply/negP => /unbalancedP[e /H ->]; rewrite eqxx. Qed.

End Guess.

(*** theorems ***)

(** C77: partial products of any vectors at all, if nobody crashes.  The king computes with what
    the vectors interpolate to; in debug builds this needs every entry to be balanced. *)
Lemma c77_d_pp (F : fftField) dbg lam pp (cF : codec F) mb m gen masks (xn xd : nat -> seq F)
    (num den : seq F) (r r' : rng F) :
  pss_new F dbg (2 ^ lam) = Ok pp -> codec_ok cF mb -> (0 < m)%N -> (2 * m < 256 ^ 8)%N ->
  degred_masks (T := Fm F) dbg pp gen m masks ->
  (forall p, (p < p_n pp)%N -> size (xn p) = m) -> (forall p, (p < p_n pp)%N -> size (xd p) = m) ->
  size num = (m * 2 ^ lam)%N -> size den = (m * 2 ^ lam)%N ->
  (forall e j, (e < m)%N -> (j < 2 ^ lam)%N ->
     blocks (T := Fm F) pp num e j = interpolated pp (T := Fm F) (entry (T := Fm F) xn e) j) ->
  (forall e j, (e < m)%N -> (j < 2 ^ lam)%N ->
     blocks (T := Fm F) pp den e j = interpolated pp (T := Fm F) (entry (T := Fm F) xd e) j) ->
  all (fun z => z != 0) den ->
  (dbg -> forall e, (e < m)%N -> imbalance pp (T := Fm F) (entry (T := Fm F) xn e) = 0) ->
  (dbg -> forall e, (e < m)%N -> imbalance pp (T := Fm F) (entry (T := Fm F) xd e) = 0) ->
  exists out : nat -> seq F,
    vsharing (T := Fm F) pp (2 * 2 ^ lam) m out
      (blocks (T := Fm F) pp (running_products num den)) /\
    yields (p_n pp) true (fun ords p =>
      d_pp dbg pp (p_n pp) p (ords 0%N) (ords 1%N) cF (xn p) (xd p) (masks p) r r') out.
Proof.
move=> new cok m0 m8 Hm sxn sxd sn sd Hn Hd nz bn bd.
have ok := pss_new_ok new; have El := pss_new_l new; rewrite -El in sn sd Hn Hd *.
have Hm' := degred_masks_ok new m0 Hm.
have En := guessedE ok sn Hn; have Ed := guessedE ok sd Hd.
have b : ~~ (dbg && (unbalanced (T := Fm F) pp xn m || unbalanced (T := Fm F) pp xd m)).
  by apply/negP => /andP[dbgT]; rewrite (balancedP (bn dbgT)) (balancedP (bd dbgT)).
have nz' : all (fun z => z != 0) (guessed pp m xd) by rewrite -Ed.
have [out [Ho Hp]] := d_pp_any ok cok (conj m0 m8) sxn sxd r r' nz' Hm' b.
exists out; split; first by rewrite En Ed.
apply: yields_any => [|ords Hords]; [exact: n_gt0 new|exact: Hp].
Qed.

(** C77: an unbalanced entry is noticed in debug builds ... *)
Lemma c77_d_pp_caught (F : fftField) lam pp (cF : codec F) mb m masks (xn xd : nat -> seq F)
    (r r' : rng F) sid ord ord' e :
  pss_new F true (2 ^ lam) = Ok pp -> codec_ok cF mb -> (0 < m)%N -> (2 * m < 256 ^ 8)%N ->
  (forall p, (p < p_n pp)%N -> size (xn p) = m) -> (forall p, (p < p_n pp)%N -> size (xd p) = m) ->
  hash_ok ord -> (e < m)%N ->
  (imbalance pp (T := Fm F) (entry (T := Fm F) xn e) != 0) ||
  (imbalance pp (T := Fm F) (entry (T := Fm F) xd e) != 0) ->
  king_dies (mkseq (fun p => pthread sid
    (d_pp true pp (p_n pp) p ord ord' cF (xn p) (xd p) (masks p) r r')) (p_n pp)).
Proof.
move=> new cok m0 m8 sxn sxd Ho le ne; have ok := pss_new_ok new.
apply: (d_pp_caught ok cok (conj m0 m8) sxn sxd) => //; apply/orP; left => /=.
by case/orP: ne => ne; apply/orP; [left|right]; apply/unbalancedP; exists e.
Qed.

(** C77: ... and in both builds an interpolated denominator that is zero stops the king. *)
Lemma c77_d_pp_zero (F : fftField) dbg lam pp (cF : codec F) mb m masks (xn xd : nat -> seq F)
    (r r' : rng F) sid ord ord' e j :
  pss_new F dbg (2 ^ lam) = Ok pp -> codec_ok cF mb -> (0 < m)%N -> (2 * m < 256 ^ 8)%N ->
  (forall p, (p < p_n pp)%N -> size (xn p) = m) -> (forall p, (p < p_n pp)%N -> size (xd p) = m) ->
  hash_ok ord -> (e < m)%N -> (j < 2 ^ lam)%N ->
  interpolated pp (T := Fm F) (entry (T := Fm F) xd e) j = 0 ->
  king_dies (mkseq (fun p => pthread sid
    (d_pp dbg pp (p_n pp) p ord ord' cF (xn p) (xd p) (masks p) r r')) (p_n pp)).
Proof.
move=> new cok m0 m8 sxn sxd Ho le lj z; have ok := pss_new_ok new; have El := pss_new_l new.
rewrite -El in lj.
apply: (d_pp_caught ok cok (conj m0 m8) sxn sxd) => //; apply/orP; right.
rewrite -z -(blocks_guessed ok xd le lj) /blocks; apply: mem_nth; rewrite size_mkseq; nia.
Qed.

(** C77: so any single party can stop the king in either build, by sending vectors of the right
    length: whatever the shares are, there is a replacement of its denominators that does it. *)
Lemma c77_one_party_stops (F : fftField) dbg lam pp (cF : codec F) mb m masks (xn xd : nat -> seq F)
    (r r' : rng F) q :
  pss_new F dbg (2 ^ lam) = Ok pp -> codec_ok cF mb -> (0 < m)%N -> (2 * m < 256 ^ 8)%N ->
  (forall p, (p < p_n pp)%N -> size (xn p) = m) -> (forall p, (p < p_n pp)%N -> size (xd p) = m) ->
  ff_generator F ^+ p_n pp != 1 -> (q < p_n pp)%N ->
  exists2 v, size v = m & forall sid ord ord', hash_ok ord ->
    king_dies (mkseq (fun p => pthread sid
      (d_pp dbg pp (p_n pp) p ord ord' cF (xn p) (replaced xd q v p) (masks p) r r')) (p_n pp)).
Proof.
move=> new cok m0 m8 sxn sxd g1 lq; have ok := pss_new_ok new.
pose y := entry (T := Fm F) xd 0.
pose a : F := (xd q)`_0 - interpolated pp (T := Fm F) y 0 / weight pp q 0.
pose v := set_nth 0 (xd q) 0 a.
have sv : size v = m by rewrite size_set_nth sxd //; lia.
exists v => // sid ord ord' Ho.
have s' : forall p, (p < p_n pp)%N -> size (replaced xd q v p) = m.
  exact: (size_replaced (T := Fm F) q sxd sv).
have l0 : (0 < 2 ^ lam)%N by rewrite expn_gt0.
apply: (c77_d_pp_zero masks r r' sid ord' new cok m0 m8 sxn s' Ho m0 l0).
rewrite (eq_interpolated (y' := replaced y q v`_0)); last by move=> p _; apply: entry_replaced.
rewrite interpolated_replaced // /v nth_set_nth /= /a /y /entry.
have w0 := weight_neq0 ok q 0 g1.
have -> : (xd q)`_0 - interpolated pp (T := Fm F) y 0 / weight pp q 0 - (xd q)`_0 =
          - (interpolated pp (T := Fm F) y 0 / weight pp q 0) by rewrite addrAC subrr add0r.
by rewrite scalerN /GRing.scale /= mulrCA divff // mulr1 subrr.
Qed.

(** C77: one party [q] replaces its numerators: in release builds nobody notices, and every
    product is computed from the wrong numerators [num'].  The first entry that is wrong has a
    wrong product in its first slot, unless a product before it is zero. *)
Lemma c77_one_party (F : fftField) lam pp (cF : codec F) mb m gen masks (xn xd : nat -> seq F)
    (num den : seq F) deg (r r' : rng F) q v :
  pss_new F false (2 ^ lam) = Ok pp -> codec_ok cF mb -> (0 < m)%N -> (2 * m < 256 ^ 8)%N ->
  (deg <= 4 * 2 ^ lam)%N -> degred_masks (T := Fm F) false pp gen m masks ->
  size num = (m * 2 ^ lam)%N -> size den = (m * 2 ^ lam)%N -> all (fun z => z != 0) den ->
  vsharing (T := Fm F) pp deg m xn (blocks (T := Fm F) pp num) ->
  vsharing (T := Fm F) pp deg m xd (blocks (T := Fm F) pp den) ->
  ff_generator F ^+ p_n pp != 1 -> (q < p_n pp)%N -> size v = m ->
  exists (out : nat -> seq F) num', [/\
    size num' = (m * 2 ^ lam)%N,
    forall e j, (e < m)%N -> (j < 2 ^ lam)%N ->
      num'`_(e * 2 ^ lam + j) = num`_(e * 2 ^ lam + j) + weight pp q j * (v`_e - (xn q)`_e),
    vsharing (T := Fm F) pp (2 * 2 ^ lam) m out
      (blocks (T := Fm F) pp (running_products num' den)),
    yields (p_n pp) true (fun ords p =>
      d_pp false pp (p_n pp) p (ords 0%N) (ords 1%N) cF (replaced xn q v p) (xd p) (masks p) r r') out &
    forall e, (e < m)%N -> v`_e != (xn q)`_e -> (forall e', (e' < e)%N -> v`_e' = (xn q)`_e') ->
      (forall i, (i < e * 2 ^ lam)%N -> num`_i != 0) ->
      (running_products num' den)`_(e * 2 ^ lam) != (running_products num den)`_(e * 2 ^ lam)].
Proof.
move=> new cok m0 m8 Hdeg Hm sn sd nz /vsharingP[sxn Hn] /vsharingP[sxd Hd] g1 lq sv.
have ok := pss_new_ok new; have El := pss_new_l new; have En := ppn ok; have l0 := pp_l_gt0 ok.
pose x' := replaced xn q v; pose num' := guessed pp m x'.
have s' : forall p, (p < p_n pp)%N -> size (x' p) = m by exact: (size_replaced (T := Fm F) q sxn sv).
have sn' : size num' = (m * 2 ^ lam)%N by rewrite size_mkseq El.
have dn : (deg <= p_n pp)%N by rewrite En El.
have Hn' e j : (e < m)%N -> (j < 2 ^ lam)%N ->
    blocks (T := Fm F) pp num' e j = interpolated pp (T := Fm F) (entry (T := Fm F) x' e) j.
  by move=> le lj; apply: (blocks_guessed ok) => //; rewrite El.
have Hd' e j : (e < m)%N -> (j < 2 ^ lam)%N ->
    blocks (T := Fm F) pp den e j = interpolated pp (T := Fm F) (entry (T := Fm F) xd e) j.
  by move=> le lj; rewrite (interpolated_shared ok dn (Hd e le)) // El.
have nob (x : nat -> seq F) : false ->
  forall e, (e < m)%N -> imbalance pp (T := Fm F) (entry (T := Fm F) x e) = 0 by [].
have [out [Ho Hy]] := c77_d_pp r r' new cok m0 m8 Hm s' sxd sn' sd Hn' Hd' nz (nob _) (nob _).
have Ev e j : (e < m)%N -> (j < 2 ^ lam)%N ->
    num'`_(e * 2 ^ lam + j) = num`_(e * 2 ^ lam + j) + weight pp q j * (v`_e - (xn q)`_e).
  move=> le lj; have := Hn' e j le lj; rewrite {1}/blocks El => ->.
  rewrite (eq_interpolated (y' := replaced (entry (T := Fm F) xn e) q v`_e)); last first.
    by move=> p _; apply: entry_replaced.
  by rewrite interpolated_replaced // (interpolated_shared ok dn (Hn e le)) ?El // /blocks El.
exists out, num'; split=> // e le ne He nzn; rewrite /running_products.
have k0 : (0 < 2 ^ lam)%N by rewrite -El.
have lt_e : (e * 2 ^ lam < m * 2 ^ lam)%N by rewrite ltn_mul2r k0.
rewrite !nth_mkseq ?sn ?sn' // !big_ord_recr /=.
have -> : \prod_(i < e * 2 ^ lam) (num'`_i / den`_i) = \prod_(i < e * 2 ^ lam) (num`_i / den`_i).
  apply: eq_bigr => i _; congr (_ / _); have li := ltn_ord i.
  have lt_d : (i %/ 2 ^ lam < e)%N by rewrite ltn_divLR.
  have := Ev (i %/ 2 ^ lam)%N (i %% 2 ^ lam)%N (ltn_trans lt_d le).
  by rewrite ltn_mod => /(_ k0); rewrite -divn_eq He // subrr mulr0 addr0.
have nzd i : (i < m * 2 ^ lam)%N -> den`_i != 0.
  by move=> li; apply: (allP nz); apply: mem_nth; rewrite sd.
rewrite -subr_eq0 -mulrBr -mulrBl !mulf_neq0 ?invr_eq0 ?nzd //.
  apply/prodf_neq0 => i _; have li := ltn_ord i; rewrite mulf_neq0 ?nzn // invr_eq0 nzd //.
  exact: ltn_trans lt_e.
have := Ev e 0%N le k0; rewrite addn0 => ->; rewrite addrAC subrr add0r mulf_neq0 ?weight_neq0 //.
by rewrite subr_eq0.
Qed.

(** C77: if one party [d] sends nothing, in release builds the king computes with what the others'
    vectors interpolate to, whatever they are, and nobody notices. *)
Lemma c77_d_pp_missing (F : fftField) lam pp (cF : codec F) mb m gen masks (xn xd : nat -> seq F)
    (num den : seq F) (r r' : rng F) d :
  pss_new F false (2 ^ lam) = Ok pp -> codec_ok cF mb -> (0 < m)%N -> (2 * m < 256 ^ 8)%N ->
  degred_masks (T := Fm F) false pp gen m masks ->
  (forall p, (p < p_n pp)%N -> size (xn p) = m) -> (forall p, (p < p_n pp)%N -> size (xd p) = m) ->
  (0 < d < p_n pp)%N ->
  size num = (m * 2 ^ lam)%N -> size den = (m * 2 ^ lam)%N ->
  (forall e j, (e < m)%N -> (j < 2 ^ lam)%N -> blocks (T := Fm F) pp num e j =
     interpolated_without pp (T := Fm F) d (entry (T := Fm F) xn e) j) ->
  (forall e j, (e < m)%N -> (j < 2 ^ lam)%N -> blocks (T := Fm F) pp den e j =
     interpolated_without pp (T := Fm F) d (entry (T := Fm F) xd e) j) ->
  all (fun z => z != 0) den ->
  exists out : nat -> seq F,
    vsharing (T := Fm F) pp (2 * 2 ^ lam) m out
      (blocks (T := Fm F) pp (running_products num den)) /\
    forall sid ord ord', hash_ok ord -> hash_ok ord' ->
      every_schedule (crashing (p_n pp) d 0 (fun=> 0%N) (fun p => pthread sid
        (d_pp false pp (p_n pp) p ord ord' cF (xn p) (xd p) (masks p) r r'))) (fun p => p != d) out.
Proof.
move=> new cok m0 m8 Hm sxn sxd /andP[d0 ld] sn sd Hn Hd nz.
have ok := pss_new_ok new; have El := pss_new_l new; have En := ppn ok; have l0 := pp_l_gt0 ok.
pose w x := mkseq (fun e => completed pp (T := Fm F) d (entry (T := Fm F) x e) d) m.
pose c x := replaced x d (w x).
have sc x : (forall p, (p < p_n pp)%N -> size (x p) = m) -> forall p, (p < p_n pp)%N -> size (c x p) = m.
  by move=> sx; apply: (size_replaced (T := Fm F)) => //; rewrite size_mkseq.
have Hc x (s : seq F) : (forall p, (p < p_n pp)%N -> size (x p) = m) ->
    (forall e j, (e < m)%N -> (j < 2 ^ lam)%N -> blocks (T := Fm F) pp s e j =
       interpolated_without pp (T := Fm F) d (entry (T := Fm F) x e) j) ->
    vsharing (T := Fm F) pp (p_n pp).-1 m (c x) (blocks (T := Fm F) pp s).
  move=> sx Hs; apply/vsharingP; split=> [|e le]; first exact: sc.
  apply: shared_ext (shared_balanced ok (imbalance_completed (T := Fm F) ok (entry (T := Fm F) x e) ld)).
    move=> i _; rewrite /c -/(entry (T := Fm F) (replaced x d (w x)) e i) entry_replaced /replaced.
    by case: (eqVneq i d) => [->|/negPf ne]; rewrite ?nth_mkseq // /completed ne.
  by move=> j lj; rewrite interpolated_completed // Hs // -El.
have Hdeg : ((p_n pp).-1 <= 4 * 2 ^ lam - 1)%N by rewrite En El; lia.
have [out [Ho Hy]] := c31_d_pp r r' new cok m0 m8 Hdeg Hm sn sd nz (Hc _ _ sxn Hn) (Hc _ _ sxd Hd).
exists out; split=> // sid ord ord' Hord Hord'.
have dn : d != 0%N by rewrite -lt0n.
pose ords k := if k == 0%N then ord else ord'.
have Hords k : hash_ok (ords k) by rewrite /ords; case: ifP.
have := Hy ords sid d 0%N (fun=> 0%N) Hords dn (fun H : false => ltac:(done)).
suff -> : crashing (p_n pp) d 0 (fun=> 0%N) (fun p => pthread sid
            (d_pp false pp (p_n pp) p (ords 0%N) (ords 1%N) cF (c xn p) (c xd p) (masks p) r r')) =
          crashing (p_n pp) d 0 (fun=> 0%N) (fun p => pthread sid
            (d_pp false pp (p_n pp) p ord ord' cF (xn p) (xd p) (masks p) r r')) by [].
apply: eq_mkseq_in => p lp; case: ifP => [/eqP Ep|npd]; last by rewrite /c /replaced npd.
rewrite {}Ep /d_pp /d_pp_with oner_eq0 /clift [cbind (CRet _) _]/=.
by rewrite /csokr_ser /client_send_or_king_receive -(prednK d0).
Qed.

(** C77: arbitrary bytes of the clients in the first round.  One message that does not decode: the
    king ends with an error; one that decodes to a vector shorter than the king's: the king panics. *)
Lemma c77_bytes_garbled (F : fftField) dbg lam pp (cF : codec F) mb m
    (masks : nat -> degred_mask (Fm F)) (xn xd : nat -> seq F) (r r' : rng F) w sid ord ord' p :
  pss_new F dbg (2 ^ lam) = Ok pp -> codec_ok cF mb ->
  (0 < m)%N -> (2 * m < 256 ^ 8)%N -> size (xn 0%N) = m -> size (xd 0%N) = m ->
  (0 < p < p_n pp)%N -> ModelNet.decode (vec_codec cF) (w p) = Err Generic ->
  king_fails (mkseq (fun p => pthread sid (sending w p
    (d_pp dbg pp (p_n pp) p ord ord' cF (xn p) (xd p) (masks p) r r'))) (p_n pp)) (Err Generic).
Proof. by move=> new cok m0 m8 sn sd pI Hp; apply: (d_pp_garbled (pss_new_ok new)) pI Hp. Qed.

Lemma c77_bytes_short (F : fftField) dbg lam pp (cF : codec F) mb m
    (masks : nat -> degred_mask (Fm F)) (xn xd : nat -> seq F) (r r' : rng F) w y sid ord ord' p :
  pss_new F dbg (2 ^ lam) = Ok pp -> codec_ok cF mb ->
  (0 < m)%N -> (2 * m < 256 ^ 8)%N -> size (xn 0%N) = m -> size (xd 0%N) = m ->
  (forall p, (0 < p < p_n pp)%N -> ModelNet.decode (vec_codec cF) (w p) = Ok (y p)) ->
  (0 < p < p_n pp)%N -> (size (y p) < 2 * m)%N ->
  king_dies (mkseq (fun p => pthread sid (sending w p
    (d_pp dbg pp (p_n pp) p ord ord' cF (xn p) (xd p) (masks p) r r'))) (p_n pp)).
Proof.
move=> new cok m0 m8 sn sd wK pI Hp.
exact: (d_pp_short (pss_new_ok new) cok dbg masks r r' (conj m0 m8) sn sd wK sid ord ord' pI Hp).
Qed.

(** C77: otherwise the bytes do what the inputs do that are cut out of the decoded vectors: the
    first [m] elements are the numerators, the next [m] the denominators, and the rest is ignored. *)
Lemma c77_bytes (F : fftField) dbg lam pp (cF : codec F) mb m gen masks (xn xd : nat -> seq F)
    (num den : seq F) (r r' : rng F) w y :
  pss_new F dbg (2 ^ lam) = Ok pp -> codec_ok cF mb -> (0 < m)%N -> (2 * m < 256 ^ 8)%N ->
  degred_masks (T := Fm F) dbg pp gen m masks -> size (xn 0%N) = m -> size (xd 0%N) = m ->
  (forall p, (0 < p < p_n pp)%N -> ModelNet.decode (vec_codec cF) (w p) = Ok (y p)) ->
  (forall p, (0 < p < p_n pp)%N -> (2 * m <= size (y p))%N) ->
  let xn' p := if p == 0%N then xn 0%N else take m (y p) in
  let xd' p := if p == 0%N then xd 0%N else take m (drop m (y p)) in
  size num = (m * 2 ^ lam)%N -> size den = (m * 2 ^ lam)%N ->
  (forall e j, (e < m)%N -> (j < 2 ^ lam)%N ->
     blocks (T := Fm F) pp num e j = interpolated pp (T := Fm F) (entry (T := Fm F) xn' e) j) ->
  (forall e j, (e < m)%N -> (j < 2 ^ lam)%N ->
     blocks (T := Fm F) pp den e j = interpolated pp (T := Fm F) (entry (T := Fm F) xd' e) j) ->
  all (fun z => z != 0) den ->
  (dbg -> forall e, (e < m)%N -> imbalance pp (T := Fm F) (entry (T := Fm F) xn' e) = 0) ->
  (dbg -> forall e, (e < m)%N -> imbalance pp (T := Fm F) (entry (T := Fm F) xd' e) = 0) ->
  exists out : nat -> seq F,
    vsharing (T := Fm F) pp (2 * 2 ^ lam) m out
      (blocks (T := Fm F) pp (running_products num den)) /\
    yields (p_n pp) true (fun ords p => sending w p
      (d_pp dbg pp (p_n pp) p (ords 0%N) (ords 1%N) cF (xn p) (xd p) (masks p) r r')) out.
Proof.
move=> new cok m0 m8 Hm sn0 sd0 wK yl xn' xd' sn sd Hn Hd nz bn bd.
have ok := pss_new_ok new; have El := pss_new_l new; rewrite -El in sn sd Hn Hd *.
have Hm' := degred_masks_ok new m0 Hm.
have En := guessedE ok sn Hn; have Ed := guessedE ok sd Hd.
have b : ~~ (dbg && (unbalanced (T := Fm F) pp xn' m || unbalanced (T := Fm F) pp xd' m)).
  by apply/negP => /andP[dbgT]; rewrite (balancedP (bn dbgT)) (balancedP (bd dbgT)).
have nz' : all (fun z => z != 0) (guessed pp m xd') by rewrite -Ed.
have [out [Ho Hp]] := d_pp_bytes ok cok r r' (conj m0 m8) sn0 sd0 wK yl nz' Hm' b.
exists out; split; first by rewrite En Ed.
apply: yields_any => [|ords Hords]; [exact: n_gt0 new|exact: Hp].
Qed.

(** C77: unless a debug build notices an unbalanced entry, or a denominator is zero. *)
Lemma c77_bytes_caught (F : fftField) dbg lam pp (cF : codec F) mb m
    (masks : nat -> degred_mask (Fm F)) (xn xd : nat -> seq F) (r r' : rng F) w y sid ord ord' e :
  pss_new F dbg (2 ^ lam) = Ok pp -> codec_ok cF mb -> (0 < m)%N -> (2 * m < 256 ^ 8)%N ->
  size (xn 0%N) = m -> size (xd 0%N) = m ->
  (forall p, (0 < p < p_n pp)%N -> ModelNet.decode (vec_codec cF) (w p) = Ok (y p)) ->
  (forall p, (0 < p < p_n pp)%N -> (2 * m <= size (y p))%N) ->
  let xn' p := if p == 0%N then xn 0%N else take m (y p) in
  let xd' p := if p == 0%N then xd 0%N else take m (drop m (y p)) in
  (e < m)%N ->
  [\/ dbg /\ imbalance pp (T := Fm F) (entry (T := Fm F) xn' e) != 0,
      dbg /\ imbalance pp (T := Fm F) (entry (T := Fm F) xd' e) != 0 |
      exists2 j, (j < 2 ^ lam)%N & interpolated pp (T := Fm F) (entry (T := Fm F) xd' e) j = 0] ->
  king_dies (mkseq (fun p => pthread sid (sending w p
    (d_pp dbg pp (p_n pp) p ord ord' cF (xn p) (xd p) (masks p) r r'))) (p_n pp)).
Proof.
move=> new cok m0 m8 sn0 sd0 wK yl xn' xd' le bad; have ok := pss_new_ok new; have El := pss_new_l new.
apply: (d_pp_bytes_caught ok cok masks r r' (conj m0 m8) sn0 sd0 wK yl); apply/orP.
case: bad => [[-> ne]|[-> ne]|[j lj z]].
- by left; rewrite /=; apply/orP; left; apply/unbalancedP; exists e.
- by left; rewrite /=; apply/orP; right; apply/unbalancedP; exists e.
right; rewrite -El in lj; rewrite -z -(blocks_guessed ok xd' le lj) /blocks.
by apply: mem_nth; rewrite size_mkseq; nia.
Qed.
