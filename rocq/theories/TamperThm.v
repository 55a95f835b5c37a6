(** Theorems about parties that do not send what they should. *)
From mathcomp Require Import all_ssreflect all_algebra.
From mathcomp Require Import zify.
From Verif Require Import RingTac Base ModelField ModelUtils ModelPss ModelPack ModelFft ModelNet.
From Verif Require Import ModelProto Spec SpecNet SpecProto SpecTamper NetProofs KingProofs KingFail.
From Verif Require Import RoundProofs NetThm FieldProofs UtilsProofs PssProofs PackProofs FftProofs.
From Verif Require Import ProtoProofs DegProofs TamperProofs TamperFft PpProofs ProtoThm.
Set Implicit Arguments.
Unset Strict Implicit.
Unset Printing Implicit Defensive.
Import GRing.Theory.
Local Open Scope ring_scope.
Local Notation Fm F := [lmodType F of F^o].

Lemma yields_any A n prog (out : nat -> A) : (0 < n)%N ->
  (forall ords, (forall i, hash_ok (ords i)) ->
     king_prog n (fun d => (d != 0%N) && (n <= d)%N) (prog ords) out) ->
  yields n true prog out.
Proof. by move=> n0 H; apply: yields_prog => // ords /H. Qed.

Section Errors.
Variable F : fftField.
Variable T : lmodType F.
Variables (pp : pss F) (ok : pp_ok pp).
  Local Notation l := (p_l pp).
  Local Notation n := (p_n pp).

(** one share replaced *)
Lemma replaced_add (y : nat -> T) q v p :
  replaced y q v p = y p + (if p == q then v - y q else 0).
Proof. by rewrite /replaced; case: eqP => [->|_]; rewrite ?addr0 // addrC subrK. Qed.

Lemma sum_one (a : nat -> F) q (u : T) : (q < n)%N ->
  \sum_(p < n) a p *: (if val p == q then u else 0) = a q *: u.
Proof.
move=> lq; rewrite (bigD1 (Ordinal lq)) //= eqxx big1 ?addr0 // => p.
by rewrite -(inj_eq val_inj) /= => /negPf ->; rewrite scaler0.
Qed.

Lemma interpolated_replaced (y : nat -> T) q v j : (q < n)%N ->
  interpolated pp (replaced y q v) j = interpolated pp y j + weight pp q j *: (v - y q).
Proof.
move=> lq; rewrite (eq_interpolated (y' := fun p => y p + (if p == q then v - y q else 0))).
  by rewrite interpolatedD {2}/interpolated (sum_one (fun p => weight pp p j)).
by move=> p _; apply: replaced_add.
Qed.

Lemma imbalance_replaced (y : nat -> T) q v : (q < n)%N ->
  imbalance pp (replaced y q v) = imbalance pp y + share_pt pp q *: (v - y q).
Proof.
move=> lq; rewrite (eq_imbalance (y' := fun p => y p + (if p == q then v - y q else 0))).
  by rewrite imbalanceD {2}/imbalance (sum_one (share_pt pp)).
by move=> p _; apply: replaced_add.
Qed.

Lemma entry_replaced (x : nat -> seq T) q (v : seq T) e p :
  entry (replaced x q v) e p = replaced (entry x e) q v`_e p.
Proof. by rewrite /entry /replaced; case: ifP. Qed.

Lemma size_replaced m (x : nat -> seq T) q (v : seq T) :
  (forall p, (p < n)%N -> size (x p) = m) -> size v = m ->
  forall p, (p < n)%N -> size (replaced x q v p) = m.
Proof. by move=> sx sv p lp; rewrite /replaced; case: ifP => // _; rewrite sx. Qed.

Lemma unbalancedP (x : nat -> seq T) m :
  reflect (exists2 e, (e < m)%N & imbalance pp (entry x e) != 0) (unbalanced pp x m).
Proof.
rewrite /unbalanced; apply: (iffP hasP) => -[e]; first by rewrite mem_iota add0n => /= ? ?; exists e.
by move=> le ne; exists e; rewrite ?mem_iota.
Qed.

(** one vector replaced in a sharing *)
Lemma unbalanced_replaced m deg (x : nat -> seq T) sec q v : (deg <= n.-1)%N ->
  vsharing pp deg m x sec -> (q < n)%N -> size v = m -> v != x q ->
  exists2 e, (e < m)%N & imbalance pp (entry (replaced x q v) e) != 0.
Proof.
move=> Hdeg /vsharingP[sx Hx] lq sv nv.
have [e le ne] : exists2 e, (e < m)%N & v`_e != (x q)`_e.
  have : ~~ all (fun e => v`_e == (x q)`_e) (iota 0 m).
    apply: contra nv => /allP H; apply/eqP; apply: (@eq_from_nth _ 0); first by rewrite sv sx.
    by rewrite sv => i li; apply/eqP/H; rewrite mem_iota.
  by case/allPn => e; rewrite mem_iota add0n => /= le ne; exists e.
exists e => //.
rewrite (eq_imbalance (y' := replaced (entry x e) q v`_e)); last by move=> p _; apply: entry_replaced.
rewrite imbalance_replaced // (imbalance_shared ok Hdeg (Hx e le)) add0r.
by rewrite scaler_eq0 (negPf (share_pt_neq0 ok q)) subr_eq0.
Qed.

End Errors.

(*** theorems ***)

(** C73: the weights.  They are the values of the Lagrange polynomials of the share points at the
    secret points, and none of them is zero. *)
Lemma c73_weight (F : fftField) dbg lam (pp : pss F) p j :
  pss_new F dbg (2 ^ lam) = Ok pp -> ff_generator F ^+ p_n pp != 1 ->
  weight pp p j = share_pt pp p * (secret_pt pp j ^+ p_n pp - 1)
                  / ((p_n pp)%:R * (secret_pt pp j - share_pt pp p)) /\
  weight pp p j != 0.
Proof.
move=> new g1; have ok := pss_new_ok new; split; last exact: weight_neq0.
by apply: weight_closed ok _ _ (secret_share_disjoint ok j p g1).
Qed.

Lemma c73_weight_without (F : fftField) dbg lam (pp : pss F) d p j :
  pss_new F dbg (2 ^ lam) = Ok pp -> ff_generator F ^+ p_n pp != 1 ->
  (d < p_n pp)%N -> (p < p_n pp)%N -> p != d ->
  weight_without pp d p j = weight pp p j * ((share_pt pp p - share_pt pp d)
                                             / (secret_pt pp j - share_pt pp d)) /\
  weight_without pp d p j != 0.
Proof.
move=> new g1 ld lp npd; have ok := pss_new_ok new; split; last exact: weight_without_neq0.
exact: weight_without_closed.
Qed.

(** C73: on sharings the interpolation gives the secrets, and up to [n - 1] coefficients nothing is
    out of balance. *)
Lemma c73_sharings (F : fftField) (T : lmodType F) dbg lam (pp : pss F) deg (y g : nat -> T) :
  pss_new F dbg (2 ^ lam) = Ok pp ->
  sharing pp deg (mkseq y (p_n pp)) (mkseq g (2 ^ lam)) ->
  ((deg <= p_n pp)%N -> forall j, (j < 2 ^ lam)%N -> interpolated pp y j = g j) /\
  ((deg <= (p_n pp).-1)%N -> imbalance pp y = 0).
Proof.
move=> new; have ok := pss_new_ok new; rewrite -(pss_new_l new) => /sharingP H; split=> [dn j lj|dn].
  exact: interpolated_shared H lj.
exact: imbalance_shared H.
Qed.

(** C73: [unpack2] on any shares at all. *)
Lemma c73_unpack2 (F : fftField) (T : lmodType F) dbg lam (pp : pss F) (y : nat -> T) :
  pss_new F dbg (2 ^ lam) = Ok pp ->
  unpack2 dbg pp (mkseq y (p_n pp)) =
  if dbg && (imbalance pp y != 0) then Panic else Ok (mkseq (interpolated pp y) (2 ^ lam)).
Proof. by move=> new; rewrite (unpack2_any (pss_new_ok new)) (pss_new_l new). Qed.

(** C73: degree reduction of any vectors at all, if nobody crashes.  In release builds all parties
    end with sharings of what the vectors interpolate to; in debug builds the same if every entry
    is balanced, and otherwise the king panics in every execution and nobody else finishes. *)
Lemma c73_deg_red (F : fftField) (T : lmodType F) dbg lam pp (gen : T) (cT : codec T) mb m masks x
    (r : rng T) :
  pss_new F dbg (2 ^ lam) = Ok pp -> codec_ok cT mb -> (0 < m < 256 ^ 8)%N ->
  degred_masks dbg pp gen m masks -> (forall p, (p < p_n pp)%N -> size (x p) = m) ->
  (dbg -> forall e, (e < m)%N -> imbalance pp (entry x e) = 0) ->
  exists out : nat -> seq T,
    vsharing pp (2 * 2 ^ lam) m out (fun e j => interpolated pp (entry x e) j) /\
    yields (p_n pp) true
      (fun ords p => deg_red dbg pp (p_n pp) p (ords 0%N) cT (x p) (masks p) r) out.
Proof.
move=> new cok m8 Hm sx bal; have ok := pss_new_ok new; have El := pss_new_l new.
have [m0 _] := andP m8; have Hm' := degred_masks_ok new m0 Hm.
have b : ~~ (dbg && unbalanced pp x m).
  apply/negP => /andP[dbgT /unbalancedP[e le]].
  by rewrite (bal dbgT e le) eqxx.
have [out [Ho Hp]] := deg_red_any ok cok r m8 Hm' sx b.
rewrite -El; exists out; split=> //; apply: yields_any => [|ords Hords]; [exact: n_gt0 new|exact: Hp].
Qed.

Lemma c73_deg_red_caught (F : fftField) (T : lmodType F) lam pp (gen : T) (cT : codec T) mb m masks x
    (r : rng T) sid ord e :
  pss_new F true (2 ^ lam) = Ok pp -> codec_ok cT mb -> (0 < m < 256 ^ 8)%N ->
  degred_masks true pp gen m masks -> (forall p, (p < p_n pp)%N -> size (x p) = m) ->
  hash_ok ord -> (e < m)%N -> imbalance pp (entry x e) != 0 ->
  king_dies (mkseq (fun p => pthread sid
    (deg_red true pp (p_n pp) p ord cT (x p) (masks p) r)) (p_n pp)).
Proof.
move=> new cok m8 Hm sx Ho le ne; have ok := pss_new_ok new.
have [m0 _] := andP m8; have Hm' := degred_masks_ok new m0 Hm.
apply: (deg_red_caught ok cok r sid m8 Hm' sx _ Ho).
by apply/unbalancedP; exists e.
Qed.

(** C73: one party [q] replaces its shares by anything else.  In debug builds the king panics; in
    release builds nobody notices, and every slot of every replaced entry is wrong. *)
Lemma c73_one_party_debug (F : fftField) (T : lmodType F) lam pp (gen : T) (cT : codec T) mb m masks x
    sec deg (r : rng T) sid ord q v :
  pss_new F true (2 ^ lam) = Ok pp -> codec_ok cT mb -> (0 < m < 256 ^ 8)%N ->
  degred_masks true pp gen m masks -> (deg <= 4 * 2 ^ lam - 1)%N -> vsharing pp deg m x sec ->
  hash_ok ord -> (q < p_n pp)%N -> size v = m -> v != x q ->
  king_dies (mkseq (fun p => pthread sid
    (deg_red true pp (p_n pp) p ord cT (replaced x q v p) (masks p) r)) (p_n pp)).
Proof.
move=> new cok m8 Hm Hdeg Hx Ho lq sv nv; have ok := pss_new_ok new; have sx := proj1 Hx.
have El := pss_new_l new; have En := ppn ok; rewrite -El in Hdeg.
have Hdeg' : (deg <= (p_n pp).-1)%N by lia.
have [e le ne] := unbalanced_replaced ok Hdeg' Hx lq sv nv.
exact: (c73_deg_red_caught r sid new cok m8 Hm (size_replaced q sx sv) Ho le ne).
Qed.

Lemma c73_one_party_release (F : fftField) (T : lmodType F) lam pp (gen : T) (cT : codec T) mb m masks
    x sec deg (r : rng T) q v :
  pss_new F false (2 ^ lam) = Ok pp -> codec_ok cT mb -> (0 < m < 256 ^ 8)%N ->
  degred_masks false pp gen m masks -> (deg <= 4 * 2 ^ lam)%N -> vsharing pp deg m x sec ->
  ff_generator F ^+ p_n pp != 1 -> (q < p_n pp)%N -> size v = m ->
  exists out sec' : nat -> _, [/\ vsharing pp (2 * 2 ^ lam) m out sec',
    yields (p_n pp) true
      (fun ords p => deg_red false pp (p_n pp) p (ords 0%N) cT (replaced x q v p) (masks p) r) out,
    forall e j, (e < m)%N -> (j < 2 ^ lam)%N ->
      sec' e j = sec e j + weight pp q j *: (v`_e - (x q)`_e) &
    forall e j, (e < m)%N -> (j < 2 ^ lam)%N -> v`_e != (x q)`_e -> sec' e j != sec e j].
Proof.
move=> new cok m8 Hm Hdeg /vsharingP[sx Hx] g1 lq sv; have ok := pss_new_ok new.
have El := pss_new_l new; have En := ppn ok.
have nob : false -> forall e, (e < m)%N -> imbalance pp (entry (replaced x q v) e) = 0 by [].
have [out [Ho Hy]] := c73_deg_red r new cok m8 Hm (size_replaced q sx sv) nob.
have Es e j : (e < m)%N -> (j < 2 ^ lam)%N ->
    interpolated pp (entry (replaced x q v) e) j = sec e j + weight pp q j *: (v`_e - (x q)`_e).
  move=> le lj; rewrite (eq_interpolated (y' := replaced (entry x e) q v`_e)); last first.
    by move=> p _; apply: entry_replaced.
  rewrite interpolated_replaced // (interpolated_shared ok _ (Hx e le)) ?El //.
  by rewrite En El.
exists out, (fun e j => interpolated pp (entry (replaced x q v) e) j); split=> // e j le lj ne.
rewrite Es // -subr_eq0 addrAC subrr add0r scaler_eq0 subr_eq0 (negPf ne) orbF.
exact: weight_neq0.
Qed.

(** C73: two parties together are not noticed by debug builds either: the errors
    [share_pt q' *: a] and [- share_pt q *: a] cancel in the check, and every slot of every entry
    in which [a] is not zero is wrong. *)
Lemma c73_two_parties (F : fftField) (T : lmodType F) dbg lam pp (gen : T) (cT : codec T) mb m masks x
    sec deg (r : rng T) q q' (a : seq T) :
  pss_new F dbg (2 ^ lam) = Ok pp -> codec_ok cT mb -> (0 < m < 256 ^ 8)%N ->
  degred_masks dbg pp gen m masks -> (deg <= 4 * 2 ^ lam - 1)%N -> vsharing pp deg m x sec ->
  ff_generator F ^+ p_n pp != 1 -> (q < p_n pp)%N -> (q' < p_n pp)%N -> q != q' -> size a = m ->
  let v := zipmap (fun u w => u + share_pt pp q' *: w) (x q) a in
  let v' := zipmap (fun u w => u - share_pt pp q *: w) (x q') a in
  exists out sec' : nat -> _, [/\ vsharing pp (2 * 2 ^ lam) m out sec',
    yields (p_n pp) true (fun ords p =>
      deg_red dbg pp (p_n pp) p (ords 0%N) cT (replaced (replaced x q v) q' v' p) (masks p) r) out,
    forall e j, (e < m)%N -> (j < 2 ^ lam)%N ->
      sec' e j = sec e j + (share_pt pp q' * weight_without pp q' q j) *: a`_e &
    forall e j, (e < m)%N -> (j < 2 ^ lam)%N -> a`_e != 0 -> sec' e j != sec e j].
Proof.
move=> new cok m8 Hm Hdeg /vsharingP[sx Hx] g1 lq lq' nqq sa v v'; have ok := pss_new_ok new.
have El := pss_new_l new; have En := ppn ok; have l0 := pp_l_gt0 ok; rewrite -El in Hdeg *.
have sv : size v = m by rewrite size_zipmap sx // sa minnn.
have sv' : size v' = m by rewrite size_zipmap sx // sa minnn.
pose z := replaced (replaced x q v) q' v'.
have sz : forall p, (p < p_n pp)%N -> size (z p) = m by apply: size_replaced => //; apply: size_replaced.
have Ee e p : entry z e p = replaced (replaced (entry x e) q v`_e) q' v'`_e p.
  by rewrite entry_replaced /replaced /entry; case: ifP => //; case: ifP.
have Ev e : (e < m)%N -> v`_e - entry x e q = share_pt pp q' *: a`_e.
  by move=> le; rewrite (nth_zipmap _ 0 0) ?sx ?sa // addrAC subrr add0r.
have Ev' e : (e < m)%N -> v'`_e - replaced (entry x e) q v`_e q' = - (share_pt pp q *: a`_e).
  move=> le; rewrite /replaced eq_sym (negPf nqq) (nth_zipmap _ 0 0) ?sx ?sa //.
  by rewrite addrAC subrr add0r.
have bal : dbg -> forall e, (e < m)%N -> imbalance pp (entry z e) = 0.
  move=> _ e le; rewrite (eq_imbalance (y' := replaced (replaced (entry x e) q v`_e) q' v'`_e)) //.
  rewrite !imbalance_replaced // Ev // Ev' // (imbalance_shared ok _ (Hx e le)); last lia.
  by rewrite add0r scalerN !scalerA mulrC subrr.
have [out [Ho Hy]] := c73_deg_red r new cok m8 Hm sz bal; rewrite -El in Ho.
have Es e j : (e < m)%N -> (j < p_l pp)%N ->
    interpolated pp (entry z e) j = sec e j + (share_pt pp q' * weight_without pp q' q j) *: a`_e.
  move=> le lj; rewrite (eq_interpolated (y' := replaced (replaced (entry x e) q v`_e) q' v'`_e)) //.
  rewrite !interpolated_replaced // Ev // Ev' // (interpolated_shared ok _ (Hx e le)) //; last lia.
  rewrite -addrA; congr (_ + _); rewrite scalerN !scalerA -scalerBl; congr (_ *: _).
  rewrite /weight_without mulrBr mulrC; congr (_ - _).
  by rewrite mulrCA [share_pt pp q' * _]mulrC divfK ?(share_pt_neq0 ok).
exists out, (fun e j => interpolated pp (entry z e) j); split=> // e j le lj ne.
rewrite Es // -subr_eq0 addrAC subrr add0r scaler_eq0 (negPf ne) orbF.
by rewrite mulf_neq0 ?(share_pt_neq0 ok) // weight_without_neq0.
Qed.

(** C73: if one party [d] sends nothing, the king interpolates from the others and has nothing left
    to check with: whatever they send, in either build, nobody notices. *)
Lemma c73_deg_red_missing (F : fftField) (T : lmodType F) dbg lam pp (gen : T) (cT : codec T) mb m
    masks x (r : rng T) d :
  pss_new F dbg (2 ^ lam) = Ok pp -> codec_ok cT mb -> (0 < m < 256 ^ 8)%N ->
  degred_masks dbg pp gen m masks -> (forall p, (p < p_n pp)%N -> size (x p) = m) ->
  (0 < d < p_n pp)%N ->
  exists out : nat -> seq T,
    vsharing pp (2 * 2 ^ lam) m out (fun e j => interpolated_without pp d (entry x e) j) /\
    forall sid ord, hash_ok ord ->
      every_schedule (crashing (p_n pp) d 0 (fun=> 0%N) (fun p =>
        pthread sid (deg_red dbg pp (p_n pp) p ord cT (x p) (masks p) r))) (fun p => p != d) out.
Proof.
move=> new cok m8 Hm sx /andP[d0 ld]; have ok := pss_new_ok new; have El := pss_new_l new.
have En := ppn ok; have l0 := pp_l_gt0 ok; have [m0 _] := andP m8.
pose w := mkseq (fun e => completed pp d (entry x e) d) m; pose x' := replaced x d w.
have sx' : forall p, (p < p_n pp)%N -> size (x' p) = m by apply: size_replaced; rewrite ?size_mkseq.
have Ex e p : (e < m)%N -> entry x' e p = completed pp d (entry x e) p.
  move=> le; rewrite entry_replaced /replaced; case: eqP => [->|/eqP npd]; first by rewrite nth_mkseq.
  by rewrite /completed (negPf npd).
have Hx' : vsharing pp (p_n pp).-1 m x' (fun e j => interpolated_without pp d (entry x e) j).
  apply/vsharingP; split=> // e le.
  apply: shared_ext (shared_balanced ok (imbalance_completed ok (entry x e) ld)) => [i _|j _].
    by rewrite -Ex.
  exact: interpolated_completed.
have Hdeg : ((p_n pp).-1 <= 4 * 2 ^ lam - 1)%N by rewrite En El; lia.
have [out [Ho Hy]] := c27_deg_red r new cok m8 Hdeg Hm Hx'.
exists out; split=> // sid ord Hord.
have dn : d != 0%N by rewrite -lt0n.
have := Hy (fun=> ord) sid d 0%N (fun=> 0%N) (fun=> Hord) dn (fun H : false => ltac:(done)).
suff -> : crashing (p_n pp) d 0 (fun=> 0%N) (fun p => pthread sid
            (deg_red dbg pp (p_n pp) p ord cT (x' p) (masks p) r)) =
          crashing (p_n pp) d 0 (fun=> 0%N) (fun p => pthread sid
            (deg_red dbg pp (p_n pp) p ord cT (x p) (masks p) r)) by [].
apply: eq_mkseq_in => p lp; case: ifP => [/eqP Ep|npd]; last by rewrite /x' /replaced npd.
rewrite {}Ep /deg_red !sx ?sx' //.
case: (dassert _ _) => [[]|//|//]; rewrite /clift [cbind (CRet _) _]/=.
case: (dassert _ _) => [[]|//|//]; rewrite /clift [cbind (CRet _) _]/=.
by rewrite /csokr_ser /client_send_or_king_receive -(prednK d0).
Qed.

(** C73: so one other party [q] that replaces its shares makes every slot of every replaced entry
    wrong, in either build. *)
Lemma c73_one_party_missing (F : fftField) (T : lmodType F) dbg lam pp (gen : T) (cT : codec T) mb m
    masks x sec deg (r : rng T) d q v :
  pss_new F dbg (2 ^ lam) = Ok pp -> codec_ok cT mb -> (0 < m < 256 ^ 8)%N ->
  degred_masks dbg pp gen m masks -> (deg <= 4 * 2 ^ lam - 1)%N -> vsharing pp deg m x sec ->
  ff_generator F ^+ p_n pp != 1 -> (0 < d < p_n pp)%N -> (q < p_n pp)%N -> q != d -> size v = m ->
  exists out sec' : nat -> _, [/\ vsharing pp (2 * 2 ^ lam) m out sec',
    forall sid ord, hash_ok ord ->
      every_schedule (crashing (p_n pp) d 0 (fun=> 0%N) (fun p =>
        pthread sid (deg_red dbg pp (p_n pp) p ord cT (replaced x q v p) (masks p) r)))
        (fun p => p != d) out,
    forall e j, (e < m)%N -> (j < 2 ^ lam)%N ->
      sec' e j = sec e j + weight_without pp d q j *: (v`_e - (x q)`_e) &
    forall e j, (e < m)%N -> (j < 2 ^ lam)%N -> v`_e != (x q)`_e -> sec' e j != sec e j].
Proof.
move=> new cok m8 Hm Hdeg /vsharingP[sx Hx] g1 ld lq nqd sv; have ok := pss_new_ok new.
have [d0 ld'] := andP ld; have El := pss_new_l new; have En := ppn ok; have l0 := pp_l_gt0 ok.
have [out [Ho Hy]] := c73_deg_red_missing r new cok m8 Hm (size_replaced q sx sv) ld.
have Es e j : (e < m)%N -> (j < 2 ^ lam)%N ->
    interpolated_without pp d (entry (replaced x q v) e) j =
    sec e j + weight_without pp d q j *: (v`_e - (x q)`_e).
  move=> le lj; have Hx1 := Hx e le.
  have E1 : interpolated_without pp d (entry x e) j = sec e j.
    rewrite -(interpolated_completed _ _ ld').
    rewrite (eq_interpolated (y' := entry x e)) ?(interpolated_shared ok _ Hx1) ?El //.
      by rewrite En El; lia.
    move=> p lp; rewrite /completed; case: eqP => // ->.
    have : imbalance pp (entry x e) = 0.
      by apply: imbalance_shared Hx1 => //; rewrite En El; lia.
    rewrite /imbalance (bigD1 (Ordinal ld')) //= => /eqP; rewrite addr_eq0 => /eqP E.
    have s0 := share_pt_neq0 ok d.
    rewrite -[RHS]scale1r -(mulVf s0) -[RHS]scalerA E scalerN.
    have E' (p' : 'I_(p_n pp)) : (p' != Ordinal ld') = (val p' != d) by rewrite -(inj_eq val_inj).
    by rewrite (eq_bigl _ _ E').
  rewrite -E1 /interpolated_without.
  have sumE (u : T) : weight_without pp d q j *: u =
      \sum_(p < p_n pp | val p != d) weight_without pp d p j *: (if val p == q then u else 0).
    rewrite (bigD1 (Ordinal lq)) //= eqxx big1 ?addr0 // => p /andP[_].
    by rewrite -(inj_eq val_inj) /= => /negPf ->; rewrite scaler0.
  rewrite sumE -big_split; apply: eq_bigr => p _ /=; rewrite -scalerDr; congr (_ *: _).
  by rewrite entry_replaced replaced_add.
exists out, (fun e j => interpolated_without pp d (entry (replaced x q v) e) j); split=> // e j le lj ne.
rewrite Es // -subr_eq0 addrAC subrr add0r scaler_eq0 negb_or weight_without_neq0 //=.
by rewrite subr_eq0.
Qed.

(** C73: multi-scalar multiplication of any shares at all, if nobody crashes. *)
Lemma c73_d_msm (F : fftField) (T : lmodType F) dbg lam pp (gen : T) (cT : codec T) mb m masks
    (bases : nat -> seq T) (scalars : nat -> seq F) :
  pss_new F dbg (2 ^ lam) = Ok pp -> codec_ok cT mb -> msm_masks dbg pp gen masks ->
  (forall p, (p < p_n pp)%N -> size (bases p) = m) ->
  (forall p, (p < p_n pp)%N -> size (scalars p) = m) ->
  (dbg -> imbalance pp (products bases scalars m) = 0) ->
  exists out : nat -> T,
    sharing pp (2 * 2 ^ lam) (mkseq out (p_n pp))
      (nseq (2 ^ lam) (\sum_(j < 2 ^ lam) interpolated pp (products bases scalars m) j)) /\
    yields (p_n pp) true (fun ords p =>
      d_msm dbg pp (p_n pp) p (ords 0%N) cT (bases p) (scalars p) (masks p)) out.
Proof.
move=> new cok Hm sb ss bal; have ok := pss_new_ok new; have El := pss_new_l new.
have b : ~~ (dbg && (imbalance pp (products bases scalars m) != 0)).
  by apply/negP => /andP[/bal ->]; rewrite eqxx.
have [out [Ho Hp]] := d_msm_any ok cok (msm_masks_ok new Hm) sb ss b.
exists out; split; last first.
  by apply: yields_any => [|ords Hords]; [exact: n_gt0 new|exact: Hp].
rewrite -El; have /sharingP := Ho; congr (sharing _ _ _ _).
by apply: (@eq_from_nth _ 0); rewrite size_mkseq ?size_nseq // => i li; rewrite nth_mkseq // nth_nseq li.
Qed.

Lemma c73_d_msm_caught (F : fftField) (T : lmodType F) lam pp (gen : T) (cT : codec T) mb m masks
    (bases : nat -> seq T) (scalars : nat -> seq F) sid ord :
  pss_new F true (2 ^ lam) = Ok pp -> codec_ok cT mb -> msm_masks true pp gen masks ->
  (forall p, (p < p_n pp)%N -> size (bases p) = m) ->
  (forall p, (p < p_n pp)%N -> size (scalars p) = m) -> hash_ok ord ->
  imbalance pp (products bases scalars m) != 0 ->
  king_dies (mkseq (fun p => pthread sid
    (d_msm true pp (p_n pp) p ord cT (bases p) (scalars p) (masks p))) (p_n pp)).
Proof.
move=> new cok Hm sb ss Ho ne.
exact: (d_msm_caught (pss_new_ok new) cok sid (msm_masks_ok new Hm) sb ss Ho ne).
Qed.

(** C73: one party with other bases.  Its error [a] in the product reaches the result with the
    factor [\sum_j weight q j]. *)
Lemma c73_d_msm_one_party (F : fftField) (T : lmodType F) lam pp (gen : T) (cT : codec T) mb m masks
    (bases : nat -> seq T) sb (scalars : nat -> seq F) ss q v :
  pss_new F false (2 ^ lam) = Ok pp -> codec_ok cT mb -> msm_masks false pp gen masks ->
  vsharing pp (2 * 2 ^ lam) m bases sb -> vsharing (T := Fm F) pp (2 * 2 ^ lam) m scalars ss ->
  (q < p_n pp)%N -> size v = m ->
  let a := \sum_(e < m) (scalars q)`_e *: (v`_e - (bases q)`_e) in
  let S := \sum_(e < m) \sum_(j < 2 ^ lam) ss e j *: sb e j in
  exists out : nat -> T,
    sharing pp (2 * 2 ^ lam) (mkseq out (p_n pp))
      (nseq (2 ^ lam) (S + (\sum_(j < 2 ^ lam) weight pp q j) *: a)) /\
    yields (p_n pp) true (fun ords p =>
      d_msm false pp (p_n pp) p (ords 0%N) cT (replaced bases q v p) (scalars p) (masks p)) out.
Proof.
move=> new cok Hm /vsharingP[szb Hb] /vsharingP[szs Hs] lq sv a S; have ok := pss_new_ok new.
have El := pss_new_l new; have En := ppn ok; have l0 := pp_l_gt0 ok.
have nob : false -> imbalance pp (products (replaced bases q v) scalars m) = 0 by [].
have [out [Ho Hy]] := c73_d_msm new cok Hm (size_replaced q szb sv) szs nob.
exists out; split=> //; have := Ho; congr (sharing _ _ _ (nseq _ _)).
have Hc : shared pp (p_n pp) (products bases scalars m) (fun j => \sum_(e < m) ss e j *: sb e j).
  have H e : (e < m)%N -> shared pp (p_n pp) (fun p => (scalars p)`_e *: (bases p)`_e)
                                             (fun j => ss e j *: sb e j).
    move=> le; have [c [sc E1 E2]] : shared pp (2 * 2 ^ lam + 2 * 2 ^ lam).-1
        (fun p => (scalars p)`_e *: (bases p)`_e) (fun j => ss e j *: sb e j).
      by apply: shared_mul (Hs e le) (Hb e le); rewrite muln_gt0 expn_gt0.
    by exists c; split=> //; apply: leq_trans sc _; rewrite En El; lia.
  have := @shared_sum _ _ pp (p_n pp) m (fun=> 1) _ _ H.
  by apply: shared_ext => i _; apply: eq_bigr => e _; rewrite scale1r.
have Ep p : products (replaced bases q v) scalars m p =
    replaced (products bases scalars m) q (\sum_(e < m) (scalars q)`_e *: v`_e) p.
  by rewrite /products /replaced; case: eqP => [->|_].
rewrite (eq_bigr (fun j : 'I_(2 ^ lam) => \sum_(e < m) ss e j *: sb e j + weight pp q j *: a)); last first.
  move=> j _; rewrite (eq_interpolated (y' := replaced (products bases scalars m) q
                                       (\sum_(e < m) (scalars q)`_e *: v`_e))) //.
  rewrite interpolated_replaced // (interpolated_shared ok _ Hc) ?El //; congr (_ + _ *: _).
  by rewrite /a /products -sumrB; apply: eq_bigr => e _; rewrite scalerBr.
by rewrite big_split /= scaler_suml /S exchange_big.
Qed.

(** C73: the transforms of any vectors at all, if nobody crashes: all parties end with sharings of
    the transform of what the vectors interpolate to. *)
Lemma c73_d_fft (F : fftField) dbg lam b pp dom (cF : codec F) mb rearrange masks (x : nat -> seq F)
    (r : rng F) :
  pss_new F dbg (2 ^ lam) = Ok pp -> domain_new F (2 ^ (b + lam)) = Some dom ->
  codec_ok cF mb -> (2 ^ b < 256 ^ 8)%N ->
  fft_masks dbg pp rearrange 1 (d_gen dom) (2 ^ (b + lam)) masks ->
  (forall p, (p < p_n pp)%N -> size (x p) = (2 ^ b)%N) ->
  (dbg -> forall e, (e < 2 ^ b)%N -> imbalance (T := Fm F) pp (entry (T := Fm F) x e) = 0) ->
  exists (c : seq F) (out : nat -> seq F), [/\ size c = (2 ^ (b + lam))%N,
    forall e j, (e < 2 ^ b)%N -> (j < 2 ^ lam)%N -> strides (T := Fm F) b (b + lam) c e j =
      interpolated (T := Fm F) pp (entry (T := Fm F) x e) j,
    vsharing (T := Fm F) pp (2 * 2 ^ lam) (2 ^ b) out (slots (T := Fm F) pp rearrange b (b + lam)
      (evals (T := Fm F) 1 (d_gen dom) (2 ^ (b + lam)) c)) &
    yields (p_n pp) true
      (fun ords p => d_fft dbg pp (p_n pp) p (ords 0%N) cF (x p) (masks p) rearrange dom r) out].
Proof.
move=> new Edom cok mb8 Hm sx bal; have ok := pss_new_ok new; have El := pss_new_l new.
have Hm' := fft_masks_ok new (dom_prim Edom) Hm.
have bal' : ~~ (dbg && unbalanced (T := Fm F) pp x (2 ^ b)).
  by apply/negP => /andP[dbgT /unbalancedP[e le]]; rewrite (bal dbgT e le) eqxx.
have [c [sc Ec]] := strides_exist El mb8
  (fun e j => interpolated (T := Fm F) pp (entry (T := Fm F) x e) j).
have [out [Ho Hp]] := d_fft_any ok El cok mb8 Edom r Hm' sx bal' sc Ec.
rewrite -El; exists c, out; split=> //.
by apply: yields_any => [|ords Hords]; [exact: n_gt0 new|exact: Hp].
Qed.

Lemma c73_d_ifft (F : fftField) dbg lam b pp dom (cF : codec F) mb rearrange g masks
    (x : nat -> seq F) (r : rng F) :
  pss_new F dbg (2 ^ lam) = Ok pp -> domain_new F (2 ^ (b + lam)) = Some dom ->
  codec_ok cF mb -> (2 ^ b < 256 ^ 8)%N ->
  fft_masks dbg pp rearrange g (d_gen_inv dom) (2 ^ (b + lam)) masks ->
  (forall p, (p < p_n pp)%N -> size (x p) = (2 ^ b)%N) ->
  (dbg -> forall e, (e < 2 ^ b)%N -> imbalance (T := Fm F) pp (entry (T := Fm F) x e) = 0) ->
  exists (c : seq F) (out : nat -> seq F), [/\ size c = (2 ^ (b + lam))%N,
    forall e j, (e < 2 ^ b)%N -> (j < 2 ^ lam)%N ->
      strides (T := Fm F) b (b + lam) (evals (T := Fm F) 1 (d_gen dom) (2 ^ (b + lam)) c) e j =
      interpolated (T := Fm F) pp (entry (T := Fm F) x e) j,
    vsharing (T := Fm F) pp (2 * 2 ^ lam) (2 ^ b) out
      (slots (T := Fm F) pp rearrange b (b + lam) (coset_coeffs (T := Fm F) g c)) &
    yields (p_n pp) true
      (fun ords p => d_ifft dbg pp (p_n pp) p (ords 0%N) cF (x p) (masks p) rearrange dom g r) out].
Proof.
move=> new Edom cok mb8 Hm sx bal; have ok := pss_new_ok new; have El := pss_new_l new.
have Hm' := fft_masks_ok new (dom_prim_inv Edom) Hm.
have bal' : ~~ (dbg && unbalanced (T := Fm F) pp x (2 ^ b)).
  by apply/negP => /andP[dbgT /unbalancedP[e le]]; rewrite (bal dbgT e le) eqxx.
have [v [sv Ev]] := strides_exist El mb8
  (fun e j => interpolated (T := Fm F) pp (entry (T := Fm F) x e) j).
have [_ Es _] := dom_ok Edom.
have [|c sc Ec] := interpolate (v := v) Edom; first by rewrite Es.
rewrite Es in sc Ec; rewrite Ec in Ev.
have [out [Ho Hp]] := d_ifft_any ok El cok mb8 Edom r Hm' sx bal' sc Ev.
rewrite -El; exists c, out; split=> //.
by apply: yields_any => [|ords Hords]; [exact: n_gt0 new|exact: Hp].
Qed.

(** C73: and in debug builds the king panics if one party replaces its vector. *)
Lemma c73_d_fft_one_party_debug (F : fftField) lam b pp dom (cF : codec F) mb rearrange masks (x : nat -> seq F) sec deg
    (r : rng F) sid ord q v :
  pss_new F true (2 ^ lam) = Ok pp -> domain_new F (2 ^ (b + lam)) = Some dom ->
  codec_ok cF mb -> (2 ^ b < 256 ^ 8)%N -> (deg <= 4 * 2 ^ lam - 1)%N ->
  fft_masks true pp rearrange 1 (d_gen dom) (2 ^ (b + lam)) masks ->
  vsharing (T := Fm F) pp deg (2 ^ b) x sec ->
  hash_ok ord -> (q < p_n pp)%N -> size v = (2 ^ b)%N -> v != x q ->
  king_dies (mkseq (fun p => pthread sid
    (d_fft true pp (p_n pp) p ord cF (replaced x q v p) (masks p) rearrange dom r)) (p_n pp)).
Proof.
move=> new Edom cok mb8 Hdeg Hm Hx Ho lq sv nv; have ok := pss_new_ok new; have El := pss_new_l new.
have sx := proj1 Hx; have En := ppn ok; rewrite -El in Hdeg.
have Hm' := fft_masks_ok new (dom_prim Edom) Hm.
have Hdeg' : (deg <= (p_n pp).-1)%N by lia.
have [e le ne] := unbalanced_replaced (T := Fm F) ok Hdeg' Hx lq sv nv.
apply: (d_fft_caught ok El cok mb8 Edom r sid Hm') => //.
  exact: (size_replaced (T := Fm F) q sx sv).
by apply/unbalancedP; exists e.
Qed.

Lemma c73_d_ifft_one_party_debug (F : fftField) lam b pp dom (cF : codec F) mb rearrange g masks (x : nat -> seq F) sec
    deg (r : rng F) sid ord q v :
  pss_new F true (2 ^ lam) = Ok pp -> domain_new F (2 ^ (b + lam)) = Some dom ->
  codec_ok cF mb -> (2 ^ b < 256 ^ 8)%N -> (deg <= 4 * 2 ^ lam - 1)%N ->
  fft_masks true pp rearrange g (d_gen_inv dom) (2 ^ (b + lam)) masks ->
  vsharing (T := Fm F) pp deg (2 ^ b) x sec ->
  hash_ok ord -> (q < p_n pp)%N -> size v = (2 ^ b)%N -> v != x q ->
  king_dies (mkseq (fun p => pthread sid
    (d_ifft true pp (p_n pp) p ord cF (replaced x q v p) (masks p) rearrange dom g r)) (p_n pp)).
Proof.
move=> new Edom cok mb8 Hdeg Hm Hx Ho lq sv nv; have ok := pss_new_ok new; have El := pss_new_l new.
have sx := proj1 Hx; have En := ppn ok; rewrite -El in Hdeg.
have Hm' := fft_masks_ok new (dom_prim_inv Edom) Hm.
have Hdeg' : (deg <= (p_n pp).-1)%N by lia.
have [e le ne] := unbalanced_replaced (T := Fm F) ok Hdeg' Hx lq sv nv.
apply: (d_ifft_caught ok El cok mb8 Edom r sid Hm') => //.
  exact: (size_replaced (T := Fm F) q sx sv).
by apply/unbalancedP; exists e.
Qed.
