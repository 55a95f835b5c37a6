(** Proofs about vectors that need not be sharings. *)
From mathcomp Require Import all_ssreflect all_algebra.
From mathcomp Require Import zify.
From Verif Require Import RingTac Base ModelField ModelUtils ModelPss ModelPack ModelFft ModelNet.
From Verif Require Import ModelProto Spec SpecNet SpecTamper NetProofs KingProofs RoundProofs LogProofs.
From Verif Require Import FieldProofs UtilsProofs PssProofs PackProofs FftProofs ProtoProofs DegProofs.
From Verif Require Import KingFail.
Set Implicit Arguments.
Unset Strict Implicit.
Unset Printing Implicit Defensive.
Import GRing.Theory.
Local Open Scope ring_scope.

Section Weights.
Variable F : fftField.
Variables (pp : pss F) (ok : pp_ok pp).
Local Notation l := (p_l pp).
Local Notation n := (p_n pp).

Add Field FFt : (stdlib_field F).

Lemma n_neq0 : n%:R != 0 :> F.
Proof. by have := dok_size (pp_share_ok ok); rewrite (pp_share_size ok) (ppn ok). Qed.

Lemma share_prim : n.-primitive_root (d_gen (p_share pp)).
Proof. by have := dok_prim (pp_share_ok ok); rewrite (pp_share_size ok) (ppn ok). Qed.

Lemma share_pt_n p : share_pt pp p ^+ n = 1.
Proof. by rewrite /share_pt -exprM mulnC exprM (prim_expr_order share_prim) expr1n. Qed.

Lemma secret_pt_n j : secret_pt pp j ^+ n = ff_generator F ^+ n.
Proof.
rewrite /secret_pt exprMn (pp_secret_gen ok) -!exprM mulnC exprM.
by rewrite (prim_expr_order share_prim) expr1n mulr1.
Qed.

(** the discrete sum *)
Lemma share_orth p q : (p < n)%N -> (q < n)%N ->
  \sum_(k < n) (share_pt pp q / share_pt pp p) ^+ k = (p == q)%:R * n%:R.
Proof.
move=> lp lq; case: eqP => [<-|/eqP npq].
  rewrite mul1r (eq_bigr (fun=> 1)) ?sumr_const ?card_ord // => k _.
  by rewrite divff ?(share_pt_neq0 ok) // expr1n.
rewrite mul0r; set z := _ / _; have z1 : z - 1 != 0.
  rewrite subr_eq0; apply: contra npq => /eqP E; rewrite -(share_pt_eq ok) //.
  by rewrite -[share_pt pp p]mul1r -E /z divfK ?(share_pt_neq0 ok).
apply: (mulfI z1); rewrite mulr0 -subrX1 /z expr_div_n !share_pt_n divr1 subrr //.
Qed.

(** closed forms *)
Lemma weight_closed p j : secret_pt pp j != share_pt pp p ->
  weight pp p j = share_pt pp p * (secret_pt pp j ^+ n - 1)
                  / (n%:R * (secret_pt pp j - share_pt pp p)).
Proof.
move=> ne; have s0 := share_pt_neq0 ok p; have n0 := n_neq0; rewrite /weight; set z := _ / share_pt pp p.
have z1 : z - 1 != 0.
  by rewrite subr_eq0; apply: contra ne => /eqP E; rewrite -[share_pt pp p]mul1r -E /z divfK.
have d0 : secret_pt pp j - share_pt pp p != 0 by rewrite subr_eq0.
have -> : \sum_(k < n) z ^+ k = (z ^+ n - 1) / (z - 1).
  by apply: (mulfI z1); rewrite -subrX1 mulrC divfK.
have -> : z ^+ n = secret_pt pp j ^+ n by rewrite /z expr_div_n share_pt_n divr1.
have -> : z - 1 = (secret_pt pp j - share_pt pp p) / share_pt pp p by rewrite mulrBl divff.
move: (_ ^+ n - 1) n0 s0 d0; move: (secret_pt _ _) (share_pt pp p) (n%:R) => x a m w /eqP m0 /eqP a0 /eqP d0.
by ffield F; repeat split; first [exact: m0|exact: a0|exact: d0].
Qed.

Lemma weight_neq0 p j : ff_generator F ^+ n != 1 -> weight pp p j != 0.
Proof.
move=> g1; have ne := secret_share_disjoint ok j p g1.
rewrite (weight_closed ne) secret_pt_n !mulf_neq0 ?(share_pt_neq0 ok) ?subr_eq0 //.
by rewrite invr_neq0 // mulf_neq0 ?n_neq0 // subr_eq0.
Qed.

Lemma weight_without_closed d p j : ff_generator F ^+ n != 1 ->
  weight_without pp d p j = weight pp p j * ((share_pt pp p - share_pt pp d)
                                             / (secret_pt pp j - share_pt pp d)).
Proof.
move=> g1; have nep := secret_share_disjoint ok j p g1; have ned := secret_share_disjoint ok j d g1.
rewrite /weight_without !weight_closed //; move: nep ned; rewrite -subr_eq0 -[_ == share_pt pp d]subr_eq0.
move: (_ ^+ n - 1) n_neq0 (share_pt_neq0 ok p) (share_pt_neq0 ok d).
move: (secret_pt _ _) (share_pt pp p) (share_pt pp d) (n%:R) => x a b m w /eqP m0 /eqP a0 /eqP b0 /eqP xa /eqP xb.
by ffield F; repeat split; first [exact: m0|exact: a0|exact: b0|exact: xa|exact: xb].
Qed.

Lemma weight_without_neq0 d p j : (d < n)%N -> (p < n)%N -> p != d -> ff_generator F ^+ n != 1 ->
  weight_without pp d p j != 0.
Proof.
move=> ld lp npd g1; rewrite weight_without_closed // mulf_neq0 ?weight_neq0 // mulf_neq0 //.
  by rewrite subr_eq0 (share_pt_eq ok).
by rewrite invr_neq0 // subr_eq0 (secret_share_disjoint ok).
Qed.

Variable T : lmodType F.
Implicit Types (y : nat -> T).

(** the coefficients of the polynomial through the shares *)
Definition coeffs y : seq T :=
  mkseq (fun k => \sum_(p < n) (n%:R^-1 * (share_pt pp p)^-1 ^+ k) *: y p) n.

Lemma pval_coeffs x y :
  pval x (coeffs y) = \sum_(p < n) (n%:R^-1 * \sum_(k < n) (x / share_pt pp p) ^+ k) *: y p.
Proof.
rewrite /pval size_mkseq.
transitivity (\sum_(k < n) \sum_(p < n) (n%:R^-1 * (x / share_pt pp p) ^+ k) *: y p).
  apply: eq_bigr => k _; rewrite nth_mkseq // scaler_sumr; apply: eq_bigr => p _.
  by rewrite scalerA exprMn mulrCA.
by rewrite exchange_big; apply: eq_bigr => p _; rewrite mulr_sumr scaler_suml.
Qed.

Lemma coeffs_shares y q : (q < n)%N -> pval (share_pt pp q) (coeffs y) = y q.
Proof.
move=> lq; rewrite pval_coeffs (bigD1 (Ordinal lq)) //= [X in _ + X]big1 ?addr0 => [|p npq].
  by rewrite share_orth // eqxx mul1r mulVf ?n_neq0 // scale1r.
rewrite share_orth //; have -> : (val p == q) = false by apply: negbTE; apply: contra npq.
by rewrite mul0r mulr0 scale0r.
Qed.

Lemma coeffs_secrets y j : pval (secret_pt pp j) (coeffs y) = interpolated pp y j.
Proof. exact: pval_coeffs. Qed.

Lemma coeffs_top y : (coeffs y)`_(n.-1) = n%:R^-1 *: imbalance pp y.
Proof.
have n1 := n_gt1 ok.
rewrite nth_mkseq ?prednK //; last lia.
rewrite /imbalance scaler_sumr; apply: eq_bigr => p _; rewrite scalerA; congr (_ * _ *: _).
have s0 := share_pt_neq0 ok p.
have : share_pt pp p ^+ n.-1 * share_pt pp p = 1 by rewrite -exprSr prednK ?share_pt_n //; lia.
by move=> E; rewrite exprVn; apply: (mulfI (expf_neq0 n.-1 s0)); rewrite E divff //; apply: expf_neq0.
Qed.

Lemma take_coeffs x y : imbalance pp y = 0 -> pval x (take n.-1 (coeffs y)) = pval x (coeffs y).
Proof.
move=> y0; have n1 := n_gt1 ok; apply: eq_pval => i; have [li|] := ltnP i n.-1; first by rewrite nth_take.
rewrite leq_eqVlt => /orP[/eqP <-|lt_i].
  rewrite coeffs_top y0 scaler0 nth_default // size_take size_mkseq; by case: ltnP; lia.
by rewrite !nth_default ?size_mkseq // ?size_take ?size_mkseq; [lia|case: ltnP; lia].
Qed.

Lemma shared_any y : shared pp n y (interpolated pp y).
Proof.
exists (coeffs y); split; first by rewrite size_mkseq.
  by move=> i li; rewrite coeffs_shares.
by move=> j lj; rewrite coeffs_secrets.
Qed.

Lemma shared_balanced y : imbalance pp y = 0 -> shared pp n.-1 y (interpolated pp y).
Proof.
move=> y0; exists (take n.-1 (coeffs y)); split.
- by rewrite size_take size_mkseq; case: ltnP; lia.
- by move=> i li; rewrite take_coeffs // coeffs_shares.
by move=> j lj; rewrite take_coeffs // coeffs_secrets.
Qed.

(** ** Unpacking *)

Lemma ifft_coeffs y : ifft (p_share pp) (mkseq y n) = coeffs y.
Proof.
have sc : (size (coeffs y) <= n)%N by rewrite size_mkseq.
have -> : mkseq y n = encode pp (coeffs y).
  by apply: eq_mkseq_in => i li; rewrite coeffs_shares.
by rewrite (ifft_share ok sc) resize_id // size_mkseq.
Qed.

(** [unpack2] on any shares *)
Lemma unpack2_any (dbg : bool) y :
  unpack2 dbg pp (mkseq y n) =
  if dbg && (imbalance pp y != 0) then Panic else Ok (mkseq (interpolated pp y) l).
Proof.
have n1 := n_gt1 ok; have l0 := pp_l_gt0 ok; have En := ppn ok; have Et := ppt ok.
have [y0|y0] := eqVneq (imbalance pp y) 0.
  rewrite andbF; apply: (unpack2_sharing ok) ((sharingP pp _ _ _).2 (shared_balanced y0)).
  by case: dbg; lia.
case: dbg => /=; last first.
  by apply: (unpack2_sharing ok) ((sharingP pp _ _ _).2 (shared_any y)); lia.
rewrite /unpack2 ifft_coeffs /dassert.
have -> : (0 < l + p_t pp)%N by lia.
rewrite [rbind (Ok _) _]/=.
suff -> : all (fun x => x == 0) (drop (2 * (l + p_t pp) - 1) (coeffs y)) = false by [].
apply/negbTE/allPn; exists (coeffs y)`_(n.-1); last first.
  by rewrite coeffs_top scaler_eq0 invr_eq0 (negPf n_neq0).
have -> : (2 * (l + p_t pp) - 1 = n.-1)%N by lia.
have -> : (coeffs y)`_(n.-1) = (drop n.-1 (coeffs y))`_0 by rewrite nth_drop addn0.
by apply: mem_nth; rewrite size_drop size_mkseq; lia.
Qed.

Lemma unpack_missing_any (dbg : bool) y d ord : (n <= d)%N ->
  unpack_missing_shares dbg pp [seq y i | i <- who pp d ord] (who pp d ord) =
  if dbg && (imbalance pp y != 0) then Panic else Ok (mkseq (interpolated pp y) l).
Proof.
move=> nd; have -> : who pp d ord = iota 0 n by rewrite /who /received_from [(d < n)%N]ltnNge nd.
rewrite /unpack_missing_shares size_map size_iota eqxx /dassert implybT [rbind (Ok _) _]/=.
exact: unpack2_any.
Qed.

(** ** Sharings are special cases *)

Lemma coeffs_sharing d y g : (d <= n)%N -> shared pp d y g ->
  exists c, [/\ (size c <= d)%N, coeffs y = resize 0 n c &
                forall j, (j < l)%N -> g j = pval (secret_pt pp j) c].
Proof.
move=> dn [c [sc Ef Eg]]; exists c; split=> //.
have sc' : (size c <= n)%N by apply: leq_trans dn.
rewrite -ifft_coeffs -(ifft_share ok sc'); congr (ifft _ _).
by apply: eq_mkseq_in => i li; rewrite Ef.
Qed.

Lemma interpolated_shared d y g j : (d <= n)%N -> shared pp d y g -> (j < l)%N ->
  interpolated pp y j = g j.
Proof.
move=> dn /(coeffs_sharing dn)[c [sc E Eg]] lj.
by rewrite -coeffs_secrets E pval_resize ?Eg //; apply: leq_trans dn.
Qed.

Lemma imbalance_shared d y g : (d <= n.-1)%N -> shared pp d y g -> imbalance pp y = 0.
Proof.
move=> dn; have n1 := n_gt1 ok; have dn' : (d <= n)%N by lia.
move=> /(coeffs_sharing dn')[c [sc E _]].
have := coeffs_top y; rewrite E nth_resize; have -> : (n.-1 < n)%N by lia.
rewrite nth_default; last by apply: leq_trans dn.
by move/esym/eqP; rewrite scaler_eq0 invr_eq0 (negPf n_neq0) => /eqP.
Qed.

Lemma eq_interpolated y y' j : (forall p, (p < n)%N -> y p = y' p) ->
  interpolated pp y j = interpolated pp y' j.
Proof. by move=> E; apply: eq_bigr => p _; rewrite E. Qed.

Lemma eq_imbalance y y' : (forall p, (p < n)%N -> y p = y' p) -> imbalance pp y = imbalance pp y'.
Proof. by move=> E; apply: eq_bigr => p _; rewrite E. Qed.

Lemma interpolatedD y y' j :
  interpolated pp (fun p => y p + y' p) j = interpolated pp y j + interpolated pp y' j.
Proof. by rewrite /interpolated -big_split; apply: eq_bigr => p _; rewrite scalerDr. Qed.

Lemma imbalanceD y y' : imbalance pp (fun p => y p + y' p) = imbalance pp y + imbalance pp y'.
Proof. by rewrite /imbalance -big_split; apply: eq_bigr => p _; rewrite scalerDr. Qed.

(** the share of [d] that makes the shares lie on a polynomial of low degree *)
Definition completed (d : nat) y (p : nat) : T :=
  if p == d then - ((share_pt pp d)^-1 *: \sum_(q < n | val q != d) share_pt pp q *: y q) else y p.

Lemma imbalance_completed d y : (d < n)%N -> imbalance pp (completed d y) = 0.
Proof.
move=> ld; rewrite /imbalance (bigD1 (Ordinal ld)) //= /completed eqxx scalerN scalerA.
rewrite divff ?(share_pt_neq0 ok) // scale1r addrC.
apply/eqP; rewrite subr_eq0; apply/eqP; apply: eq_big => [p|p npd].
  by rewrite -(inj_eq val_inj).
by move: npd; rewrite -(inj_eq val_inj) /= => /negPf ->.
Qed.

Lemma interpolated_completed d y j : (d < n)%N ->
  interpolated pp (completed d y) j = interpolated_without pp d y j.
Proof.
move=> ld; rewrite /interpolated (bigD1 (Ordinal ld)) //= {1}/completed eqxx scalerN scalerA.
rewrite scaler_sumr -sumrN /interpolated_without.
have E p : (p != Ordinal ld) = (val p != d) by rewrite -(inj_eq val_inj).
rewrite (eq_bigl _ _ E) -big_split; apply: eq_bigr => p npd /=.
rewrite /completed (negPf npd) /weight_without scalerBl scalerA addrC -mulrA.
by rewrite [(share_pt pp d)^-1 * _]mulrC.
Qed.

End Weights.

(** a round in which the computation of the king panics when it has heard from everybody *)
Lemma round_panics T U B (c : codec T) (c' : codec U) n sid ord (x : nat -> T) thr
    (king : received T -> res (seq U)) (R : nat -> U -> cproc B) :
  (0 < n)%N -> (thr <= n.-1)%N -> hash_ok ord ->
  (forall i, (i < n)%N -> ModelNet.decode c (enc c (x i)) = Ok (x i)) ->
  king (received_from x n n ord) = Panic ->
  king_dies (mkseq (fun p => pthread sid
    (do! rs := csokr_ser c n p ord (x p) thr in
     do! outs := clift (king_map king rs) in
     do! v := crokss_ser c' n p outs in R p v)) n).
Proof.
move=> n0 Ht Ho Hd Ek.
case E: (csokr_ser c n 0 ord (x 0%N) thr) => [|||st K|] //.
have Est : st = nseq n None by move: E => [<-].
rewrite Est in E.
have HK : K (store_without n (fun i => enc c (x i)) n) = CRet (Ok (Some (received_from x n n ord))).
  by apply: csokr_king E => //; rewrite -lt0n.
pose rest p (o : option (received T)) :=
  do! outs := clift (king_map king o) in do! v := crokss_ser c' n p outs in R p v.
apply: (@king_panics _ _ _ _ (fun st => cbind (K st) (rest 0%N)) (fun i => enc c (x i))
  (fun p b => do! w := clift (ModelNet.decode c' b) in R p w)) => //.
- by rewrite E.
- move=> p /andP[p0 lt_p]; rewrite /csokr_ser /client_send_or_king_receive.
  by rewrite -[p]prednK.
rewrite HK; transitivity (rest 0%N (Some (received_from x n n ord))) => //.
by rewrite /rest /king_map Ek.
Qed.

Section Protocols.
Variable F : fftField.
Variable T : lmodType F.
Variables (pp : pss F) (ok : pp_ok pp) (cT : codec T) (mb : nat).
Hypothesis cT_ok : codec_ok cT mb.
Local Notation l := (p_l pp).
Local Notation n := (p_n pp).

Definition unbalanced (x : nat -> seq T) (m : nat) : bool :=
  has (fun e => imbalance pp (entry x e) != 0) (iota 0 m).

Lemma deg_red_king_any dbg (r : rng T) m (x : nat -> seq T) d ord : (0 < m)%N ->
  (forall p, (p < n)%N -> size (x p) = m) -> (n <= d)%N -> hash_ok ord ->
  deg_red_king dbg pp r (received_from x n d ord) =
  if dbg && unbalanced x m then Panic
  else Ok (mkseq (dealing pp dbg (fun e => interpolated pp (entry x e)) m r) n).
Proof.
move=> m0 sx nd Ho.
rewrite /deg_red_king (transpose_who ok d Ho m0 sx) [rbind (Ok _) _]/= size_mkseq parties_who.
have E i : (i < m)%N ->
    (let! x_share := vget (mkseq (fun e => [seq (x i0)`_e | i0 <- who pp d ord]) m) i in
     let! xi := unpack_missing_shares dbg pp x_share (who pp d ord) in
     pack dbg pp xi (rskip (i * p_t pp) r)) =
    if dbg && (imbalance pp (entry x i) != 0) then Panic
    else pack dbg pp (mkseq (interpolated pp (entry x i)) l) (rskip (i * p_t pp) r).
  move=> li; rewrite (vget_nth [::]) ?size_mkseq // [rbind (Ok _) _]/= nth_mkseq //.
  by rewrite (unpack_missing_any ok dbg (entry x i) ord nd); case: ifP.
case: ifP => [/andP[dbgT /hasP[e]]|H].
  rewrite mem_iota add0n => /= le_m ne; rewrite (@mapM_panic _ _ _ _ e 0%N) //=.
  - move=> i er; have [li|li] := ltnP i m; last first.
      by rewrite /vget drop_oversize // size_mkseq.
    rewrite E //; case: ifP => // _.
    by have [s [-> _ _]] := pack_sharing ok dbg (rskip (i * p_t pp) r)
                              (size_mkseq (interpolated pp (entry x i)) l).
  - by rewrite size_iota.
  by rewrite nth_iota // add0n E // dbgT ne.
apply: (dealing_transpose ok) => // e le; rewrite E //; case: ifP => // /andP[dbgT ne].
by case/negP: H; rewrite dbgT; apply/hasP; exists e; rewrite ?mem_iota.
Qed.

Lemma entry_add (x y : nat -> seq T) m e p : (forall p, (p < n)%N -> size (x p) = m) ->
  (forall p, (p < n)%N -> size (y p) = m) -> (e < m)%N -> (p < n)%N ->
  entry (fun p => zipmap +%R (x p) (y p)) e p = entry x e p + entry y e p.
Proof. by move=> sx sy le lp; rewrite /entry (nth_zipmap _ 0 0) ?sx ?sy. Qed.

(** masks do not matter for what the king notices *)
Lemma masked m (x y : nat -> seq T) v :
  (forall p, (p < n)%N -> size (x p) = m) -> vsharing pp (2 * l) m y v ->
  let z p := zipmap +%R (x p) (y p) in
  [/\ forall p, (p < n)%N -> size (z p) = m,
      unbalanced z m = unbalanced x m &
      forall e j, (e < m)%N -> (j < l)%N ->
        interpolated pp (entry z e) j = interpolated pp (entry x e) j + v e j].
Proof.
move=> sx /vsharingP[sy Hy] z; have l0 := pp_l_gt0 ok; have En := ppn ok.
split=> [p lp||e j le lj]; first by rewrite size_zipmap sx ?sy ?minnn.
  apply: eq_in_has => e; rewrite mem_iota add0n => /= le.
  rewrite (eq_imbalance (y' := fun p => entry x e p + entry y e p)); last first.
    by move=> p lp; apply: (entry_add sx sy).
  by rewrite imbalanceD (imbalance_shared ok _ (Hy e le)) ?addr0 //; lia.
rewrite (eq_interpolated (y' := fun p => entry x e p + entry y e p)); last first.
  by move=> p lp; apply: (entry_add sx sy).
by rewrite interpolatedD (interpolated_shared ok _ (Hy e le)) //; lia.
Qed.

Lemma deg_red_any dbg m (masks : nat -> degred_mask T) (x : nat -> seq T) (r : rng T) :
  (0 < m < 256 ^ 8)%N -> degred_ok pp m masks -> (forall p, (p < n)%N -> size (x p) = m) ->
  ~~ (dbg && unbalanced x m) ->
  exists out : nat -> seq T, vsharing pp (2 * l) m out (fun e => interpolated pp (entry x e)) /\
    forall ord, hash_ok ord -> king_prog n (fun d => (d != 0%N) && (n <= d)%N)
      (fun p => deg_red dbg pp n p ord cT (x p) (masks p) r) out.
Proof.
move=> /andP[m0 ms] [v [Hin Hout]] sx bal; have l0 := pp_l_gt0 ok; have En := ppn ok.
have [sz Eu Ei] := masked sx Hin.
set z := fun p => zipmap +%R (x p) (dr_in (masks p)) in sz Eu Ei.
pose ans e := interpolated pp (entry z e); pose dealt := dealing pp dbg ans m r.
have Hd := dealingP ok dbg ans m r.
exists (fun p => zipmap +%R (dealt p) (dr_out (masks p))); split.
  apply: vsharing_ext (vsharing_add Hd Hout) => // e j le lj.
  by rewrite /ans Ei // addrK.
move=> ord Ho; have n1 := n_gt1 ok.
have si p : (p < n)%N -> size (dr_in (masks p)) = m by case: Hin => H _ /H.
have so p : (p < n)%N -> size (dr_out (masks p)) = m by case: Hout => H _ /H.
have sd p : (p < n)%N -> size (dealt p) = m by case: Hd => H _ /H.
have K : king_prog n (fun d => (d != 0%N) && (n <= d)%N) (fun p =>
    do! rs := csokr_ser (vec_codec cT) n p ord (z p) (p_t pp) in
    do! outs := clift (if rs is Some q then rmap Some (deg_red_king dbg pp r q) else Ok None) in
    do! w := crokss_ser (vec_codec cT) n p outs in
    clift (Ok (zipmap +%R w (dr_out (masks p)))))
  (fun p => zipmap +%R (dealt p) (dr_out (masks p))).
  apply: (@king_round _ _ _ _ _ _ _ _ _ _ dealt) => //.
  - by lia.
  - by move=> d /andP[].
  - by rewrite (ppt ok); lia.
  - by move=> i lt_i; apply: (vec_dec cT_ok) (sz _ _).
  - by move=> i lt_i; apply: (vec_dec cT_ok) (sd _ _).
  - by move=> i lt_i; rewrite !(size_enc_vec cT_ok) !sd //; lia.
  - by move=> d /andP[_ nd]; rewrite (deg_red_king_any _ _ m0) // Eu (negPf bal).
  - exact: KP_ret.
apply: king_prog_ext K => // [|p lt_p]; first by lia.
by rewrite /deg_red sx // si // so // /dassert eqxx implybT.
Qed.


Lemma deg_red_caught m (masks : nat -> degred_mask T) (x : nat -> seq T) (r : rng T) sid ord :
  (0 < m < 256 ^ 8)%N -> degred_ok pp m masks -> (forall p, (p < n)%N -> size (x p) = m) ->
  unbalanced x m -> hash_ok ord ->
  king_dies (mkseq (fun p => pthread sid (deg_red true pp n p ord cT (x p) (masks p) r)) n).
Proof.
move=> /andP[m0 ms] [v [Hin Hout]] sx bal Ho; have l0 := pp_l_gt0 ok; have En := ppn ok.
have n1 := n_gt1 ok; have [sz Eu _] := masked sx Hin.
have si p : (p < n)%N -> size (dr_in (masks p)) = m by case: Hin => H _ /H.
have so p : (p < n)%N -> size (dr_out (masks p)) = m by case: Hout => H _ /H.
set z := fun p => zipmap +%R (x p) (dr_in (masks p)) in sz Eu.
have Ek : deg_red_king true pp r (received_from z n n ord) = Panic.
  by rewrite (deg_red_king_any _ _ m0) // Eu bal.
have := @round_panics _ _ _ (vec_codec cT) (vec_codec cT) n sid ord z (p_t pp) (deg_red_king true pp r)
  (fun p w => clift (Ok (zipmap +%R w (dr_out (masks p))))).
move=> /(_ _ _ Ho _ Ek) H.
have {}H := H _ _ _.
have E : mkseq (fun p => pthread sid (deg_red true pp n p ord cT (x p) (masks p) r)) n =
  mkseq (fun p => pthread sid
    (do! rs := csokr_ser (vec_codec cT) n p ord (z p) (p_t pp) in
     do! outs := clift (king_map (deg_red_king true pp r) rs) in
     do! w := crokss_ser (vec_codec cT) n p outs in
     clift (Ok (zipmap +%R w (dr_out (masks p)))))) n.
  by apply: eq_mkseq_in => p lp; rewrite /deg_red sx // si // so // /dassert eqxx implybT.
rewrite E; apply: H; [by lia|by rewrite (ppt ok); lia|].
by move=> i lt_i; apply: (vec_dec cT_ok) (sz _ _).
Qed.

(** ** Multi-scalar multiplication *)

Lemma d_msm_king_any dbg (y : nat -> T) d ord : (n <= d)%N ->
  d_msm_king dbg pp n (received_from y n d ord) =
  if dbg && (imbalance pp y != 0) then Panic else Ok (nseq n (\sum_(j < l) interpolated pp y j)).
Proof.
move=> nd; rewrite /d_msm_king shares_who parties_who (unpack_missing_any ok) //.
case: ifP => // _; rewrite [rbind (Ok _) _]/= foldr_sum size_mkseq; congr (Ok (nseq _ _)).
by apply: eq_bigr => j _; rewrite nth_mkseq.
Qed.

Lemma d_msm_start dbg m (bases : nat -> seq T) (scalars : nat -> seq F) (masks : nat -> msm_mask T) p ord :
  size (bases p) = m -> size (scalars p) = m ->
  d_msm dbg pp n p ord cT (bases p) (scalars p) (masks p) =
  do! rs := csokr_ser cT n p ord (products bases scalars m p + mm_in (masks p)) (p_t pp) in
  do! outs := clift (king_map (@d_msm_king F dbg pp n T) rs) in
  do! w := crokss_ser cT n p outs in clift (Ok (w + mm_out (masks p))).
Proof.
move=> sb ss; rewrite /d_msm sb ss // /dassert eqxx implybT /msm sb ss eqxx.
suff -> : foldr +%R 0 (zipmap (fun s b => s *: b) (scalars p) (bases p)) = products bases scalars m p by [].
rewrite foldr_sum size_zipmap sb ss minnn; apply: eq_bigr => e _.
by rewrite (nth_zipmap _ 0 0) ?sb ?ss.
Qed.

Lemma decode_one a : ModelNet.decode cT (enc cT a) = Ok a.
Proof. by have [_ H _] := cT_ok; rewrite /ModelNet.decode -[enc cT a]cats0 H. Qed.

Lemma d_msm_any dbg m (masks : nat -> msm_mask T) (bases : nat -> seq T) (scalars : nat -> seq F) :
  msm_ok pp masks -> (forall p, (p < n)%N -> size (bases p) = m) ->
  (forall p, (p < n)%N -> size (scalars p) = m) ->
  let y := products bases scalars m in
  let S := \sum_(j < l) interpolated pp y j in
  ~~ (dbg && (imbalance pp y != 0)) ->
  exists out : nat -> T, shared pp (2 * l) out (fun=> S) /\
    forall ord, hash_ok ord -> king_prog n (fun d => (d != 0%N) && (n <= d)%N)
      (fun p => d_msm dbg pp n p ord cT (bases p) (scalars p) (masks p)) out.
Proof.
move=> [v [Hin Hout]] sb ss y S bal; have l0 := pp_l_gt0 ok; have En := ppn ok.
have n1 := n_gt1 ok; pose z p := y p + mm_in (masks p).
have Ez j : (j < l)%N -> interpolated pp z j = interpolated pp y j + v j.
  by move=> lj; rewrite interpolatedD (interpolated_shared ok _ Hin) //; lia.
have Bz : imbalance pp z = imbalance pp y.
  by rewrite imbalanceD (imbalance_shared ok _ Hin) ?addr0 //; lia.
pose S' := \sum_(j < l) interpolated pp z j.
have ES : S' = S + \sum_(j < l) v j by rewrite /S' /S -big_split; apply: eq_bigr => j _; rewrite Ez.
exists (fun p => S' + mm_out (masks p)); split.
  have l2 : (0 < 2 * l)%N by lia.
  apply: shared_ext (shared_lin 1 (shared_const pp S' l2) Hout) => i _; rewrite scale1r //.
  by rewrite ES addrK.
move=> ord Ho.
have K : king_prog n (fun d => (d != 0%N) && (n <= d)%N) (fun p =>
    do! rs := csokr_ser cT n p ord (z p) (p_t pp) in
    do! outs := clift (if rs is Some q then rmap Some (d_msm_king dbg pp n q) else Ok None) in
    do! w := crokss_ser cT n p outs in clift (Ok (w + mm_out (masks p))))
  (fun p => S' + mm_out (masks p)).
  apply: (@king_round _ _ _ _ _ _ _ _ _ _ (fun=> S')) => //.
  - by lia.
  - by move=> d /andP[].
  - by rewrite (ppt ok); lia.
  - by move=> i _; apply: decode_one.
  - by move=> i _; apply: decode_one.
  - move=> d /andP[_ nd]; rewrite d_msm_king_any // Bz (negPf bal); congr Ok.
    apply: (@eq_from_nth _ 0); rewrite size_nseq ?size_mkseq // => i lt_i.
    by rewrite nth_nseq lt_i nth_mkseq.
  - exact: KP_ret.
apply: king_prog_ext K => // [|p lt_p]; first by lia.
by rewrite (d_msm_start _ _ _ (sb p lt_p) (ss p lt_p)).
Qed.

Lemma d_msm_caught m (masks : nat -> msm_mask T) (bases : nat -> seq T) (scalars : nat -> seq F) sid ord :
  msm_ok pp masks -> (forall p, (p < n)%N -> size (bases p) = m) ->
  (forall p, (p < n)%N -> size (scalars p) = m) -> hash_ok ord ->
  imbalance pp (products bases scalars m) != 0 ->
  king_dies (mkseq (fun p => pthread sid
    (d_msm true pp n p ord cT (bases p) (scalars p) (masks p))) n).
Proof.
move=> [v [Hin Hout]] sb ss Ho bal; have l0 := pp_l_gt0 ok; have En := ppn ok.
have n1 := n_gt1 ok; pose z p := products bases scalars m p + mm_in (masks p).
have Bz : imbalance pp z = imbalance pp (products bases scalars m).
  by rewrite imbalanceD (imbalance_shared ok _ Hin) ?addr0 //; lia.
have Ek : d_msm_king true pp n (received_from z n n ord) = Panic.
  by rewrite d_msm_king_any // Bz bal.
have E : mkseq (fun p => pthread sid (d_msm true pp n p ord cT (bases p) (scalars p) (masks p))) n =
  mkseq (fun p => pthread sid
    (do! rs := csokr_ser cT n p ord (z p) (p_t pp) in
     do! outs := clift (king_map (@d_msm_king F true pp n T) rs) in
     do! w := crokss_ser cT n p outs in clift (Ok (w + mm_out (masks p))))) n.
  by apply: eq_mkseq_in => p lp; rewrite (d_msm_start _ _ _ (sb p lp) (ss p lp)).
rewrite E; apply: (@round_panics _ _ _ cT cT n sid ord z (p_t pp) _
  (fun p w => clift (Ok (w + mm_out (masks p))))) => //.
- by lia.
- by rewrite (ppt ok); lia.
by move=> i _; apply: decode_one.
Qed.

End Protocols.
