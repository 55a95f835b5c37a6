(** Theorems about the protocols when many parties are silent. *)
From mathcomp Require Import all_ssreflect all_algebra.
From mathcomp Require Import zify.
From Verif Require Import Base ModelField ModelUtils ModelPss ModelPack ModelFft ModelNet ModelProto.
From Verif Require Import Spec SpecNet SpecProto ExampleField.
From Verif Require Import KingProofs RoundProofs FieldProofs UtilsProofs PssProofs PssThm PackProofs FftProofs.
From Verif Require Import ProtoProofs DegProofs FewProofs ProtoThm.
Set Implicit Arguments.
Unset Strict Implicit.
Unset Printing Implicit Defensive.
Import GRing.Theory.
Local Open Scope ring_scope.
Local Notation Fm F := [lmodType F of F^o].

Section Few.
Variables (F : fftField) (pp : pss F).
Hypothesis ok : pp_ok pp.
  Local Notation l := (p_l pp).
  Local Notation n := (p_n pp).
  Local Notation t := (p_t pp).
Variables (dead : pred nat) (ord : hash_order).
Hypotheses (ordP : hash_ok ord) (king_lives : ~~ dead 0%N).
  Local Notation k := (live_count n dead).
  Local Notation ids := (alive_ids n ord dead).

Lemma size_aliveE : size (alive n dead) = k.
Proof. by rewrite /alive size_filter. Qed.

Lemma size_ids : size ids = k.
Proof. by rewrite (perm_size (perm_alive n dead ordP)) size_aliveE. Qed.

Lemma ids_lt : all (fun q => q < n)%N ids.
Proof.
rewrite (perm_all _ (perm_alive n dead ordP)); apply/allP => i.
by rewrite mem_filter mem_iota add0n => /andP[_ /andP[]].
Qed.

Lemma ids_uniq : uniq ids.
Proof. by rewrite (perm_uniq (perm_alive n dead ordP)) filter_uniq // iota_uniq. Qed.

Lemma live_bounds : (0 < k <= n)%N.
Proof.
have n1 := n_gt1 ok; rewrite -size_aliveE; apply: size_alive => //; lia.
Qed.

Variable T : lmodType F.

(** too few shares panic in debug builds *)
Lemma unpack_few (y : seq T) : (k <= 2 * (t + l - 1))%N -> unpack_missing_shares true pp y ids = Panic.
Proof.
move=> le_k; rewrite /unpack_missing_shares; case E: (dassert _ _) => [[]|e|] //=.
have l0 := pp_l_gt0 ok; have En := ppn ok; have Et := ppt ok.
have -> : (size y == n) = false.
  move: E; rewrite /dassert /=; case: ifP => // /eqP ->; rewrite size_ids; lia.
by apply: c09_debug_rejects; rewrite size_ids.
by move: E; rewrite /dassert; case: ifP.
Qed.

Lemma transpose_alive m (x : nat -> seq T) : (0 < m)%N ->
  (forall p, (p < n)%N -> size (x p) = m) ->
  transpose [seq x i | i <- ids] = Ok (mkseq (fun e => [seq (x i)`_e | i <- ids]) m).
Proof.
move=> m0 Hx; have lt_w := ids_lt.
have R : rect (size ids) m [seq x i | i <- ids].
  split=> [|i lt_i]; first by rewrite size_map.
  by rewrite (nth_map 0%N) // Hx // (allP lt_w) // mem_nth.
rewrite (transpose_rect 0 _ m0 R) ?size_ids; last by case/andP: live_bounds.
congr Ok; apply: eq_map => e.
apply: (@eq_from_nth _ 0); rewrite size_mkseq ?size_map ?size_ids // => i lt_i.
by rewrite nth_mkseq // !(nth_map 0%N) ?size_ids.
Qed.

(** shares of low degree can be unpacked in release builds *)
Lemma unpack_low deg f g : (deg <= k)%N -> shared pp deg f g ->
  unpack_missing_shares false pp [seq (f i : T) | i <- ids] ids = Ok (mkseq g l).
Proof.
move=> Hd /sharingP Hs; have lt_w := ids_lt; have [_ kn] := andP live_bounds.
have Ew : [seq f i | i <- ids] = [seq (mkseq f n)`_i | i <- ids].
  by apply/eq_in_map => i iw; rewrite nth_mkseq // (allP lt_w).
rewrite Ew; case: (ltnP k n) => dn; last first.
  have -> : ids = iota 0 n.
    by rewrite /alive_ids; case: eqP => // H; move: size_aliveE; lia.
  have -> : [seq (mkseq f n)`_i | i <- iota 0 n] = mkseq f n by rewrite -[RHS](mkseq_nth 0) size_mkseq.
  by apply: unpack_missing_full Hs _ _; rewrite ?size_iota // addn0 (leq_trans Hd).
by apply: unpack_missing_partial Hs ids_uniq lt_w _ _; rewrite ?size_ids ?Hd.
Qed.

End Few.

(** ** the two ways to fail *)
Lemma few_fails (F : fftField) (dbg : bool) (pp : pss F) T U B (c : codec T) (c' : codec U) sid ord (x : nat -> T)
    king (R : nat -> U -> cproc B) dead lim prog :
  pp_ok pp -> hash_ok ord -> ~~ dead 0%N ->
  (forall i, (i < p_n pp)%N -> ModelNet.decode c (enc c (x i)) = Ok (x i)) ->
  (dbg -> (p_t pp <= live_count (p_n pp) dead <= lim)%N ->
    king (Received [seq x i | i <- alive_ids (p_n pp) ord dead] (alive_ids (p_n pp) ord dead)) = Panic) ->
  (forall p, (p < p_n pp)%N -> prog p = few_prog c c' (p_n pp) ord x (p_t pp) king R p) ->
  ((live_count (p_n pp) dead < p_t pp)%N ->
    king_fails (with_silent (p_n pp) sid dead prog) (Err (Protocol 0))) /\
  (dbg -> (p_t pp <= live_count (p_n pp) dead <= lim)%N ->
    king_fails (with_silent (p_n pp) sid dead prog) Panic).
Proof.
move=> ok Ho k0 xK Hk Ep; set ps := with_silent _ _ _ _.
have n1 := n_gt1 ok; have n0 : (0 < p_n pp)%N by lia.
have Et := ppt ok; have En := ppn ok; have l0 := pp_l_gt0 ok.
have -> : ps = with_silent (p_n pp) sid dead (few_prog c c' (p_n pp) ord x (p_t pp) king R).
  by apply/eq_in_map => p; rewrite mem_iota add0n => /andP[_ lt_p]; rewrite Ep.
have sa := size_aliveE pp dead; split.
  move=> lt_k; apply: few_fail => //; left; rewrite sa; split=> //; apply/andP; split=> //; lia.
move=> d lt_k; apply: few_fail => //; right; rewrite sa; split; last by split=> //; apply: Hk.
apply/negbTE; rewrite negb_and -!leqNgt; apply/orP; right; by case/andP: lt_k.
Qed.

(** the king's part of the transforms *)
Lemma fft2_few (F : fftField) (pp : pss F) m len rearrange g gen (r : rng F) (y : nat -> seq F) ord dead :
  pp_ok pp -> hash_ok ord -> ~~ dead 0%N -> (0 < m)%N ->
  (forall p, (p < p_n pp)%N -> size (y p) = m) ->
  (live_count (p_n pp) dead <= 2 * (p_t pp + p_l pp - 1))%N ->
  fft2_king true pp m len rearrange g gen r
    (Received [seq y i | i <- alive_ids (p_n pp) ord dead] (alive_ids (p_n pp) ord dead)) = Panic.
Proof.
move=> ok Ho k0 m0 sy le_k.
rewrite /fft2_king /= (transpose_alive (T := Fm F) ok Ho k0 m0 sy) /=.
by case: m m0 {sy} => // m _; rewrite /= (unpack_few (T := Fm F) ok Ho k0).
Qed.

Lemma fft_few (F : fftField) (dbg : bool) lam b pp (cF : codec F) mb rearrange g gen
    (masks : nat -> fft_mask F) (x : nat -> seq F) (r : rng F) sid ord dead prog :
  pss_new F dbg (2 ^ lam) = Ok pp -> codec_ok cF mb -> (2 ^ b < 256 ^ 8)%N -> hash_ok ord -> ~~ dead 0%N ->
  (2 ^ (b + lam))%N.-primitive_root gen ->
  (forall p, (p < p_n pp)%N -> size (x p) = (2 ^ b)%N /\ size (fm_in (masks p)) = (2 ^ b)%N) ->
  (forall p, (p < p_n pp)%N -> prog p = do! px := clift (fft1 pp (x p) gen) in
     fft2_with_rearrange dbg pp (p_n pp) p ord cF px (masks p) rearrange g gen r) ->
  ((live_count (p_n pp) dead < p_t pp)%N ->
    king_fails (with_silent (p_n pp) sid dead prog) (Err (Protocol 0))) /\
  (dbg -> (p_t pp <= live_count (p_n pp) dead <= 2 * (p_t pp + p_l pp - 1))%N ->
    king_fails (with_silent (p_n pp) sid dead prog) Panic).
Proof.
move=> new cok b8 Ho k0 pr Hs Hp; have ok := pss_new_ok new; have El := pss_new_l new.
have m0 : (0 < 2 ^ b)%N by rewrite expn_gt0.
pose px p := get_ok [::] (fft1 pp (x p) gen).
have Epx p : (p < p_n pp)%N -> fft1 pp (x p) gen = Ok (px p) /\ size (px p) = (2 ^ b)%N.
  move=> lt_p; have [sx _] := Hs p lt_p.
  have E := @fft1P _ pp lam El (x p) gen b sx _.
  rewrite /px E ?size_mkseq //.
  by move=> K EK; apply: half_root; rewrite EK.
pose y p := zipmap +%R (px p) (fm_in (masks p)).
have sy p : (p < p_n pp)%N -> size (y p) = (2 ^ b)%N.
  by move=> lt_p; have [_ E1] := Epx p lt_p; have [_ E2] := Hs p lt_p; rewrite size_zipmap E1 E2 minnn.
apply: (few_fails (c := vec_codec cF) (c' := vec_codec cF) (x := y)
  (king := fft2_king dbg pp (2 ^ b) (2 ^ b) rearrange g gen r)
  (R := fun p o => clift (Ok (zipmap +%R o (fm_out (masks p))))) sid ok Ho k0).
- by move=> i lt_i; apply: (vec_dec (T := Fm F) cok b8); apply: sy.
- by move=> -> /andP[_ le_k]; apply: fft2_few.
move=> p lt_p; rewrite Hp //; have [-> E] := Epx p lt_p.
by rewrite /= /fft2_with_rearrange -/(y p) sy // E.
Qed.

(** ** enough shares in release builds *)
Lemma few_yields (F : fftField) (pp : pss F) T U B (c : codec T) (c' : codec U) sid ord (x : nat -> T)
    king (R : nat -> U -> cproc B) dead prog (ans : nat -> U) (vals : nat -> B) :
  pp_ok pp -> hash_ok ord -> ~~ dead 0%N -> (p_t pp <= live_count (p_n pp) dead)%N ->
  (forall i, (i < p_n pp)%N -> ModelNet.decode c (enc c (x i)) = Ok (x i)) ->
  king (Received [seq x i | i <- alive_ids (p_n pp) ord dead] (alive_ids (p_n pp) ord dead))
    = Ok (mkseq ans (p_n pp)) ->
  (forall i, (i < p_n pp)%N -> ModelNet.decode c' (enc c' (ans i)) = Ok (ans i)) ->
  (forall i, (i < p_n pp)%N -> size (enc c' (ans i)) = size (enc c' (ans 0%N))) ->
  (forall p, (p < p_n pp)%N -> R p (ans p) = CRet (Ok (vals p))) ->
  (forall p, (p < p_n pp)%N -> prog p = few_prog c c' (p_n pp) ord x (p_t pp) king R p) ->
  every_schedule (with_silent (p_n pp) sid dead prog) (predC dead) vals.
Proof.
move=> ok Ho k0 le_t xK Hk aK aS HR Ep; set ps := with_silent _ _ _ _.
have n0 : (0 < p_n pp)%N by have := n_gt1 ok; lia.
have -> : ps = with_silent (p_n pp) sid dead (few_prog c c' (p_n pp) ord x (p_t pp) king R).
  by apply/eq_in_map => p; rewrite mem_iota add0n => /andP[_ lt_p]; rewrite Ep.
apply: (few_ok sid n0 Ho k0 xK _ Hk aK aS); last by move=> p lt_p _; apply: HR.
by rewrite (size_aliveE pp dead); apply/negbTE; rewrite negb_and -!leqNgt le_t orbT.
Qed.

Lemma fft2_low (F : fftField) (pp : pss F) lam b rearrange g gen (r : rng F) deg (x : nat -> seq F) sec ord dead :
  pp_ok pp -> p_l pp = (2 ^ lam)%N -> hash_ok ord -> ~~ dead 0%N ->
  (2 ^ (b + lam))%N.-primitive_root gen -> (deg <= live_count (p_n pp) dead)%N ->
  vsharing (T := Fm F) pp deg (2 ^ b) x sec ->
  fft2_king false pp (2 ^ b) (2 ^ b) rearrange g gen r
    (Received [seq x i | i <- alive_ids (p_n pp) ord dead] (alive_ids (p_n pp) ord dead)) =
  share_out false pp rearrange (mkseq (fun q =>
     g ^+ q * kfft lam b gen (fun i => sec (i %/ p_l pp)%N (i %% p_l pp)%N) q) (2 ^ (b + lam))) r.
Proof.
move=> ok El Ho k0 pr Hd /vsharingP[H1 H2]; have m0 : (0 < 2 ^ b)%N by rewrite expn_gt0.
have Em : (2 ^ b * p_l pp = 2 ^ (b + lam))%N by rewrite El expnD.
rewrite /fft2_king /= (transpose_alive (T := Fm F) ok Ho k0 m0 H1) [rbind (Ok _) _]/=.
rewrite (fill_blocks ok El (f := fun c => unpack_missing_shares false pp (c : seq F^o) (alive_ids (p_n pp) ord dead)) (sec := sec));
  last by move=> e lt_e; apply: (unpack_low (T := Fm F) ok Ho k0 Hd (H2 e lt_e)).
rewrite [rbind (Ok _) _]/= (fft2_kfft (b := b) El) ?size_mkseq // [rbind (Ok _) _]/= shiftE size_mkseq.
congr share_out; apply: eq_mkseq_in => q lt_q; rewrite nth_mkseq //; congr (_ * _).
by apply: (eq_kfft El) => // i lt_i; rewrite nth_mkseq // Em.
Qed.

Lemma fft2_release (F : fftField) (pp : pss F) lam b (cF : codec F) mb rearrange g gen
    (masks : nat -> fft_mask F) (x : nat -> seq F) sec deg (r : rng F) :
  pp_ok pp -> p_l pp = (2 ^ lam)%N -> codec_ok cF mb -> (2 ^ b < 256 ^ 8)%N ->
  (2 ^ (b + lam))%N.-primitive_root gen -> (deg <= 4 * p_l pp - 1)%N ->
  masks_ok pp lam b rearrange g gen masks ->
  vsharing (T := Fm F) pp deg (2 ^ b) x sec ->
  exists out : nat -> seq F,
    vsharing (T := Fm F) pp (2 * p_l pp) (2 ^ b) out (slots (T := Fm F) pp rearrange b (b + lam)
      (mkseq (fun q => g ^+ q * kfft lam b gen (fun i => sec (i %/ p_l pp)%N (i %% p_l pp)%N) q)
        (2 ^ (b + lam)))) /\
    forall ord dead prog sid, hash_ok ord -> ~~ dead 0%N ->
      (maxn deg (2 * p_l pp) <= live_count (p_n pp) dead)%N ->
      (forall p, (p < p_n pp)%N -> prog p =
        fft2_with_rearrange false pp (p_n pp) p ord cF (x p) (masks p) rearrange g gen r) ->
      every_schedule (with_silent (p_n pp) sid dead prog) (predC dead) out.
Proof.
move=> ok El cok b8 pr Hdeg [v [Hin Hout]] Hx; have l0 := pp_l_gt0 ok.
have [dealt [Ed Hd]] := share_out_deal ok El false rearrange r
  (size_mkseq _ _ : size (king_values pp lam b g gen sec v) = _).
have [H _] := fft2_answer ok El cok b8 pr Hdeg Hin Hout Hx Ed Hd.
exists (fun p => zipmap +%R (dealt p) (fm_out (masks p))); split=> // ord dead prog sid Ho k0 le_k Ep.
pose y p := zipmap +%R (x p) (fm_in (masks p)).
have Hsum := vsharing_add (vsharing_widen (leq_maxl deg (2 * p_l pp)) Hx)
                          (vsharing_widen (leq_maxr deg (2 * p_l pp)) Hin).
have sy p : (p < p_n pp)%N -> size (y p) = (2 ^ b)%N by case: Hsum => S _ /S.
have sx p : (p < p_n pp)%N -> size (x p) = (2 ^ b)%N by case: Hx => S _ /S.
have sd p : (p < p_n pp)%N -> size (dealt p) = (2 ^ b)%N by case: Hd => S _ /S.
have n0 : (0 < p_n pp)%N by have := n_gt1 ok; lia.
apply: (few_yields (c := vec_codec cF) (c' := vec_codec cF) (x := y) (ans := dealt)
  (king := fft2_king false pp (2 ^ b) (2 ^ b) rearrange g gen r)
  (R := fun p o => clift (Ok (zipmap +%R o (fm_out (masks p))))) sid ok Ho k0) => //.
- by rewrite (ppt ok); move: le_k; rewrite geq_max => /andP[_]; lia.
- by move=> i lt_i; apply: (vec_dec (T := Fm F) cok b8); apply: sy.
- by rewrite (fft2_low rearrange g r ok El Ho k0 pr le_k Hsum) -Ed.
- by move=> i lt_i; apply: (vec_dec (T := Fm F) cok b8); apply: sd.
- by move=> i lt_i; rewrite !(size_enc_vec cok) !sd.
by move=> p lt_p; rewrite Ep // /fft2_with_rearrange /few_prog -/(y p) sx // sy.
Qed.

(*** theorems ***)

(** C59: the multi-scalar multiplication.  If fewer than [t] parties take part, the king reports a
    protocol error; in debug builds it panics if there are [t] or more but not enough to
    reconstruct a product.  The others wait for ever. *)
Lemma c59_d_msm (F : fftField) (T : lmodType F) dbg lam pp (cT : codec T) mb sid ord dead
    (bases : nat -> seq T) (scalars : nat -> seq F) (masks : nat -> msm_mask T) :
  pss_new F dbg (2 ^ lam) = Ok pp -> codec_ok cT mb -> hash_ok ord -> ~~ dead 0%N ->
  (forall p, (p < p_n pp)%N -> size (bases p) = size (scalars p)) ->
  let live := live_count (p_n pp) dead in
  let ps := with_silent (p_n pp) sid dead (fun p =>
    d_msm dbg pp (p_n pp) p ord cT (bases p) (scalars p) (masks p)) in
  ((live < p_t pp)%N -> king_fails ps (Err (Protocol 0))) /\
  (dbg -> (p_t pp <= live <= 2 * (p_t pp + p_l pp - 1))%N -> king_fails ps Panic).
Proof.
move=> new cok Ho k0 Hs; have ok := pss_new_ok new.
pose x p := get_ok 0 (msm (bases p) (scalars p)) + mm_in (masks p).
move=> live ps; apply: (few_fails (c := cT) (c' := cT) (x := x) (king := @d_msm_king F dbg pp (p_n pp) T)
  (R := fun p o => clift (Ok (o + mm_out (masks p)))) sid ok Ho k0).
- by move=> i _; case: cok => _ H _; rewrite /ModelNet.decode -[enc _ _]cats0 H.
- by move=> -> /andP[_ le_k]; rewrite /d_msm_king /= (unpack_few ok Ho k0).
move=> p lt_p; rewrite /d_msm /few_prog /x /dassert /msm Hs // eqxx implybT.
by [].
Qed.

(** C59: degree reduction. *)
Lemma c59_deg_red (F : fftField) (T : lmodType F) dbg lam pp (cT : codec T) mb sid ord dead m
    (x : nat -> seq T) (masks : nat -> degred_mask T) (r : rng T) :
  pss_new F dbg (2 ^ lam) = Ok pp -> codec_ok cT mb -> hash_ok ord -> ~~ dead 0%N ->
  (0 < m < 256 ^ 8)%N ->
  (forall p, (p < p_n pp)%N ->
     [/\ size (x p) = m, size (dr_in (masks p)) = m & size (dr_out (masks p)) = m]) ->
  let live := live_count (p_n pp) dead in
  let ps := with_silent (p_n pp) sid dead (fun p =>
    deg_red dbg pp (p_n pp) p ord cT (x p) (masks p) r) in
  ((live < p_t pp)%N -> king_fails ps (Err (Protocol 0))) /\
  (dbg -> (p_t pp <= live <= 2 * (p_t pp + p_l pp - 1))%N -> king_fails ps Panic).
Proof.
move=> new cok Ho k0 /andP[m0 m8] Hs; have ok := pss_new_ok new.
pose y p := zipmap +%R (x p) (dr_in (masks p)).
have sy p : (p < p_n pp)%N -> size (y p) = m.
  by move=> lt_p; have [E1 E2 _] := Hs p lt_p; rewrite size_zipmap E1 E2 minnn.
move=> live ps; apply: (few_fails (c := vec_codec cT) (c' := vec_codec cT) (x := y) (king := deg_red_king dbg pp r)
  (R := fun p o => clift (Ok (zipmap +%R o (dr_out (masks p))))) sid ok Ho k0).
- by move=> i lt_i; apply: (vec_dec cok m8); apply: sy.
- move=> -> /andP[_ le_k]; rewrite /deg_red_king /= (transpose_alive ok Ho k0 m0 sy) /= size_mkseq.
  by case: m m0 {m8 Hs sy} => // m _; rewrite /= (unpack_few ok Ho k0).
by move=> p lt_p; have [E1 E2 E3] := Hs p lt_p; rewrite /deg_red /dassert E1 E2 E3 eqxx implybT.
Qed.

(** C59: the transforms. *)
Lemma c59_d_fft (F : fftField) (dbg : bool) lam b pp dom (cF : codec F) mb rearrange
    (masks : nat -> fft_mask F) (x : nat -> seq F) (r : rng F) sid ord dead :
  pss_new F dbg (2 ^ lam) = Ok pp -> domain_new F (2 ^ (b + lam)) = Some dom ->
  codec_ok cF mb -> (2 ^ b < 256 ^ 8)%N -> hash_ok ord -> ~~ dead 0%N ->
  (forall p, (p < p_n pp)%N -> size (x p) = (2 ^ b)%N /\ size (fm_in (masks p)) = (2 ^ b)%N) ->
  let live := live_count (p_n pp) dead in
  let ps := with_silent (p_n pp) sid dead (fun p =>
    d_fft dbg pp (p_n pp) p ord cF (x p) (masks p) rearrange dom r) in
  ((live < p_t pp)%N -> king_fails ps (Err (Protocol 0))) /\
  (dbg -> (p_t pp <= live <= 2 * (p_t pp + p_l pp - 1))%N -> king_fails ps Panic).
Proof.
move=> new Edom cok b8 Ho k0 Hs live ps; have El := pss_new_l new.
apply: (fft_few (x := x) sid new cok b8 Ho k0 (dom_prim Edom) Hs) => p lt_p.
by rewrite /d_fft (px_assert El Edom) //; case: (Hs p lt_p).
Qed.

Lemma c59_d_ifft (F : fftField) (dbg : bool) lam b pp dom (cF : codec F) mb rearrange g
    (masks : nat -> fft_mask F) (x : nat -> seq F) (r : rng F) sid ord dead :
  pss_new F dbg (2 ^ lam) = Ok pp -> domain_new F (2 ^ (b + lam)) = Some dom ->
  codec_ok cF mb -> (2 ^ b < 256 ^ 8)%N -> hash_ok ord -> ~~ dead 0%N ->
  (forall p, (p < p_n pp)%N -> size (x p) = (2 ^ b)%N /\ size (fm_in (masks p)) = (2 ^ b)%N) ->
  let live := live_count (p_n pp) dead in
  let ps := with_silent (p_n pp) sid dead (fun p =>
    d_ifft dbg pp (p_n pp) p ord cF (x p) (masks p) rearrange dom g r) in
  ((live < p_t pp)%N -> king_fails ps (Err (Protocol 0))) /\
  (dbg -> (p_t pp <= live <= 2 * (p_t pp + p_l pp - 1))%N -> king_fails ps Panic).
Proof.
move=> new Edom cok b8 Ho k0 Hs live ps; have El := pss_new_l new.
apply: (fft_few (x := fun p => [seq z * d_size_inv dom | z <- x p]) sid new cok b8 Ho k0 (dom_prim_inv Edom)).
  by move=> p lt_p; rewrite size_map; apply: Hs.
move=> p lt_p; by rewrite /d_ifft (px_assert El Edom) //; case: (Hs p lt_p).
Qed.

(** C59: the partial products: in debug builds any silent party makes the king panic. *)
Lemma c59_d_pp (F : fftField) (dbg : bool) lam pp (cF : codec F) mb m
    (xn xd : nat -> seq F) (masks : nat -> degred_mask (Fm F)) (r r' : rng F) sid ord ord' dead :
  pss_new F dbg (2 ^ lam) = Ok pp -> codec_ok cF mb -> (2 * m < 256 ^ 8)%N ->
  hash_ok ord -> ~~ dead 0%N ->
  (forall p, (p < p_n pp)%N -> size (xn p) = m /\ size (xd p) = m) ->
  let live := live_count (p_n pp) dead in
  let ps := with_silent (p_n pp) sid dead (fun p =>
    d_pp dbg pp (p_n pp) p ord ord' cF (xn p) (xd p) (masks p) r r') in
  ((live < p_t pp)%N -> king_fails ps (Err (Protocol 0))) /\
  (dbg -> (p_t pp <= live < p_n pp)%N -> king_fails ps Panic).
Proof.
move=> new cok m8 Ho k0 Hs live ps; have ok := pss_new_ok new.
pose x p := [seq u * 1 | u <- xn p] ++ [seq u * 1 | u <- xd p].
have n0 : (0 < p_n pp)%N by have := n_gt1 ok; lia.
have -> : (p_t pp <= live < p_n pp)%N = (p_t pp <= live <= (p_n pp).-1)%N.
  by rewrite -[in LHS](prednK n0) ltnS.
apply: (few_fails (c := vec_codec cF) (c' := vec_codec cF) (x := x) (king := d_pp_king dbg pp r)
  (R := fun p o => deg_red dbg pp (p_n pp) p ord' (T := Fm F) cF [seq u * 1^-1 | u <- o] (masks p) r')
  sid ok Ho k0).
- move=> i lt_i; apply: (vec_dec (T := Fm F) cok m8).
  by have [E1 E2] := Hs i lt_i; rewrite size_cat !size_map E1 E2 addnn mul2n.
- move=> -> /andP[_ le_k]; rewrite /d_pp_king /= size_map (size_ids pp dead Ho) /dassert /=.
  by case: eqP => // E; move: le_k; rewrite E; lia.
by move=> p lt_p; rewrite /d_pp /d_pp_with oner_eq0.
Qed.

(** C59: release builds need no more shares than the degree of what is transformed: any number of
    clients may be silent as long as [live] is at least [2l] (the degree of the masks) and the
    degree of the input. *)
Lemma c59_release_d_fft (F : fftField) lam b pp dom (cF : codec F) mb rearrange masks x c deg (r : rng F) :
  pss_new F false (2 ^ lam) = Ok pp -> domain_new F (2 ^ (b + lam)) = Some dom ->
  codec_ok cF mb -> (2 ^ b < 256 ^ 8)%N -> (deg <= 4 * 2 ^ lam - 1)%N ->
  fft_masks false pp rearrange 1 (d_gen dom) (2 ^ (b + lam)) masks ->
  size c = (2 ^ (b + lam))%N ->
  vsharing (T := Fm F) pp deg (2 ^ b) x (strides (T := Fm F) b (b + lam) c) ->
  exists out : nat -> seq F,
    vsharing (T := Fm F) pp (2 * 2 ^ lam) (2 ^ b) out (slots (T := Fm F) pp rearrange b (b + lam)
      (evals (T := Fm F) 1 (d_gen dom) (2 ^ (b + lam)) c)) /\
    forall ord dead sid, hash_ok ord -> ~~ dead 0%N ->
      (maxn deg (2 * 2 ^ lam) <= live_count (p_n pp) dead)%N ->
      every_schedule (with_silent (p_n pp) sid dead (fun p =>
        d_fft false pp (p_n pp) p ord cF (x p) (masks p) rearrange dom r)) (predC dead) out.
Proof.
move=> new Edom cok b8 Hdeg Hm sc Hx; have ok := pss_new_ok new; have El := pss_new_l new.
have pr := dom_prim Edom; have Hm' := fft_masks_ok new pr Hm; rewrite -El in Hdeg *.
have [y [Ey Hy]] := fft1_vsharing El pr Hx.
have [out [Ho Hp]] := fft2_release r ok El cok b8 pr Hdeg Hm' Hy.
exists out; split.
  apply: vsharing_ext Ho => // e j lt_e lt_j.
  rewrite !(slots_mkseq El) // expr1n mul1r mul1r.
  by rewrite (kfft_eval ok El b8) // (slot_ix_lt El).
move=> ord dead sid Hord k0 le_k; apply: (Hp ord dead _ sid Hord k0 le_k) => p lt_p.
have sx : size (x p) = (2 ^ b)%N by case: Hx => S _; apply: S.
by rewrite /d_fft (px_assert El Edom) // Ey.
Qed.

(** C59: the same for degree reduction. *)
Lemma c59_release_deg_red (F : fftField) (T : lmodType F) lam pp (gen : T) (cT : codec T) mb m masks
    (x : nat -> seq T) sec deg (r : rng T) :
  pss_new F false (2 ^ lam) = Ok pp -> codec_ok cT mb -> (0 < m < 256 ^ 8)%N ->
  (deg <= 4 * 2 ^ lam - 1)%N -> degred_masks false pp gen m masks ->
  vsharing pp deg m x sec ->
  exists out : nat -> seq T,
    vsharing pp (2 * 2 ^ lam) m out sec /\
    forall ord dead sid, hash_ok ord -> ~~ dead 0%N ->
      (maxn deg (2 * 2 ^ lam) <= live_count (p_n pp) dead)%N ->
      every_schedule (with_silent (p_n pp) sid dead (fun p =>
        deg_red false pp (p_n pp) p ord cT (x p) (masks p) r)) (predC dead) out.
Proof.
move=> new cok /andP[m0 m8] Hdeg Hm Hx; have ok := pss_new_ok new; have El := pss_new_l new.
have l0 := pp_l_gt0 ok; have [v [Hin Hout]] := degred_masks_ok new m0 Hm; rewrite -El in Hdeg *.
pose ans e j := sec e j + v e j; pose dealt := dealing pp false ans m r.
have Hd := dealingP ok false ans m r.
exists (fun p => zipmap +%R (dealt p) (dr_out (masks p))); split.
  by apply: vsharing_ext (vsharing_add Hd Hout) => // e j lt_e lt_j; rewrite addrK.
move=> ord dead sid Ho k0 le_k; pose y p := zipmap +%R (x p) (dr_in (masks p)).
have Hsum := vsharing_add (vsharing_widen (leq_maxl deg (2 * p_l pp)) Hx)
                          (vsharing_widen (leq_maxr deg (2 * p_l pp)) Hin).
have sy p : (p < p_n pp)%N -> size (y p) = m by case: Hsum => S _ /S.
have sd p : (p < p_n pp)%N -> size (dealt p) = m by case: Hd => S _ /S.
have n0 : (0 < p_n pp)%N by have := n_gt1 ok; lia.
apply: (few_yields (c := vec_codec cT) (c' := vec_codec cT) (x := y) (ans := dealt)
  (king := deg_red_king false pp r)
  (R := fun p o => clift (Ok (zipmap +%R o (dr_out (masks p))))) sid ok Ho k0) => //.
- by rewrite (ppt ok); move: le_k; rewrite geq_max => /andP[_]; lia.
- by move=> i lt_i; apply: (vec_dec cok m8); apply: sy.
- have /vsharingP[H1 H2] := Hsum.
  rewrite /deg_red_king /= (transpose_alive ok Ho k0 m0 H1) [rbind (Ok _) _]/= size_mkseq.
  apply: (dealing_transpose ok) => // i lt_i.
  rewrite (vget_nth [::]) ?size_mkseq // [rbind (Ok _) _]/= nth_mkseq //.
  by rewrite (unpack_low ok Ho k0 le_k (H2 i lt_i)).
- by move=> i lt_i; apply: (vec_dec cok m8); apply: sd.
- by move=> i lt_i; rewrite !(size_enc_vec cok) !sd.
Qed.

(** C59: the same for the inverse transform. *)
Lemma c59_release_d_ifft (F : fftField) lam b pp dom (cF : codec F) mb rearrange g masks x v deg (r : rng F) :
  pss_new F false (2 ^ lam) = Ok pp -> domain_new F (2 ^ (b + lam)) = Some dom ->
  codec_ok cF mb -> (2 ^ b < 256 ^ 8)%N -> (deg <= 4 * 2 ^ lam - 1)%N ->
  fft_masks false pp rearrange g (d_gen_inv dom) (2 ^ (b + lam)) masks ->
  size v = (2 ^ (b + lam))%N ->
  vsharing (T := Fm F) pp deg (2 ^ b) x (strides (T := Fm F) b (b + lam) v) ->
  exists (c : seq F) (out : nat -> seq F), [/\ size c = (2 ^ (b + lam))%N,
    v = evals (T := Fm F) 1 (d_gen dom) (2 ^ (b + lam)) c,
    vsharing (T := Fm F) pp (2 * 2 ^ lam) (2 ^ b) out
      (slots (T := Fm F) pp rearrange b (b + lam) (coset_coeffs (T := Fm F) g c)) &
    forall ord dead sid, hash_ok ord -> ~~ dead 0%N ->
      (maxn deg (2 * 2 ^ lam) <= live_count (p_n pp) dead)%N ->
      every_schedule (with_silent (p_n pp) sid dead (fun p =>
        d_ifft false pp (p_n pp) p ord cF (x p) (masks p) rearrange dom g r)) (predC dead) out].
Proof.
move=> new Edom cok b8 Hdeg Hm sv Hx; have ok := pss_new_ok new; have El := pss_new_l new.
have pr := dom_prim_inv Edom; have Hm' := fft_masks_ok new pr Hm; rewrite -El in Hdeg *.
have [_ Es _] := dom_ok Edom.
have [|c sc Ev] := interpolate (v := v) Edom; first by rewrite Es.
rewrite Es in sc Ev; exists c.
have [y [Ey Hy]] := fft1_vsharing El pr (vsharing_scale (d_size_inv dom) Hx).
have [out [Ho Hp]] := fft2_release r ok El cok b8 pr Hdeg Hm' Hy.
exists out; split=> //.
  by apply: vsharing_ext Ho => // e j lt_e lt_j; rewrite Ev; apply: (ifft_slots ok El b8 Edom).
move=> ord dead sid Hord k0 le_k; apply: (Hp ord dead _ sid Hord k0 le_k) => p lt_p.
have sx : size (x p) = (2 ^ b)%N by case: Hx => S _; apply: S.
by rewrite /d_ifft (px_assert El Edom) // Ey.
Qed.

(** C59, refuted for release builds: "if enough parties take part for the king to answer, the
    answer is right".  With eight parties of which six are silent the king's check for [t] = 2
    messages succeeds and both live parties get the same wrong sum. *)
Lemma c59_release_refuted (cF : codec F17) mb : codec_ok cF mb ->
  exists (pp : pss F17) (sb ss shb shs : seq F17) (rb rs : rng F17) (dead : pred nat) (v : F17),
    [/\ pss_new F17 false (2 ^ 1) = Ok pp,
        pack (T := T17) false pp sb rb = Ok shb /\ pack (T := T17) false pp ss rs = Ok shs,
        ~~ dead 0%N /\ (p_t pp <= live_count (p_n pp) dead)%N,
        v != ss`_0 * sb`_0 + ss`_1 * sb`_1 &
        forall ord sid, hash_ok ord -> every_schedule (with_silent (p_n pp) sid dead (fun p =>
          d_msm (T := T17) false pp (p_n pp) p ord cF [:: shb`_p] [:: shs`_p] (msm_mask_zero T17)))
          (predC dead) (fun=> v)].
Proof.
move=> cok; pose sb : seq F17 := [:: 1; 2%:R]; pose rr : rng F17 := fun i => (i + 3)%:R.
pose shb := get_ok [::] (pack (T := T17) false pp2 sb rr).
pose x p : F17 := shb`_p * shb`_p.
pose king s := get_ok [::] (d_msm_king (T := T17) false pp2 8 (Received [seq x i | i <- s] s)).
pose v := (king [:: 0; 1]%N)`_0.
exists pp2, sb, sb, shb, shb, rr, rr, (fun p => 1 < p)%N, v; split.
- exact: pp2_new.
- by split; apply: get_okP; vm_compute.
- by split; vm_compute.
- by vm_compute.
move=> ord sid Ho.
pose y p : T17 := get_ok 0 (msm (T := T17) [:: shb`_p] [:: shb`_p]) + mm_in (msm_mask_zero T17).
apply: (few_yields (c := cF) (c' := cF) (x := y) (ans := fun=> v)
  (king := @d_msm_king F17 false pp2 (p_n pp2) T17)
  (R := fun p o => clift (Ok (o + mm_out (msm_mask_zero T17)))) sid pp2_ok Ho) => //.
- by move=> i _; case: cok => _ H _; rewrite /ModelNet.decode -[enc _ _]cats0 H.
- have -> : alive_ids (p_n pp2) ord (fun p => 1 < p)%N = ord [:: 0; 1]%N by [].
  have : ord [:: 0; 1]%N = [:: 0; 1]%N \/ ord [:: 0; 1]%N = [:: 1; 0]%N.
    have P := Ho [:: 0; 1]%N; have S := perm_size P.
    case E: (ord _) P S => [|i [|j [|]]] //= P _.
    have := perm_mem P 0%N; have := perm_mem P 1%N; rewrite !inE /= .
    by case: i j {E P} => [|[|i]] [|[|j]] //; [left|right].
  case=> ->; (apply: etrans (get_okP [::] _) _; last congr Ok); try apply/eqP; by vm_compute.
by move=> i _; case: cok => _ H _; rewrite /ModelNet.decode -[enc _ _]cats0 H.
Qed.
