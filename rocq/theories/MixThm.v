(** Theorems about rounds in which some parties are silent and others send bytes that the king cannot
    decode. *)
From mathcomp Require Import all_ssreflect all_algebra.
From mathcomp Require Import zify.
From Verif Require Import Base ModelField ModelUtils ModelPss ModelPack ModelFft ModelNet ModelProto.
From Verif Require Import Spec SpecNet SpecProto SpecTamper SpecBytes.
From Verif Require Import KingProofs RoundProofs FieldProofs UtilsProofs PssProofs PssThm PackProofs FftProofs.
From Verif Require Import ProtoProofs DegProofs FewProofs ProtoThm FewThm MixProofs BytesThm ModelNet.
Set Implicit Arguments.
Unset Strict Implicit.
Unset Printing Implicit Defensive.
Import GRing.Theory.
Local Open Scope ring_scope.
Local Notation Fm F := [lmodType F of F^o].

Lemma fft_mix (F : fftField) (dbg : bool) lam b pp (cF : codec F) mb rearrange g gen
    (masks : nat -> fft_mask F) (x : nat -> seq F) (r : rng F) sid ord dead bad w prog :
  pss_new F dbg (2 ^ lam) = Ok pp -> codec_ok cF mb -> (2 ^ b < 256 ^ 8)%N -> hash_ok ord ->
  ~~ (dead 0%N || bad 0%N) -> (live_count (p_n pp) dead < p_n pp)%N ->
  (forall p, (p < p_n pp)%N -> bad p -> decode (vec_codec cF) (w p) = Err Generic) ->
  (2 ^ (b + lam))%N.-primitive_root gen ->
  (forall p, (p < p_n pp)%N -> size (x p) = (2 ^ b)%N /\ size (fm_in (masks p)) = (2 ^ b)%N) ->
  (forall p, (p < p_n pp)%N -> prog p = do! px := clift (fft1 pp (x p) gen) in
     fft2_with_rearrange dbg pp (p_n pp) p ord cF px (masks p) rearrange g gen r) ->
  ((live_count (p_n pp) (fun p => dead p || bad p) < p_t pp)%N ->
    king_fails (with_garbled (p_n pp) sid dead bad w prog) (Err (Protocol 0))) /\
  (dbg -> (p_t pp <= live_count (p_n pp) (fun p => dead p || bad p) <= 2 * (p_t pp + p_l pp - 1))%N ->
    king_fails (with_garbled (p_n pp) sid dead bad w prog) Panic).
Proof.
move=> new cok b8 Ho k0 sd wb pr Hs Hp; have ok := pss_new_ok new; have El := pss_new_l new.
have m0 : (0 < 2 ^ b)%N by rewrite expn_gt0.
pose px p := get_ok [::] (fft1 pp (x p) gen).
have Epx p : (p < p_n pp)%N -> fft1 pp (x p) gen = Ok (px p) /\ size (px p) = (2 ^ b)%N.
  move=> lt_p; have [sx _] := Hs p lt_p.
  have E := @fft1P _ pp lam El (x p) gen b sx _.
  rewrite /px E ?size_mkseq //.
  by move=> K EK; apply: half_root; rewrite EK.
pose y p := zipmap +%R (px p) (fm_in (masks p)).
have sy p : (p < p_n pp)%N -> size (y p) = (2 ^ b)%N.
  by move=> lt_p; have [_ E1] := Epx p lt_p; have [_ E2] := Hs p lt_p; rewrite size_zipmap E1 E2 minnn.
apply: (mix_fails (c := vec_codec cF) (c' := vec_codec cF) (x := y)
  (king := fft2_king dbg pp (2 ^ b) (2 ^ b) rearrange g gen r)
  (R := fun p o => clift (Ok (zipmap +%R o (fm_out (masks p))))) sid ok Ho k0 sd wb (lim := (2 * (p_t pp + p_l pp - 1))%N)).
- by move=> i lt_i; apply: (vec_dec (T := Fm F) cok b8); apply: sy.
- by move=> -> /andP[_ le_k] o oP; apply: fft2_few oP k0 _ sy le_k.
move=> p lt_p; rewrite Hp //; have [-> E] := Epx p lt_p.
by rewrite /= /fft2_with_rearrange -/(y p) sy // E.
Qed.

Lemma fft2_mix (F : fftField) (pp : pss F) lam b (cF : codec F) mb rearrange g gen
    (masks : nat -> fft_mask F) (x : nat -> seq F) sec deg (r : rng F) :
  pp_ok pp -> p_l pp = (2 ^ lam)%N -> codec_ok cF mb -> (2 ^ b < 256 ^ 8)%N ->
  (2 ^ (b + lam))%N.-primitive_root gen -> (deg <= 4 * p_l pp - 1)%N ->
  masks_ok pp lam b rearrange g gen masks ->
  vsharing (T := Fm F) pp deg (2 ^ b) x sec ->
  exists out : nat -> seq F,
    vsharing (T := Fm F) pp (2 * p_l pp) (2 ^ b) out (slots (T := Fm F) pp rearrange b (b + lam)
      (mkseq (fun q => g ^+ q * kfft lam b gen (fun i => sec (i %/ p_l pp)%N (i %% p_l pp)%N) q)
        (2 ^ (b + lam)))) /\
    forall ord dead bad w prog sid, hash_ok ord ->
      ~~ (dead 0%N || bad 0%N) -> (live_count (p_n pp) dead < p_n pp)%N ->
      (forall p, (p < p_n pp)%N -> bad p -> decode (vec_codec cF) (w p) = Err Generic) ->
      (maxn deg (2 * p_l pp) <= live_count (p_n pp) (fun p => dead p || bad p))%N ->
      (forall p, (p < p_n pp)%N -> prog p =
        fft2_with_rearrange false pp (p_n pp) p ord cF (x p) (masks p) rearrange g gen r) ->
      every_schedule (with_garbled (p_n pp) sid dead bad w prog) (predC dead) out.
Proof.
move=> ok El cok b8 pr Hdeg [v [Hin Hout]] Hx; have l0 := pp_l_gt0 ok.
have [dealt [Ed Hd]] := share_out_deal ok El false rearrange r
  (size_mkseq _ _ : size (king_values pp lam b g gen sec v) = _).
have [H _] := fft2_answer ok El cok b8 pr Hdeg Hin Hout Hx Ed Hd.
exists (fun p => zipmap +%R (dealt p) (fm_out (masks p))); split=> // ord dead bad w prog sid Ho k0 sdd wb le_k Ep.
pose y p := zipmap +%R (x p) (fm_in (masks p)).
have Hsum := vsharing_add (vsharing_widen (leq_maxl deg (2 * p_l pp)) Hx)
                          (vsharing_widen (leq_maxr deg (2 * p_l pp)) Hin).
have sy p : (p < p_n pp)%N -> size (y p) = (2 ^ b)%N by case: Hsum => S _ /S.
have sx p : (p < p_n pp)%N -> size (x p) = (2 ^ b)%N by case: Hx => S _ /S.
have sd p : (p < p_n pp)%N -> size (dealt p) = (2 ^ b)%N by case: Hd => S _ /S.
have n0 : (0 < p_n pp)%N by have := n_gt1 ok; lia.
apply: (mix_yields (c := vec_codec cF) (c' := vec_codec cF) (x := y) (ans := dealt)
  (king := fft2_king false pp (2 ^ b) (2 ^ b) rearrange g gen r)
  (R := fun p o => clift (Ok (zipmap +%R o (fm_out (masks p))))) sid ok Ho k0 sdd wb) => //.
- by rewrite (ppt ok); move: le_k; rewrite geq_max => /andP[_]; lia.
- by move=> i lt_i; apply: (vec_dec (T := Fm F) cok b8); apply: sy.
- by move=> o oP; rewrite (fft2_low rearrange g r ok El oP k0 pr le_k Hsum) -Ed.
- by move=> i lt_i; apply: (vec_dec (T := Fm F) cok b8); apply: sd.
- by move=> i lt_i; rewrite !(size_enc_vec cok) !sd.
by move=> p lt_p; rewrite Ep // /fft2_with_rearrange /few_prog -/(y p) sx // sy.
Qed.

Lemma live_two n q p : (0 < q < n)%N -> (0 < p < n)%N -> q != p ->
  live_count n (fun i => (i == q) || (i == p)) = (n - 2)%N.
Proof.
move=> qI pI qp; rewrite /live_count; set a := fun i => _; have E := count_predC a (iota 0 n).
have H : count a (iota 0 n) = 2%N; last first.
  by move: E; rewrite H size_iota => E; rewrite -[in RHS]E addKn.
rewrite (eq_count (a2 := predU (pred1 q) (pred1 p))) //.
have := count_predUI (pred1 q) (pred1 p) (iota 0 n).
rewrite !count_uniq_mem ?iota_uniq // !mem_iota.
have -> : count (predI (pred1 q) (pred1 p)) (iota 0 n) = 0%N.
  rewrite (eq_count (a2 := pred0)) ?count_pred0 // => i /=.
  by case: (i =P q) => // ->; apply: negbTE.
by rewrite !leq0n !add0n; have [_ ->] := andP qI; have [_ ->] := andP pI; rewrite addn0.
Qed.

Lemma live_one n q : (0 < q < n)%N -> (live_count n (pred1 q) < n)%N.
Proof.
move=> qI; rewrite /live_count; set a := pred1 q; have E := count_predC a (iota 0 n).
have H : count a (iota 0 n) = 1%N.
  by rewrite count_uniq_mem ?iota_uniq // mem_iota leq0n add0n; have [_ ->] := andP qI.
by move: E; rewrite H size_iota => E; rewrite -[X in (_ < X)%N]E add1n ltnSn.
Qed.

(*** theorems ***)

(** C75: the multi-scalar multiplication.  The parties in [dead] (at least one) are silent, those in
    [bad] send bytes that do not decode.  The king drops the latter and goes on with the [live] other
    messages: fewer than [t] give a protocol error, [t] or more but not enough to reconstruct a
    product make debug builds panic.  The others wait for ever. *)
Lemma c75_d_msm (F : fftField) (T : lmodType F) dbg lam pp (cT : codec T) mb sid ord dead bad w
    (bases : nat -> seq T) (scalars : nat -> seq F) (masks : nat -> msm_mask T) :
  pss_new F dbg (2 ^ lam) = Ok pp -> codec_ok cT mb -> hash_ok ord ->
  ~~ (dead 0%N || bad 0%N) -> (live_count (p_n pp) dead < p_n pp)%N ->
  (forall p, (p < p_n pp)%N -> bad p -> decode cT (w p) = Err Generic) ->
  (forall p, (p < p_n pp)%N -> size (bases p) = size (scalars p)) ->
  let live := live_count (p_n pp) (fun p => dead p || bad p) in
  let ps := with_garbled (p_n pp) sid dead bad w (fun p =>
    d_msm dbg pp (p_n pp) p ord cT (bases p) (scalars p) (masks p)) in
  ((live < p_t pp)%N -> king_fails ps (Err (Protocol 0))) /\
  (dbg -> (p_t pp <= live <= 2 * (p_t pp + p_l pp - 1))%N -> king_fails ps Panic).
Proof.
move=> new cok Ho k0 sd wb Hs; have ok := pss_new_ok new.
pose x p := get_ok 0 (msm (bases p) (scalars p)) + mm_in (masks p).
move=> live ps; apply: (mix_fails (c := cT) (c' := cT) (x := x)
  (king := @d_msm_king F dbg pp (p_n pp) T)
  (R := fun p o => clift (Ok (o + mm_out (masks p)))) sid ok Ho k0 sd wb (lim := (2 * (p_t pp + p_l pp - 1))%N)).
- by move=> i _; case: cok => _ H _; rewrite /ModelNet.decode -[enc _ _]cats0 H.
- by move=> -> /andP[_ le_k] o oP; rewrite /d_msm_king /= (unpack_few ok oP k0).
move=> p lt_p; rewrite /d_msm /few_prog /x /dassert /msm Hs // eqxx implybT.
by [].
Qed.

(** C75: degree reduction. *)
Lemma c75_deg_red (F : fftField) (T : lmodType F) dbg lam pp (cT : codec T) mb sid ord dead bad w m
    (x : nat -> seq T) (masks : nat -> degred_mask T) (r : rng T) :
  pss_new F dbg (2 ^ lam) = Ok pp -> codec_ok cT mb -> hash_ok ord ->
  ~~ (dead 0%N || bad 0%N) -> (live_count (p_n pp) dead < p_n pp)%N ->
  (forall p, (p < p_n pp)%N -> bad p -> decode (vec_codec cT) (w p) = Err Generic) ->
  (0 < m < 256 ^ 8)%N ->
  (forall p, (p < p_n pp)%N ->
     [/\ size (x p) = m, size (dr_in (masks p)) = m & size (dr_out (masks p)) = m]) ->
  let live := live_count (p_n pp) (fun p => dead p || bad p) in
  let ps := with_garbled (p_n pp) sid dead bad w (fun p =>
    deg_red dbg pp (p_n pp) p ord cT (x p) (masks p) r) in
  ((live < p_t pp)%N -> king_fails ps (Err (Protocol 0))) /\
  (dbg -> (p_t pp <= live <= 2 * (p_t pp + p_l pp - 1))%N -> king_fails ps Panic).
Proof.
move=> new cok Ho k0 sd wb /andP[m0 m8] Hs; have ok := pss_new_ok new.
pose y p := zipmap +%R (x p) (dr_in (masks p)).
have sy p : (p < p_n pp)%N -> size (y p) = m.
  by move=> lt_p; have [E1 E2 _] := Hs p lt_p; rewrite size_zipmap E1 E2 minnn.
move=> live ps; apply: (mix_fails (c := vec_codec cT) (c' := vec_codec cT) (x := y)
  (king := deg_red_king dbg pp r)
  (R := fun p o => clift (Ok (zipmap +%R o (dr_out (masks p))))) sid ok Ho k0 sd wb (lim := (2 * (p_t pp + p_l pp - 1))%N)).
- by move=> i lt_i; apply: (vec_dec cok m8); apply: sy.
- move=> -> /andP[_ le_k] o oP; rewrite /deg_red_king /= (transpose_alive ok oP k0 m0 sy) /= size_mkseq.
  by case: m m0 {m8 Hs sy} => // m _; rewrite /= (unpack_few ok oP k0).
by move=> p lt_p; have [E1 E2 E3] := Hs p lt_p; rewrite /deg_red /dassert E1 E2 E3 eqxx implybT.
Qed.

(** C75: the transforms. *)
Lemma c75_d_fft (F : fftField) (dbg : bool) lam b pp dom (cF : codec F) mb rearrange
    (masks : nat -> fft_mask F) (x : nat -> seq F) (r : rng F) sid ord dead bad w :
  pss_new F dbg (2 ^ lam) = Ok pp -> domain_new F (2 ^ (b + lam)) = Some dom ->
  codec_ok cF mb -> (2 ^ b < 256 ^ 8)%N -> hash_ok ord ->
  ~~ (dead 0%N || bad 0%N) -> (live_count (p_n pp) dead < p_n pp)%N ->
  (forall p, (p < p_n pp)%N -> bad p -> decode (vec_codec cF) (w p) = Err Generic) ->
  (forall p, (p < p_n pp)%N -> size (x p) = (2 ^ b)%N /\ size (fm_in (masks p)) = (2 ^ b)%N) ->
  let live := live_count (p_n pp) (fun p => dead p || bad p) in
  let ps := with_garbled (p_n pp) sid dead bad w (fun p =>
    d_fft dbg pp (p_n pp) p ord cF (x p) (masks p) rearrange dom r) in
  ((live < p_t pp)%N -> king_fails ps (Err (Protocol 0))) /\
  (dbg -> (p_t pp <= live <= 2 * (p_t pp + p_l pp - 1))%N -> king_fails ps Panic).
Proof.
move=> new Edom cok b8 Ho k0 sd wb Hs live ps; have El := pss_new_l new.
apply: (fft_mix (x := x) sid new cok b8 Ho k0 sd wb (dom_prim Edom) Hs) => p lt_p.
by rewrite /d_fft (px_assert El Edom) //; case: (Hs p lt_p).
Qed.

Lemma c75_d_ifft (F : fftField) (dbg : bool) lam b pp dom (cF : codec F) mb rearrange g
    (masks : nat -> fft_mask F) (x : nat -> seq F) (r : rng F) sid ord dead bad w :
  pss_new F dbg (2 ^ lam) = Ok pp -> domain_new F (2 ^ (b + lam)) = Some dom ->
  codec_ok cF mb -> (2 ^ b < 256 ^ 8)%N -> hash_ok ord ->
  ~~ (dead 0%N || bad 0%N) -> (live_count (p_n pp) dead < p_n pp)%N ->
  (forall p, (p < p_n pp)%N -> bad p -> decode (vec_codec cF) (w p) = Err Generic) ->
  (forall p, (p < p_n pp)%N -> size (x p) = (2 ^ b)%N /\ size (fm_in (masks p)) = (2 ^ b)%N) ->
  let live := live_count (p_n pp) (fun p => dead p || bad p) in
  let ps := with_garbled (p_n pp) sid dead bad w (fun p =>
    d_ifft dbg pp (p_n pp) p ord cF (x p) (masks p) rearrange dom g r) in
  ((live < p_t pp)%N -> king_fails ps (Err (Protocol 0))) /\
  (dbg -> (p_t pp <= live <= 2 * (p_t pp + p_l pp - 1))%N -> king_fails ps Panic).
Proof.
move=> new Edom cok b8 Ho k0 sd wb Hs live ps; have El := pss_new_l new.
apply: (fft_mix (x := fun p => [seq z * d_size_inv dom | z <- x p]) sid new cok b8 Ho k0 sd wb (dom_prim_inv Edom)).
  by move=> p lt_p; rewrite size_map; apply: Hs.
move=> p lt_p; by rewrite /d_ifft (px_assert El Edom) //; case: (Hs p lt_p).
Qed.

(** C75: the partial products: debug builds panic whenever [live] is at least [t]. *)
Lemma c75_d_pp (F : fftField) (dbg : bool) lam pp (cF : codec F) mb m
    (xn xd : nat -> seq F) (masks : nat -> degred_mask (Fm F)) (r r' : rng F) sid ord ord' dead bad w :
  pss_new F dbg (2 ^ lam) = Ok pp -> codec_ok cF mb -> (2 * m < 256 ^ 8)%N ->
  hash_ok ord ->
  ~~ (dead 0%N || bad 0%N) -> (live_count (p_n pp) dead < p_n pp)%N ->
  (forall p, (p < p_n pp)%N -> bad p -> decode (vec_codec cF) (w p) = Err Generic) ->
  (forall p, (p < p_n pp)%N -> size (xn p) = m /\ size (xd p) = m) ->
  let live := live_count (p_n pp) (fun p => dead p || bad p) in
  let ps := with_garbled (p_n pp) sid dead bad w (fun p =>
    d_pp dbg pp (p_n pp) p ord ord' cF (xn p) (xd p) (masks p) r r') in
  ((live < p_t pp)%N -> king_fails ps (Err (Protocol 0))) /\
  (dbg -> (p_t pp <= live < p_n pp)%N -> king_fails ps Panic).
Proof.
move=> new cok m8 Ho k0 sd wb Hs live ps; have ok := pss_new_ok new.
pose x p := [seq u * 1 | u <- xn p] ++ [seq u * 1 | u <- xd p].
have n0 : (0 < p_n pp)%N by have := n_gt1 ok; lia.
have -> : (p_t pp <= live < p_n pp)%N = (p_t pp <= live <= (p_n pp).-1)%N.
  by rewrite -[in LHS](prednK n0) ltnS.
apply: (mix_fails (c := vec_codec cF) (c' := vec_codec cF) (x := x)
  (king := d_pp_king dbg pp r)
  (R := fun p o => deg_red dbg pp (p_n pp) p ord' (T := Fm F) cF [seq u * 1^-1 | u <- o] (masks p) r') sid ok Ho k0 sd wb (lim := (p_n pp).-1)).
- move=> i lt_i; apply: (vec_dec (T := Fm F) cok m8).
  by have [E1 E2] := Hs i lt_i; rewrite size_cat !size_map E1 E2 addnn mul2n.
- move=> -> /andP[_ le_k] o oP; rewrite /d_pp_king /= size_map (size_ids pp _ oP) /dassert /=.
  by case: eqP => // E; move: le_k; rewrite E; lia.
by move=> p lt_p; rewrite /d_pp /d_pp_with oner_eq0.
Qed.

(** C75: in release builds the result is right as long as [live] is at least [2l] (the degree of the
    masks) and the degree of the input; also those who sent garbage get their shares of it. *)
Lemma c75_release_d_fft (F : fftField) lam b pp dom (cF : codec F) mb rearrange masks x c deg (r : rng F) :
  pss_new F false (2 ^ lam) = Ok pp -> domain_new F (2 ^ (b + lam)) = Some dom ->
  codec_ok cF mb -> (2 ^ b < 256 ^ 8)%N -> (deg <= 4 * 2 ^ lam - 1)%N ->
  fft_masks false pp rearrange 1 (d_gen dom) (2 ^ (b + lam)) masks ->
  size c = (2 ^ (b + lam))%N ->
  vsharing (T := Fm F) pp deg (2 ^ b) x (strides (T := Fm F) b (b + lam) c) ->
  exists out : nat -> seq F,
    vsharing (T := Fm F) pp (2 * 2 ^ lam) (2 ^ b) out (slots (T := Fm F) pp rearrange b (b + lam)
      (evals (T := Fm F) 1 (d_gen dom) (2 ^ (b + lam)) c)) /\
    forall ord dead bad w sid, hash_ok ord ->
      ~~ (dead 0%N || bad 0%N) -> (live_count (p_n pp) dead < p_n pp)%N ->
      (forall p, (p < p_n pp)%N -> bad p -> decode (vec_codec cF) (w p) = Err Generic) ->
      (maxn deg (2 * 2 ^ lam) <= live_count (p_n pp) (fun p => dead p || bad p))%N ->
      every_schedule (with_garbled (p_n pp) sid dead bad w (fun p =>
        d_fft false pp (p_n pp) p ord cF (x p) (masks p) rearrange dom r)) (predC dead) out.
Proof.
move=> new Edom cok b8 Hdeg Hm sc Hx; have ok := pss_new_ok new; have El := pss_new_l new.
have pr := dom_prim Edom; have Hm' := fft_masks_ok new pr Hm; rewrite -El in Hdeg *.
have [y [Ey Hy]] := fft1_vsharing El pr Hx.
have [out [Ho Hp]] := fft2_mix r ok El cok b8 pr Hdeg Hm' Hy.
exists out; split.
  apply: vsharing_ext Ho => // e j lt_e lt_j.
  rewrite !(slots_mkseq El) // expr1n mul1r mul1r.
  by rewrite (kfft_eval ok El b8) // (slot_ix_lt El).
move=> ord dead bad w sid Hord k0 sd wb le_k; apply: (Hp ord dead bad w _ sid Hord k0 sd wb le_k) => p lt_p.
have sx : size (x p) = (2 ^ b)%N by case: Hx => S _; apply: S.
by rewrite /d_fft (px_assert El Edom) // Ey.
Qed.

(** C75: the same for degree reduction. *)
Lemma c75_release_deg_red (F : fftField) (T : lmodType F) lam pp (gen : T) (cT : codec T) mb m masks
    (x : nat -> seq T) sec deg (r : rng T) :
  pss_new F false (2 ^ lam) = Ok pp -> codec_ok cT mb -> (0 < m < 256 ^ 8)%N ->
  (deg <= 4 * 2 ^ lam - 1)%N -> degred_masks false pp gen m masks ->
  vsharing pp deg m x sec ->
  exists out : nat -> seq T,
    vsharing pp (2 * 2 ^ lam) m out sec /\
    forall ord dead bad w sid, hash_ok ord ->
      ~~ (dead 0%N || bad 0%N) -> (live_count (p_n pp) dead < p_n pp)%N ->
      (forall p, (p < p_n pp)%N -> bad p -> decode (vec_codec cT) (w p) = Err Generic) ->
      (maxn deg (2 * 2 ^ lam) <= live_count (p_n pp) (fun p => dead p || bad p))%N ->
      every_schedule (with_garbled (p_n pp) sid dead bad w (fun p =>
        deg_red false pp (p_n pp) p ord cT (x p) (masks p) r)) (predC dead) out.
Proof.
move=> new cok /andP[m0 m8] Hdeg Hm Hx; have ok := pss_new_ok new; have El := pss_new_l new.
have l0 := pp_l_gt0 ok; have [v [Hin Hout]] := degred_masks_ok new m0 Hm; rewrite -El in Hdeg *.
pose ans e j := sec e j + v e j; pose dealt := dealing pp false ans m r.
have Hd := dealingP ok false ans m r.
exists (fun p => zipmap +%R (dealt p) (dr_out (masks p))); split.
  by apply: vsharing_ext (vsharing_add Hd Hout) => // e j lt_e lt_j; rewrite addrK.
move=> ord dead bad w sid Ho k0 sdd wb le_k; pose y p := zipmap +%R (x p) (dr_in (masks p)).
have Hsum := vsharing_add (vsharing_widen (leq_maxl deg (2 * p_l pp)) Hx)
                          (vsharing_widen (leq_maxr deg (2 * p_l pp)) Hin).
have sy p : (p < p_n pp)%N -> size (y p) = m by case: Hsum => S _ /S.
have sd p : (p < p_n pp)%N -> size (dealt p) = m by case: Hd => S _ /S.
have n0 : (0 < p_n pp)%N by have := n_gt1 ok; lia.
apply: (mix_yields (c := vec_codec cT) (c' := vec_codec cT) (x := y) (ans := dealt)
  (king := deg_red_king false pp r)
  (R := fun p o => clift (Ok (zipmap +%R o (dr_out (masks p))))) sid ok Ho k0 sdd wb) => //.
- by rewrite (ppt ok); move: le_k; rewrite geq_max => /andP[_]; lia.
- by move=> i lt_i; apply: (vec_dec cok m8); apply: sy.
- move=> o oP; have /vsharingP[H1 H2] := Hsum.
  rewrite /deg_red_king /= (transpose_alive ok oP k0 m0 H1) [rbind (Ok _) _]/= size_mkseq.
  apply: (dealing_transpose ok) => // i lt_i.
  rewrite (vget_nth [::]) ?size_mkseq // [rbind (Ok _) _]/= nth_mkseq //.
  by rewrite (unpack_low ok oP k0 le_k (H2 i lt_i)).
- by move=> i lt_i; apply: (vec_dec cok m8); apply: sd.
- by move=> i lt_i; rewrite !(size_enc_vec cok) !sd.
Qed.

(** C75: the same for the inverse transform. *)
Lemma c75_release_d_ifft (F : fftField) lam b pp dom (cF : codec F) mb rearrange g masks x v deg (r : rng F) :
  pss_new F false (2 ^ lam) = Ok pp -> domain_new F (2 ^ (b + lam)) = Some dom ->
  codec_ok cF mb -> (2 ^ b < 256 ^ 8)%N -> (deg <= 4 * 2 ^ lam - 1)%N ->
  fft_masks false pp rearrange g (d_gen_inv dom) (2 ^ (b + lam)) masks ->
  size v = (2 ^ (b + lam))%N ->
  vsharing (T := Fm F) pp deg (2 ^ b) x (strides (T := Fm F) b (b + lam) v) ->
  exists (c : seq F) (out : nat -> seq F), [/\ size c = (2 ^ (b + lam))%N,
    v = evals (T := Fm F) 1 (d_gen dom) (2 ^ (b + lam)) c,
    vsharing (T := Fm F) pp (2 * 2 ^ lam) (2 ^ b) out
      (slots (T := Fm F) pp rearrange b (b + lam) (coset_coeffs (T := Fm F) g c)) &
    forall ord dead bad w sid, hash_ok ord ->
      ~~ (dead 0%N || bad 0%N) -> (live_count (p_n pp) dead < p_n pp)%N ->
      (forall p, (p < p_n pp)%N -> bad p -> decode (vec_codec cF) (w p) = Err Generic) ->
      (maxn deg (2 * 2 ^ lam) <= live_count (p_n pp) (fun p => dead p || bad p))%N ->
      every_schedule (with_garbled (p_n pp) sid dead bad w (fun p =>
        d_ifft false pp (p_n pp) p ord cF (x p) (masks p) rearrange dom g r)) (predC dead) out].
Proof.
move=> new Edom cok b8 Hdeg Hm sv Hx; have ok := pss_new_ok new; have El := pss_new_l new.
have pr := dom_prim_inv Edom; have Hm' := fft_masks_ok new pr Hm; rewrite -El in Hdeg *.
have [_ Es _] := dom_ok Edom.
have [|c sc Ev] := interpolate (v := v) Edom; first by rewrite Es.
rewrite Es in sc Ev; exists c.
have [y [Ey Hy]] := fft1_vsharing El pr (vsharing_scale (d_size_inv dom) Hx).
have [out [Ho Hp]] := fft2_mix r ok El cok b8 pr Hdeg Hm' Hy.
exists out; split=> //.
  by apply: vsharing_ext Ho => // e j lt_e lt_j; rewrite Ev; apply: (ifft_slots ok El b8 Edom).
move=> ord dead bad w sid Hord k0 sd wb le_k; apply: (Hp ord dead bad w _ sid Hord k0 sd wb le_k) => p lt_p.
have sx : size (x p) = (2 ^ b)%N by case: Hx => S _; apply: S.
by rewrite /d_ifft (px_assert El Edom) // Ey.
Qed.

(** C75: one client [p] sends garbage in a release build.  If everybody takes part, the king stops with
    an error; if another client [q] is silent, all others get the right result. *)
Lemma c75_deg_red_rescued (F : fftField) (T : lmodType F) lam pp (gen : T) (cT : codec T) mb m masks
    (x : nat -> seq T) sec deg (r : rng T) w p :
  pss_new F false (2 ^ lam) = Ok pp -> codec_ok cT mb -> (0 < m < 256 ^ 8)%N ->
  (deg <= 4 * 2 ^ lam - 2)%N -> degred_masks false pp gen m masks -> vsharing pp deg m x sec ->
  (0 < p < p_n pp)%N -> decode (vec_codec cT) (w p) = Err Generic ->
  exists out : nat -> seq T, vsharing pp (2 * 2 ^ lam) m out sec /\
    forall ord sid, hash_ok ord ->
      let prog p := deg_red false pp (p_n pp) p ord cT (x p) (masks p) r in
      king_fails (with_garbled (p_n pp) sid pred0 (pred1 p) w prog) (Err Generic) /\
      forall q, (0 < q < p_n pp)%N -> q != p ->
        every_schedule (with_garbled (p_n pp) sid (pred1 q) (pred1 p) w prog) (predC (pred1 q)) out.
Proof.
move=> new cok m8 Hdeg Hm Hx pI wp; have ok := pss_new_ok new; have El := pss_new_l new.
have [m0 _] := andP m8; have En := ppn ok; have l0 := pp_l_gt0 ok.
have sx : forall p, (p < p_n pp)%N -> size (x p) = m by case: Hx.
have [|out [Hout H]] := c75_release_deg_red r new cok m8 _ Hm Hx; first by lia.
exists out; split=> // ord sid Ho prog; have [p0 pn] := andP pI; split=> [|q qI qp].
  pose w' q := if q == p then w p else enc (vec_codec cT) (zipmap +%R (x q) (dr_in (masks q))).
  have := @c74_deg_red_garbled F T false lam pp gen cT m masks x r w' sid ord p new m0 Hm sx pI.
  rewrite /w' eqxx => /(_ wp); congr (king_fails _ _).
  apply/eq_in_map => q; rewrite mem_iota add0n => /andP[_ qn] /=; congr (pthread _ _).
  by rewrite /sending /prog /w'; case: (q =P p) => [->//|_]; case: q qn => // q _.
apply: H => //.
- by have [q0 _] := andP qI; rewrite /= negb_or !(eq_sym 0%N) -!lt0n q0 p0.
- exact: live_one.
- by move=> i _ /eqP ->.
by rewrite live_two // geq_max En El; lia.
Qed.
