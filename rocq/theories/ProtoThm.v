(** Theorems about the distributed protocols. *)
From mathcomp Require Import all_ssreflect all_algebra.
From mathcomp Require Import zify.
From Verif Require Import RingTac Base ModelField ModelUtils ModelPss ModelPack ModelFft ModelNet.
From Verif Require Import ModelProto Spec SpecNet SpecProto NetProofs KingProofs KingFail RoundProofs NetThm.
From Verif Require Import FieldProofs UtilsProofs PssProofs PackProofs FftProofs ProtoProofs DegProofs.
From Verif Require Import PpProofs.
Set Implicit Arguments.
Unset Strict Implicit.
Unset Printing Implicit Defensive.
Import GRing.Theory.
Local Open Scope ring_scope.

Lemma pss_new_l (F : fftField) dbg lam (pp : pss F) : pss_new F dbg lam = Ok pp -> p_l pp = lam.
Proof.
rewrite /pss_new; do ![case: (dassert _ _) => [[]|//|//]; rewrite [rbind _ _]/=
    | case: (unwrap _) => [?|//|//]; rewrite [rbind _ _]/=].
by case=> <-.
Qed.

Lemma yields_prog A n (nobody : bool) prog (out : nat -> A) : (0 < n)%N ->
  (forall ords, (forall i, hash_ok (ords i)) ->
     king_prog n (fun d => (d != 0%N) && (nobody ==> (n <= d)%N)) (prog ords) out) ->
  yields n nobody prog out.
Proof.
move=> n0 H ords sid d f ms Ho d0 Hd.
apply: (king_party_schedules (dok := fun d => (d != 0%N) && (nobody ==> (n <= d)%N))) => //.
- by rewrite -lt0n n0 leqnn implybT.
- by rewrite d0; apply/implyP.
exact/pthread_party/H.
Qed.

Lemma yields_prog' A n prog (out : nat -> A) : (0 < n)%N ->
  (forall ords, (forall i, hash_ok (ords i)) ->
     king_prog n (fun d => d != 0%N) (prog ords) out) ->
  yields n false prog out.
Proof.
move=> n0 H; apply: yields_prog => // ords /H; apply: king_prog_dok.
by move=> d /andP[].
Qed.

Section Masks.
Variable F : fftField.
Variables (dbg : bool) (pp : pss F) (lam b : nat).
Hypothesis new : pss_new F dbg (2 ^ lam) = Ok pp.
  Local Notation N := (2 ^ (b + lam))%N.

Lemma fft_masks_ok rearrange g gen masks : N.-primitive_root gen ->
  fft_masks dbg pp rearrange g gen N masks -> masks_ok pp lam b rearrange g gen masks.
Proof.
have ok := pss_new_ok new; have El := pss_new_l new => pr H.
have ext (masks' : nat -> fft_mask F) : (forall p, (p < p_n pp)%N -> masks p = masks' p) ->
    masks_ok pp lam b rearrange g gen masks' -> masks_ok pp lam b rearrange g gen masks.
  move=> E [v [H1 H2]]; exists v; split; [apply: vsharing_ext H1|apply: vsharing_ext H2] => // p lt_p;
  by rewrite E.
case: H => [E|[v [r1 [r2 [s [Es E]]]]]].
  apply: ext (mask_zero_ok pp lam b rearrange g gen) => p /E ->.
  by rewrite El expnD mulnK ?expn_gt0.
by apply: ext E _; have [_] := mask_sample_ok ok El (FftMask [::] [::]) pr Es.
Qed.

Variable T : lmodType F.

Lemma degred_masks_ok (gen : T) m masks : (0 < m)%N ->
  degred_masks dbg pp gen m masks -> degred_ok pp m masks.
Proof.
have ok := pss_new_ok new => m0 H.
have ext (masks' : nat -> degred_mask T) : (forall p, (p < p_n pp)%N -> masks p = masks' p) ->
    degred_ok pp m masks' -> degred_ok pp m masks.
  move=> E [v [H1 H2]]; exists v; split; [apply: vsharing_ext H1|apply: vsharing_ext H2] => // p lt_p;
  by rewrite E.
case: H => [E|[v [r1 [r2 [s [Es E]]]]]]; first exact: ext (degred_zero_ok T pp m).
by apply: ext E _; have [_] := degred_sample_ok ok (degred_mask_zero T 0) m0 Es.
Qed.

Lemma msm_masks_ok (gen : T) masks : msm_masks dbg pp gen masks -> msm_ok pp masks.
Proof.
have ok := pss_new_ok new => H.
have ext (masks' : nat -> msm_mask T) : (forall p, (p < p_n pp)%N -> masks p = masks' p) ->
    msm_ok pp masks' -> msm_ok pp masks.
  move=> E [v [H1 H2]]; exists v; split; [apply: shared_ext H1|apply: shared_ext H2] => // p lt_p;
  by rewrite E.
case: H => [E|[v [r1 [s [Es E]]]]]; first exact: ext (msm_zero_ok T pp).
by apply: ext E _; have [_] := msm_sample_ok ok (msm_mask_zero T) Es.
Qed.

End Masks.

Lemma n_gt0 (F : fftField) dbg lam (pp : pss F) : pss_new F dbg (2 ^ lam) = Ok pp -> (0 < p_n pp)%N.
Proof. by move=> new; rewrite (ltn_trans _ (n_gt1 (pss_new_ok new))). Qed.

Local Notation Fm F := [lmodType F of F^o].

(** every vector of domain size is the vector of values of a polynomial *)
Lemma interpolate (F : fftField) N (dom : domain F) (v : seq F) :
  domain_new F N = Some dom -> size v = d_size dom ->
  exists2 c : seq F, size c = d_size dom & v = evals (T := Fm F) 1 (d_gen dom) (d_size dom) c.
Proof.
move=> Edom sv; have [dok _ Eo _] := domain_new_ok Edom.
exists (ifft dom (v : seq (Fm F))); first exact: size_ifft.
rewrite -[LHS](ifftK (T := Fm F) dok sv) fft_mkseq ?size_ifft //.
by apply: eq_map => i; rewrite /element Eo.
Qed.

Lemma same_secrets (F : fftField) (T : lmodType F) (pp : pss F) m out out' (sec : nat -> nat -> T) :
  pp_ok pp -> vsharing pp (2 * p_l pp) m out sec -> vsharing pp (2 * p_l pp) m out' sec ->
  forall e, (e < m)%N -> unpack pp (mkseq (fun p => (out p)`_e) (p_n pp)) =
                         unpack pp (mkseq (fun p => (out' p)`_e) (p_n pp)).
Proof.
move=> ok [_ H1] [_ H2] e lt_e.
by rewrite (unpack_sharing ok (H1 e lt_e)) (unpack_sharing ok (H2 e lt_e)).
Qed.

(*** theorems ***)

(** C22: the distributed transform.  [x p] are shares of bit-reversed coefficients [c]; for every
    mask, schedule, hash order and crash of one client, party [p] ends with [out p], and [out] are
    shares of the values of the polynomial on the domain. *)
Lemma c22_d_fft (F : fftField) dbg lam b pp dom (cF : codec F) mb rearrange masks x c deg (r : rng F) :
  pss_new F dbg (2 ^ lam) = Ok pp -> domain_new F (2 ^ (b + lam)) = Some dom ->
  codec_ok cF mb -> (2 ^ b < 256 ^ 8)%N -> (deg <= 4 * 2 ^ lam - 1)%N ->
  fft_masks dbg pp rearrange 1 (d_gen dom) (2 ^ (b + lam)) masks ->
  size c = (2 ^ (b + lam))%N ->
  vsharing (T := Fm F) pp deg (2 ^ b) x (strides (T := Fm F) b (b + lam) c) ->
  exists out : nat -> seq F,
    vsharing (T := Fm F) pp (2 * 2 ^ lam) (2 ^ b) out (slots (T := Fm F) pp rearrange b (b + lam)
      (evals (T := Fm F) 1 (d_gen dom) (2 ^ (b + lam)) c)) /\
    yields (p_n pp) false
      (fun ords p => d_fft dbg pp (p_n pp) p (ords 0%N) cF (x p) (masks p) rearrange dom r) out.
Proof.
move=> new Edom cok mb8 Hdeg Hm sc Hx.
have ok := pss_new_ok new; have El := pss_new_l new; rewrite -El in Hdeg.
have Hm' := fft_masks_ok new (dom_prim Edom) Hm.
have [out [Ho Hp]] := d_fft_prog ok El cok mb8 Edom dbg r Hdeg Hm' sc Hx.
exists out; split; first by rewrite -El.
apply: yields_prog' => [|ords Hords]; [exact: n_gt0 new|exact: Hp].
Qed.

(** C23: the distributed inverse transform: the input are shares of arbitrary values [v] on the
    domain, which are the values of one polynomial [c]; the output are shares of the coefficients
    of [c(g x)]. *)
Lemma c23_d_ifft (F : fftField) dbg lam b pp dom (cF : codec F) mb rearrange g masks x v deg (r : rng F) :
  pss_new F dbg (2 ^ lam) = Ok pp -> domain_new F (2 ^ (b + lam)) = Some dom ->
  codec_ok cF mb -> (2 ^ b < 256 ^ 8)%N -> (deg <= 4 * 2 ^ lam - 1)%N ->
  fft_masks dbg pp rearrange g (d_gen_inv dom) (2 ^ (b + lam)) masks ->
  size v = (2 ^ (b + lam))%N ->
  vsharing (T := Fm F) pp deg (2 ^ b) x (strides (T := Fm F) b (b + lam) v) ->
  exists (c : seq F) (out : nat -> seq F), [/\ size c = (2 ^ (b + lam))%N,
    v = evals (T := Fm F) 1 (d_gen dom) (2 ^ (b + lam)) c,
    vsharing (T := Fm F) pp (2 * 2 ^ lam) (2 ^ b) out
      (slots (T := Fm F) pp rearrange b (b + lam) (coset_coeffs (T := Fm F) g c)) &
    yields (p_n pp) false
      (fun ords p => d_ifft dbg pp (p_n pp) p (ords 0%N) cF (x p) (masks p) rearrange dom g r) out].
Proof.
move=> new Edom cok mb8 Hdeg Hm sv Hx.
have ok := pss_new_ok new; have El := pss_new_l new; rewrite -El in Hdeg.
have Hm' := fft_masks_ok new (dom_prim_inv Edom) Hm.
have [_ Es _] := dom_ok Edom.
have [|c sc Ev] := interpolate (v := v) Edom; first by rewrite Es.
rewrite Es in sc Ev; rewrite Ev in Hx.
have [out [Ho Hp]] := d_ifft_prog ok El cok mb8 Edom dbg r Hdeg Hm' sc Hx.
exists c, out; split=> //; first by rewrite -El.
apply: yields_prog' => [|ords Hords]; [exact: n_gt0 new|exact: Hp].
Qed.

(** C22, C23: debug builds reject shares that do not fill the domain, before anything is sent. *)
Lemma c22_debug_length (F : fftField) (pp : pss F) n me ord (cF : codec F) px mask rearrange dom r :
  (size px * p_l pp != d_size dom)%N ->
  d_fft true pp n me ord cF px mask rearrange dom r = CRet Panic.
Proof. by rewrite /d_fft /dassert => /negbTE ->. Qed.

Lemma c23_debug_length (F : fftField) (pp : pss F) n me ord (cF : codec F) px mask rearrange dom g r :
  (size px * p_l pp != d_size dom)%N ->
  d_ifft true pp n me ord cF px mask rearrange dom g r = CRet Panic.
Proof. by rewrite /d_ifft /dassert => /negbTE ->. Qed.

(** C24: inverse transform with shift [g] and then the transform: the values of the interpolated
    polynomial on the coset [g H]. *)
Lemma c24_ifft_then_fft (F : fftField) dbg lam b pp dom (cF : codec F) mb rearrange g masks masks'
    x v deg (r r' : rng F) :
  pss_new F dbg (2 ^ lam) = Ok pp -> domain_new F (2 ^ (b + lam)) = Some dom ->
  codec_ok cF mb -> (2 ^ b < 256 ^ 8)%N -> (deg <= 4 * 2 ^ lam - 1)%N ->
  fft_masks dbg pp true g (d_gen_inv dom) (2 ^ (b + lam)) masks ->
  fft_masks dbg pp rearrange 1 (d_gen dom) (2 ^ (b + lam)) masks' ->
  size v = (2 ^ (b + lam))%N ->
  vsharing (T := Fm F) pp deg (2 ^ b) x (strides (T := Fm F) b (b + lam) v) ->
  exists (c : seq F) (out : nat -> seq F), [/\ size c = (2 ^ (b + lam))%N,
    v = evals (T := Fm F) 1 (d_gen dom) (2 ^ (b + lam)) c,
    vsharing (T := Fm F) pp (2 * 2 ^ lam) (2 ^ b) out (slots (T := Fm F) pp rearrange b (b + lam)
      (evals (T := Fm F) g (d_gen dom) (2 ^ (b + lam)) c)) &
    yields (p_n pp) false (fun ords p =>
      do! y := d_ifft dbg pp (p_n pp) p (ords 0%N) cF (x p) (masks p) true dom g r in
      d_fft dbg pp (p_n pp) p (ords 1%N) cF y (masks' p) rearrange dom r') out].
Proof.
move=> new Edom cok mb8 Hdeg Hm Hm' sv Hx.
have ok := pss_new_ok new; have El := pss_new_l new; rewrite -El in Hdeg.
have n0 := n_gt0 new; have l0 := pp_l_gt0 ok.
have H1 := fft_masks_ok new (dom_prim_inv Edom) Hm.
have H2 := fft_masks_ok new (dom_prim Edom) Hm'.
have [_ Es _] := dom_ok Edom.
have [|c sc Ev] := interpolate (v := v) Edom; first by rewrite Es.
rewrite Es in sc Ev; rewrite Ev in Hx.
have [y [Hy Hp]] := d_ifft_prog ok El cok mb8 Edom dbg r Hdeg H1 sc Hx.
have scc : size (coset_coeffs (T := Fm F) g c) = (2 ^ (b + lam))%N by rewrite size_mkseq.
have Hd2 : (2 * p_l pp <= 4 * p_l pp - 1)%N by lia.
have [out [Ho Hp']] := d_fft_prog ok El cok mb8 Edom dbg r' Hd2 H2 scc Hy.
exists c, out; split=> //; first by rewrite -El -coset_evals.
by apply: yields_prog' => // ords Hords; apply: king_prog_bind (Hp _ _) (Hp' _ _).
Qed.

(** C24: without a shift the original values come back. *)
Lemma c24_roundtrip (F : fftField) dbg lam b pp dom (cF : codec F) mb rearrange masks masks'
    x v deg (r r' : rng F) :
  pss_new F dbg (2 ^ lam) = Ok pp -> domain_new F (2 ^ (b + lam)) = Some dom ->
  codec_ok cF mb -> (2 ^ b < 256 ^ 8)%N -> (deg <= 4 * 2 ^ lam - 1)%N ->
  fft_masks dbg pp true 1 (d_gen_inv dom) (2 ^ (b + lam)) masks ->
  fft_masks dbg pp rearrange 1 (d_gen dom) (2 ^ (b + lam)) masks' ->
  size v = (2 ^ (b + lam))%N ->
  vsharing (T := Fm F) pp deg (2 ^ b) x (strides (T := Fm F) b (b + lam) v) ->
  exists out : nat -> seq F,
    vsharing (T := Fm F) pp (2 * 2 ^ lam) (2 ^ b) out
      (slots (T := Fm F) pp rearrange b (b + lam) v) /\
    yields (p_n pp) false (fun ords p =>
      do! y := d_ifft dbg pp (p_n pp) p (ords 0%N) cF (x p) (masks p) true dom 1 r in
      d_fft dbg pp (p_n pp) p (ords 1%N) cF y (masks' p) rearrange dom r') out.
Proof.
move=> new Edom cok mb8 Hdeg Hm Hm' sv Hx.
have [c [out [_ Ev Ho Hp]]] := c24_ifft_then_fft r r' new Edom cok mb8 Hdeg Hm Hm' sv Hx.
by exists out; rewrite {1}Ev.
Qed.

(** C27: degree reduction keeps the secrets and returns sharings of degree below [2l]. *)
Lemma c27_deg_red (F : fftField) (T : lmodType F) dbg lam pp (gen : T) (cT : codec T) mb m masks x
    (sec : nat -> nat -> T) deg (r : rng T) :
  pss_new F dbg (2 ^ lam) = Ok pp -> codec_ok cT mb -> (0 < m < 256 ^ 8)%N ->
  (deg <= 4 * 2 ^ lam - 1)%N -> degred_masks dbg pp gen m masks ->
  vsharing pp deg m x sec ->
  exists out : nat -> seq T, vsharing pp (2 * 2 ^ lam) m out sec /\
    yields (p_n pp) false
      (fun ords p => deg_red dbg pp (p_n pp) p (ords 0%N) cT (x p) (masks p) r) out.
Proof.
move=> new cok m8 Hdeg Hm Hx.
have ok := pss_new_ok new; have El := pss_new_l new; rewrite -El in Hdeg *.
have [m0 _] := andP m8; have Hm' := degred_masks_ok new m0 Hm.
have [out [Ho Hp]] := deg_red_prog ok cok dbg r m8 Hdeg Hm' Hx.
exists out; split=> //.
apply: yields_prog' => [|ords Hords]; [exact: n_gt0 new|exact: Hp].
Qed.

(** C27: products of sharings (of field elements with module elements) are such inputs. *)
Lemma c27_products (F : fftField) (T : lmodType F) dbg lam pp (gen : T) (cT : codec T) mb m masks
    (s : nat -> seq F) ss (x : nat -> seq T) (sx : nat -> nat -> T) (r : rng T) :
  pss_new F dbg (2 ^ lam) = Ok pp -> codec_ok cT mb -> (0 < m < 256 ^ 8)%N ->
  degred_masks dbg pp gen m masks ->
  vsharing (T := Fm F) pp (2 * 2 ^ lam) m s ss -> vsharing pp (2 * 2 ^ lam) m x sx ->
  exists out : nat -> seq T,
    vsharing pp (2 * 2 ^ lam) m out (fun e j => ss e j *: sx e j) /\
    yields (p_n pp) false (fun ords p => deg_red dbg pp (p_n pp) p (ords 0%N) cT
      (zipmap (fun a y => a *: y) (s p) (x p)) (masks p) r) out.
Proof.
move=> new cok m8 Hm /vsharingP[Hs1 Hs2] /vsharingP[Hx1 Hx2].
have ok := pss_new_ok new; have El := pss_new_l new; have l0 := pp_l_gt0 ok.
apply: (c27_deg_red (deg := (2 * 2 ^ lam + 2 * 2 ^ lam).-1) r new cok m8 _ Hm).
  by rewrite -El; lia.
apply/vsharingP; split=> [p lt_p|e lt_e]; first by rewrite size_zipmap Hs1 // Hx1 // minnn.
have l2 : (0 < 2 * 2 ^ lam)%N by rewrite -El; lia.
apply: shared_ext (shared_mul l2 (Hs2 e lt_e) (Hx2 e lt_e)) => // i lt_i.
by rewrite (nth_zipmap _ 0 0) ?Hs1 ?Hx1.
Qed.

(** C27: debug builds reject masks of another length, before anything is sent. *)
Lemma c27_debug_length (F : fftField) (T : lmodType F) (pp : pss F) n me ord (cT : codec T) x
    (mask : degred_mask T) r :
  (size x != size (dr_in mask)) || (size x != size (dr_out mask)) ->
  deg_red true pp n me ord cT x mask r = CRet Panic.
Proof.
by rewrite /deg_red /dassert; case: eqP => //= _; case: eqP.
Qed.

(** C29: the distributed multi-scalar multiplication: the output are shares of [l] copies of the
    sum of all [scalar * base]. *)
Lemma c29_d_msm (F : fftField) (T : lmodType F) dbg lam pp (gen : T) (cT : codec T) mb m masks
    (bases : nat -> seq T) (scalars : nat -> seq F) (bv : seq T) (sv : seq F) :
  pss_new F dbg (2 ^ lam) = Ok pp -> codec_ok cT mb ->
  msm_masks dbg pp gen masks ->
  vsharing pp (2 * 2 ^ lam) m bases (blocks pp bv) ->
  vsharing (T := Fm F) pp (2 * 2 ^ lam) m scalars (blocks (T := Fm F) pp sv) ->
  exists out : nat -> T,
    sharing pp (2 * 2 ^ lam) (mkseq out (p_n pp))
      (nseq (2 ^ lam) (\sum_(i < m * 2 ^ lam) sv`_i *: bv`_i)) /\
    yields (p_n pp) false
      (fun ords p => d_msm dbg pp (p_n pp) p (ords 0%N) cT (bases p) (scalars p) (masks p)) out.
Proof.
move=> new cok Hm Hb Hs; have ok := pss_new_ok new; have El := pss_new_l new; rewrite -El in Hb Hs *.
have [out [Ho Hp]] := d_msm_prog ok cok dbg (msm_masks_ok new Hm) Hb Hs.
exists out; split; last by apply: yields_prog' => [|ords Hords]; [exact: n_gt0 new|exact: Hp].
move/sharingP: Ho; congr (sharing _ _ _ _).
apply: (@eq_from_nth _ 0); rewrite size_mkseq ?size_nseq // => i lt_i.
rewrite nth_mkseq // nth_nseq lt_i /inner /blocks.
by rewrite (big_split_blocks m (p_l pp) (fun i => sv`_i *: bv`_i)).
Qed.

(** C30: different numbers of bases and scalars. *)
Lemma c30_length_mismatch (F : fftField) (T : lmodType F) dbg (pp : pss F) n me ord (cT : codec T)
    bases scalars mask :
  size bases <> size scalars ->
  d_msm dbg pp n me ord cT bases scalars mask = CRet (if dbg then Panic else Err Generic).
Proof.
move=> /eqP/negbTE E; rewrite /d_msm /dassert /rassert E implybF.
by case: dbg => //=; rewrite /msm E.
Qed.

(** C31: the partial products.  In debug builds the king insists on hearing from everybody. *)
Lemma c31_d_pp (F : fftField) dbg lam pp (cF : codec F) mb m gen masks
    (xn xd : nat -> seq F) (num den : seq F) deg (r r' : rng F) :
  pss_new F dbg (2 ^ lam) = Ok pp -> codec_ok cF mb -> (0 < m)%N -> (2 * m < 256 ^ 8)%N ->
  (deg <= 4 * 2 ^ lam - 1)%N -> degred_masks (T := Fm F) dbg pp gen m masks ->
  size num = (m * 2 ^ lam)%N -> size den = (m * 2 ^ lam)%N -> all (fun z => z != 0) den ->
  vsharing (T := Fm F) pp deg m xn (blocks (T := Fm F) pp num) ->
  vsharing (T := Fm F) pp deg m xd (blocks (T := Fm F) pp den) ->
  exists out : nat -> seq F,
    vsharing (T := Fm F) pp (2 * 2 ^ lam) m out
      (blocks (T := Fm F) pp (running_products num den)) /\
    yields (p_n pp) dbg (fun ords p =>
      d_pp dbg pp (p_n pp) p (ords 0%N) (ords 1%N) cF (xn p) (xd p) (masks p) r r') out.
Proof.
move=> new cok m0 m8 Hdeg Hm sn sd nz Hn Hd.
have ok := pss_new_ok new; have El := pss_new_l new; rewrite -El in Hdeg sn sd *.
have Hm' := degred_masks_ok new m0 Hm.
have [out [Ho Hp]] := d_pp_prog ok cok dbg (conj m0 m8) Hdeg sn sd Hn Hd r r' nz Hm'.
exists out; split=> //.
apply: yields_prog => [|ords Hords]; [exact: n_gt0 new|exact: Hp].
Qed.

(** C32: with a zero denominator the king panics in every execution and nobody else finishes. *)
Lemma c32_zero_denominator (F : fftField) dbg lam pp (cF : codec F) mb m masks
    (xn xd : nat -> seq F) (num den : seq F) deg (r r' : rng F) ord ord' sid :
  pss_new F dbg (2 ^ lam) = Ok pp -> codec_ok cF mb -> (0 < m)%N -> (2 * m < 256 ^ 8)%N ->
  (deg <= 4 * 2 ^ lam - 1)%N ->
  size num = (m * 2 ^ lam)%N -> size den = (m * 2 ^ lam)%N -> 0 \in den ->
  vsharing (T := Fm F) pp deg m xn (blocks (T := Fm F) pp num) ->
  vsharing (T := Fm F) pp deg m xd (blocks (T := Fm F) pp den) ->
  hash_ok ord ->
  king_dies (mkseq (fun p => pthread sid
    (d_pp dbg pp (p_n pp) p ord ord' cF (xn p) (xd p) (masks p) r r')) (p_n pp)).
Proof.
move=> new cok m0 m8 Hdeg sn sd z0 Hn Hd Hord.
have ok := pss_new_ok new; have El := pss_new_l new; rewrite -El in Hdeg sn sd.
have n0 := n_gt0 new; have l0 := pp_l_gt0 ok; have En := ppn ok.
pose x p := [seq u * 1 | u <- xn p] ++ [seq u * 1 | u <- xd p].
have Ek : d_pp_king dbg pp r (received_from x (p_n pp) (p_n pp) ord) = Panic.
  rewrite (d_pp_kingE ok dbg (conj m0 m8) Hdeg sn sd Hn Hd) //.
  rewrite /dassert /rassert; case: ifP => // _ /=.
  by have /negbTE -> : ~~ all (fun z => z != 0) den by apply/allPn; exists 0; rewrite ?negbK.
have sx p : (p < p_n pp)%N -> size (x p) = (m + m)%N.
  by case: (numden_vsharing ok (conj m0 m8) Hdeg sn sd Hn Hd) => H _ /H.
have mms : (m + m < 256 ^ 8)%N by rewrite addnn -mul2n.
case E: (csokr_ser (vec_codec cF) (p_n pp) 0 ord (x 0%N) (p_t pp)) => [|||st K|] //.
have Est : st = nseq (p_n pp) None by move: E => [<-].
rewrite Est in E.
have HK : K (store_without (p_n pp) (fun i => enc (vec_codec cF) (x i)) (p_n pp)) =
    CRet (Ok (Some (received_from x (p_n pp) (p_n pp) ord))).
  apply: csokr_king E => //; first by rewrite -lt0n.
    by rewrite (ppt ok); lia.
  by move=> i lt_i; apply: (vec_dec (T := Fm F) cok mms); apply: sx.
pose rest p (o : option (received (seq F))) :=
  do! king_answer := clift (king_map (d_pp_king dbg pp r) o) in
  do! w := crokss_ser (vec_codec cF) (p_n pp) p king_answer in
  deg_red dbg pp (p_n pp) p ord' (T := Fm F) cF [seq u * 1^-1 | u <- w] (masks p) r'.
have Ep p : d_pp dbg pp (p_n pp) p ord ord' cF (xn p) (xd p) (masks p) r r' =
    cbind (csokr_ser (vec_codec cF) (p_n pp) p ord (x p) (p_t pp)) (rest p).
  by rewrite /d_pp /d_pp_with oner_eq0.
apply: (@king_panics _ _ _ _ (fun st => cbind (K st) (rest 0%N)) (fun i => enc (vec_codec cF) (x i))
  (fun p b => do! w := clift (ModelNet.decode (vec_codec cF) b) in
     deg_red dbg pp (p_n pp) p ord' (T := Fm F) cF [seq u * 1^-1 | u <- w] (masks p) r')) => //.
- by rewrite Ep E.
- move=> p /andP[p0 lt_p]; rewrite Ep /csokr_ser /client_send_or_king_receive.
  by rewrite -[p]prednK.
rewrite HK; transitivity (rest 0%N (Some (received_from x (p_n pp) (p_n pp) ord))) => //.
by rewrite /rest /king_map Ek.
Qed.

(** C25: the secrets obtained do not depend on the masks. *)
Lemma c25_d_fft (F : fftField) dbg lam b pp dom (cF : codec F) mb rearrange masks masks' x c deg
    (r r' : rng F) :
  pss_new F dbg (2 ^ lam) = Ok pp -> domain_new F (2 ^ (b + lam)) = Some dom ->
  codec_ok cF mb -> (2 ^ b < 256 ^ 8)%N -> (deg <= 4 * 2 ^ lam - 1)%N ->
  fft_masks dbg pp rearrange 1 (d_gen dom) (2 ^ (b + lam)) masks ->
  fft_masks dbg pp rearrange 1 (d_gen dom) (2 ^ (b + lam)) masks' ->
  size c = (2 ^ (b + lam))%N ->
  vsharing (T := Fm F) pp deg (2 ^ b) x (strides (T := Fm F) b (b + lam) c) ->
  exists out out' : nat -> seq F, [/\
    yields (p_n pp) false (fun ords p =>
      d_fft dbg pp (p_n pp) p (ords 0%N) cF (x p) (masks p) rearrange dom r) out,
    yields (p_n pp) false (fun ords p =>
      d_fft dbg pp (p_n pp) p (ords 0%N) cF (x p) (masks' p) rearrange dom r') out' &
    forall e, (e < 2 ^ b)%N -> unpack (T := Fm F) pp (mkseq (fun p => (out p)`_e) (p_n pp)) =
                               unpack (T := Fm F) pp (mkseq (fun p => (out' p)`_e) (p_n pp))].
Proof.
move=> new Edom cok mb8 Hdeg Hm Hm' sc Hx.
have [out [Ho Hp]] := c22_d_fft r new Edom cok mb8 Hdeg Hm sc Hx.
have [out' [Ho' Hp']] := c22_d_fft r' new Edom cok mb8 Hdeg Hm' sc Hx.
exists out, out'; split=> //; rewrite -(pss_new_l new) in Ho Ho'.
exact: same_secrets (pss_new_ok new) Ho Ho'.
Qed.

Lemma c25_d_ifft (F : fftField) dbg lam b pp dom (cF : codec F) mb rearrange g masks masks' x v deg
    (r r' : rng F) :
  pss_new F dbg (2 ^ lam) = Ok pp -> domain_new F (2 ^ (b + lam)) = Some dom ->
  codec_ok cF mb -> (2 ^ b < 256 ^ 8)%N -> (deg <= 4 * 2 ^ lam - 1)%N ->
  fft_masks dbg pp rearrange g (d_gen_inv dom) (2 ^ (b + lam)) masks ->
  fft_masks dbg pp rearrange g (d_gen_inv dom) (2 ^ (b + lam)) masks' ->
  size v = (2 ^ (b + lam))%N ->
  vsharing (T := Fm F) pp deg (2 ^ b) x (strides (T := Fm F) b (b + lam) v) ->
  exists out out' : nat -> seq F, [/\
    yields (p_n pp) false (fun ords p =>
      d_ifft dbg pp (p_n pp) p (ords 0%N) cF (x p) (masks p) rearrange dom g r) out,
    yields (p_n pp) false (fun ords p =>
      d_ifft dbg pp (p_n pp) p (ords 0%N) cF (x p) (masks' p) rearrange dom g r') out' &
    forall e, (e < 2 ^ b)%N -> unpack (T := Fm F) pp (mkseq (fun p => (out p)`_e) (p_n pp)) =
                               unpack (T := Fm F) pp (mkseq (fun p => (out' p)`_e) (p_n pp))].
Proof.
move=> new Edom cok mb8 Hdeg Hm Hm' sv Hx.
have ok := pss_new_ok new; have El := pss_new_l new; rewrite -El in Hdeg.
have H1 := fft_masks_ok new (dom_prim_inv Edom) Hm.
have H2 := fft_masks_ok new (dom_prim_inv Edom) Hm'.
have [_ Es _] := dom_ok Edom.
have [|c sc Ev] := interpolate (v := v) Edom; first by rewrite Es.
rewrite Es in sc Ev; rewrite Ev in Hx.
have [out [Ho Hp]] := d_ifft_prog ok El cok mb8 Edom dbg r Hdeg H1 sc Hx.
have [out' [Ho' Hp']] := d_ifft_prog ok El cok mb8 Edom dbg r' Hdeg H2 sc Hx.
exists out, out'; split=> //; last exact: same_secrets Ho Ho'.
  by apply: yields_prog' => [|ords Hords]; [exact: n_gt0 new|exact: Hp].
by apply: yields_prog' => [|ords Hords]; [exact: n_gt0 new|exact: Hp'].
Qed.

Lemma c25_deg_red (F : fftField) (T : lmodType F) dbg lam pp (gen : T) (cT : codec T) mb m
    masks masks' x (sec : nat -> nat -> T) deg (r r' : rng T) :
  pss_new F dbg (2 ^ lam) = Ok pp -> codec_ok cT mb -> (0 < m < 256 ^ 8)%N ->
  (deg <= 4 * 2 ^ lam - 1)%N ->
  degred_masks dbg pp gen m masks -> degred_masks dbg pp gen m masks' ->
  vsharing pp deg m x sec ->
  exists out out' : nat -> seq T, [/\
    yields (p_n pp) false (fun ords p =>
      deg_red dbg pp (p_n pp) p (ords 0%N) cT (x p) (masks p) r) out,
    yields (p_n pp) false (fun ords p =>
      deg_red dbg pp (p_n pp) p (ords 0%N) cT (x p) (masks' p) r') out' &
    forall e, (e < m)%N -> unpack pp (mkseq (fun p => (out p)`_e) (p_n pp)) =
                           unpack pp (mkseq (fun p => (out' p)`_e) (p_n pp))].
Proof.
move=> new cok m8 Hdeg Hm Hm' Hx.
have [out [Ho Hp]] := c27_deg_red r new cok m8 Hdeg Hm Hx.
have [out' [Ho' Hp']] := c27_deg_red r' new cok m8 Hdeg Hm' Hx.
exists out, out'; split=> //; rewrite -(pss_new_l new) in Ho Ho'.
exact: same_secrets (pss_new_ok new) Ho Ho'.
Qed.

Lemma c25_d_msm (F : fftField) (T : lmodType F) dbg lam pp (gen : T) (cT : codec T) mb m masks masks'
    (bases : nat -> seq T) (scalars : nat -> seq F) (bv : seq T) (sv : seq F) :
  pss_new F dbg (2 ^ lam) = Ok pp -> codec_ok cT mb ->
  msm_masks dbg pp gen masks -> msm_masks dbg pp gen masks' ->
  vsharing pp (2 * 2 ^ lam) m bases (blocks pp bv) ->
  vsharing (T := Fm F) pp (2 * 2 ^ lam) m scalars (blocks (T := Fm F) pp sv) ->
  exists out out' : nat -> T, [/\
    yields (p_n pp) false (fun ords p =>
      d_msm dbg pp (p_n pp) p (ords 0%N) cT (bases p) (scalars p) (masks p)) out,
    yields (p_n pp) false (fun ords p =>
      d_msm dbg pp (p_n pp) p (ords 0%N) cT (bases p) (scalars p) (masks' p)) out' &
    unpack pp (mkseq out (p_n pp)) = unpack pp (mkseq out' (p_n pp))].
Proof.
move=> new cok Hm Hm' Hb Hs; have ok := pss_new_ok new.
have [out [Ho Hp]] := c29_d_msm new cok Hm Hb Hs.
have [out' [Ho' Hp']] := c29_d_msm new cok Hm' Hb Hs.
exists out, out'; split=> //; rewrite -(pss_new_l new) in Ho Ho'.
by rewrite (unpack_sharing ok Ho) (unpack_sharing ok Ho').
Qed.
