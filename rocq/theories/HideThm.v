(** Theorems about what the king learns. *)
From mathcomp Require Import all_ssreflect all_algebra.
From mathcomp Require Import zify.
From Verif Require Import RingTac Base ModelField ModelUtils ModelPss ModelPack ModelFft ModelNet.
From Verif Require Import ModelProto Spec SpecNet SpecProto RoundProofs.
From Verif Require Import FieldProofs UtilsProofs PssProofs PackProofs FftProofs ProtoProofs DegProofs.
From Verif Require Import PpProofs MaskProofs ProtoThm ExampleField.
Set Implicit Arguments.
Unset Strict Implicit.
Unset Printing Implicit Defensive.
Import GRing.Theory.
Local Open Scope ring_scope.

Local Notation Fm F := [lmodType F of F^o].

Lemma enc_vec_inj (F : fftField) (T : lmodType F) (c : codec T) mb m (s1 s2 : seq T) :
  codec_ok c mb -> (m < 256 ^ 8)%N -> size s1 = m -> size s2 = m ->
  enc (vec_codec c) s1 = enc (vec_codec c) s2 -> s1 = s2.
Proof.
move=> cok m8 z1 z2 E; have := vec_dec cok m8 z1; rewrite E (vec_dec cok m8 z2).
by case.
Qed.

(** masks for a vector [y'] that make it look like the masked vector [y], for the transforms *)
Lemma fft_switch (F : fftField) dbg lam b (pp : pss F) (cF : codec F) mb rearrange g gen
    (prog prog' : nat -> fft_mask F -> cproc (seq F)) y sec y' sec' values r_in r_out masks :
  pss_new F dbg (2 ^ lam) = Ok pp -> (2 ^ (b + lam))%N.-primitive_root gen ->
  codec_ok cF mb -> (2 ^ b < 256 ^ 8)%N ->
  vsharing (T := Fm F) pp (2 * 2 ^ lam) (2 ^ b) y sec ->
  vsharing (T := Fm F) pp (2 * 2 ^ lam) (2 ^ b) y' sec' ->
  (forall p mask, (0 < p < p_n pp)%N ->
     sends_only (prog p mask) (enc (vec_codec cF) (zipmap +%R (y p) (fm_in mask)))) ->
  (forall p mask, (0 < p < p_n pp)%N ->
     sends_only (prog' p mask) (enc (vec_codec cF) (zipmap +%R (y' p) (fm_in mask)))) ->
  fft_mask_sample dbg pp rearrange g gen (2 ^ (b + lam)) values r_in r_out = Ok masks ->
  exists values' r_in',
    (forall r_out', exists masks',
       fft_mask_sample dbg pp rearrange g gen (2 ^ (b + lam)) values' r_in' r_out' = Ok masks' /\
       forall p, (0 < p < p_n pp)%N -> exists msg,
         sends_only (prog p (nth (FftMask [::] [::]) masks p)) msg /\
         sends_only (prog' p (nth (FftMask [::] [::]) masks' p)) msg) /\
    (forall values'' r_in'' r_out'' masks'',
       fft_mask_sample dbg pp rearrange g gen (2 ^ (b + lam)) values'' r_in'' r_out'' = Ok masks'' ->
       (forall p, (0 < p < p_n pp)%N -> exists msg,
         sends_only (prog p (nth (FftMask [::] [::]) masks p)) msg /\
         sends_only (prog' p (nth (FftMask [::] [::]) masks'' p)) msg) ->
       (forall i, (i < 2 ^ (b + lam))%N -> values'' i = values' i) /\
       (forall i, (i < 2 ^ b * p_t pp)%N -> r_in'' i = r_in' i)).
Proof.
move=> new pr cok b8 Hy Hy' Hs Hs' Es; have ok := pss_new_ok new; have El := pss_new_l new.
rewrite -El in Hy Hy'; have m0 : (0 < 2 ^ b)%N by rewrite expn_gt0.
have Em : (2 ^ b * p_l pp = 2 ^ (b + lam))%N by rewrite El expnD.
have sz (f : nat -> F) : size (mkseq f (2 ^ (b + lam))) = (2 ^ b * p_l pp)%N by rewrite size_mkseq Em.
have [ins [outs [Ei Es']]] := fft_sampleE ok El dbg rearrange g values r_in r_out pr.
rewrite Es' in Es; have {Es'} Es := Ok_inj Es.
have Em' p : (p < p_n pp)%N -> fm_in (nth (FftMask [::] [::]) masks p) = ins p.
  by move=> lt_p; rewrite -Es nth_mkseq.
have [v' [r' [sv' [ins' Ei' Eq] Un]]] := mask_switch (T := Fm F) ok m0 Hy Hy' (sz values) Ei.
have Ev : mkseq (nth 0 v') (2 ^ (b + lam)) = v' by rewrite -Em -sv' mkseq_nth.
exists (nth 0 v'), r'; split.
  move=> r_out'; have [ins2 [outs2 [Ei2 E2]]] := fft_sampleE ok El dbg rearrange g (nth 0 v') r' r_out' pr.
  rewrite Ev Ei' in Ei2; have {}Ei2 := Ok_inj Ei2.
  exists (mkseq (fun p => FftMask (ins2 p) (outs2 p)) (p_n pp)); split=> // p pI.
  have [_ lt_p] := andP pI; eexists; split; first exact: Hs.
  have := Hs' p (nth (FftMask [::] [::]) (mkseq (fun p => FftMask (ins2 p) (outs2 p)) (p_n pp)) p) pI.
  congr sends_only; congr (enc _ _); rewrite nth_mkseq //= Em' // -(mkseq_inj_in Ei2) //.
  exact/esym/Eq.
move=> values'' r_in'' r_out'' masks'' E2 H.
have [ins2 [outs2 [Ei2 E2']]] := fft_sampleE ok El dbg rearrange g values'' r_in'' r_out'' pr.
rewrite E2' in E2; have {E2'} E2 := Ok_inj E2.
have [||Ev2 Er] := Un _ _ _ _ Ei2; last first.
- by split=> // i lt_i; rewrite -Ev2 nth_mkseq.
- move=> p pI; have [msg [S1 S2]] := H p pI; have [_ lt_p] := andP pI.
  have := sends_only_inj S1 (Hs _ _ pI); rewrite (sends_only_inj S2 (Hs' _ _ pI)).
  rewrite Em' // -E2 nth_mkseq //= => /esym.
  have sy : size (y p) = (2 ^ b)%N by case: Hy => Hz _; apply: Hz.
  have sy' : size (y' p) = (2 ^ b)%N by case: Hy' => Hz _; apply: Hz.
  have szi u w : size u = (2 ^ b * p_l pp)%N -> forall i2, rbind (pack_vec (T := Fm F) dbg pp u w)
      (@transpose _) = Ok (mkseq i2 (p_n pp)) -> size (i2 p) = (2 ^ b)%N.
    move=> su i2 E; have [o [Eo [Ho _]]] := pack_vec_deal (T := Fm F) ok dbg w m0 su.
    by rewrite E in Eo; rewrite (mkseq_inj_in (Ok_inj Eo) lt_p) Ho.
  apply: (enc_vec_inj (T := Fm F) cok b8); rewrite size_zipmap.
  + by rewrite sy (szi _ _ (sz values) _ Ei) minnn.
  by rewrite sy' (szi _ _ (sz values'') _ Ei2) minnn.
exact: sz.
Qed.

Lemma pack_dbg (F : fftField) (T : lmodType F) (pp : pss F) dbg (s sh : seq T) (q : rng T) :
  pack true pp s q = Ok sh -> pack dbg pp s q = Ok sh.
Proof.
case: dbg => //; rewrite /pack /pack_pts /dassert /rassert /=.
by case: ifP => //= _; case: ifP.
Qed.

(** dual code: vanishes on the values of polynomials with at most four coefficients in the seven
    client points for packing factor 2 over 17 elements *)
Definition dual17 (k : nat) : seq F17 := nth [::]
  [:: [seq i%:R | i <- [:: 9; 11; 5; 13; 7; 10; 13]%N];
      [seq i%:R | i <- [:: 13; 7; 7; 4; 5; 6; 9]%N];
      [seq i%:R | i <- [:: 15; 6; 3; 13; 6; 7; 1]%N]] k.

Definition dual_val (k : nat) (f : nat -> F17) : F17 := \sum_(i < 7) (dual17 k)`_i * f i.+1.

Definition dual_comp (k : nat) (f : nat -> F17) : F17 :=
  foldr +%R 0 (mkseq (fun i => (dual17 k)`_i * f i.+1) 7).

Lemma dual_valE k f : dual_val k f = dual_comp k f.
Proof.
rewrite /dual_val /dual_comp (foldr_sum (F := F17) (T := T17)) size_mkseq.
by apply: eq_bigr => i _; rewrite nth_mkseq.
Qed.

Lemma dual_shared k f g : (k < 3)%N -> shared (T := T17) pp2 4 f g -> dual_val k f = 0.
Proof.
move=> k3 [c [sc Hf _]].
have -> : dual_val k f = \sum_(j < size c) (\sum_(i < 7) (dual17 k)`_i * share_pt pp2 i.+1 ^+ j) * c`_j.
  rewrite /dual_val (eq_bigr (fun i : 'I_7 => \sum_(j < size c) (dual17 k)`_i * (share_pt pp2 i.+1 ^+ j * c`_j))).
    rewrite exchange_big; apply: eq_bigr => j _ /=; rewrite big_distrl /=.
    by apply: eq_bigr => i _; rewrite mulrA.
  move=> i _; rewrite Hf; last by have := ltn_ord i; rewrite (ppn pp2_ok).
  by rewrite /pval big_distrr.
rewrite big1 // => j _.
suff E i : (i < 4)%N -> \sum_(i0 < 7) (dual17 k)`_i0 * share_pt pp2 i0.+1 ^+ i = 0.
  by rewrite E ?mul0r //; apply: leq_trans (ltn_ord j) sc.
move=> i4; have := dual_valE k (fun p => share_pt pp2 p ^+ i); rewrite /dual_val => ->.
by case: k k3 => [|[|[|//]]] _; case: i i4 => [|[|[|[|//]]]] _; apply/eqP; vm_compute.
Qed.

Definition all17 : seq F17 := [seq i%:R | i <- iota 0 17].

Lemma mem_all17 x : x \in all17.
Proof.
apply/mapP; exists (x : nat); last by rewrite -[LHS](natr_Zp x).
by rewrite mem_iota add0n /=; apply: leq_trans (ltn_ord x) _.
Qed.

Definition sq17 (s : seq F17) (a b : F17) : seq F17 :=
  [seq x ^+ 2 | x <- get_ok [::] (pack_pts (T := T17) true pp2 s [:: a; b])].

Definition views17 : bool := all (fun a => all (fun b => ~~ all (fun k =>
  dual_comp k (nth 0 (sq17 [:: 0; 0] 0 1)) == dual_comp k (nth 0 (sq17 [:: 0; 1] a b))) (iota 0 3)) all17) all17.

Lemma views17_differ : views17.
Proof. by vm_compute. Qed.

(*** theorems ***)

(** C26: in the transforms on sharings of degree below [2l], whatever the two inputs [x], [x'] and
    the masks used with [x], exactly one choice of the random values of the input mask makes the
    clients send the same messages with input [x']. *)
Lemma c26_d_fft (F : fftField) dbg lam b (pp : pss F) dom (cF : codec F) mb rearrange ord
    x sec x' sec' values r_in r_out masks r :
  pss_new F dbg (2 ^ lam) = Ok pp -> domain_new F (2 ^ (b + lam)) = Some dom ->
  codec_ok cF mb -> (2 ^ b < 256 ^ 8)%N ->
  vsharing (T := Fm F) pp (2 * 2 ^ lam) (2 ^ b) x sec ->
  vsharing (T := Fm F) pp (2 * 2 ^ lam) (2 ^ b) x' sec' ->
  let sample := fft_mask_sample dbg pp rearrange 1 (d_gen dom) (2 ^ (b + lam)) in
  let party x masks p :=
    d_fft dbg pp (p_n pp) p ord cF (x p) (nth (FftMask [::] [::]) masks p) rearrange dom r in
  sample values r_in r_out = Ok masks ->
  exists values' r_in',
    (forall r_out', exists masks', sample values' r_in' r_out' = Ok masks' /\
       forall p, (0 < p < p_n pp)%N ->
         exists msg, sends_only (party x masks p) msg /\ sends_only (party x' masks' p) msg) /\
    (forall values'' r_in'' r_out'' masks'', sample values'' r_in'' r_out'' = Ok masks'' ->
       (forall p, (0 < p < p_n pp)%N ->
         exists msg, sends_only (party x masks p) msg /\ sends_only (party x' masks'' p) msg) ->
       (forall i, (i < 2 ^ (b + lam))%N -> values'' i = values' i) /\
       (forall i, (i < 2 ^ b * p_t pp)%N -> r_in'' i = r_in' i)).
Proof.
move=> new Edom cok b8 Hx Hx' sample party; have El := pss_new_l new; have pr := dom_prim Edom.
have [y [Ey Hy]] := fft1_vsharing El pr Hx; have [y' [Ey' Hy']] := fft1_vsharing El pr Hx'.
have S x1 y1 sec1 p mask : vsharing (T := Fm F) pp (2 * 2 ^ lam) (2 ^ b) x1 sec1 ->
   (forall p, (p < p_n pp)%N -> fft1 pp (x1 p) (d_gen dom) = Ok (y1 p)) -> (0 < p < p_n pp)%N ->
   sends_only (d_fft dbg pp (p_n pp) p ord cF (x1 p) mask rearrange dom r)
     (enc (vec_codec cF) (zipmap +%R (y1 p) (fm_in mask))).
  move=> [Hz _] E /andP[p0 lt_p]; rewrite /d_fft (px_assert El Edom) ?Hz // E //.
  by apply: fft2_sends; rewrite -lt0n.
exact: (fft_switch (prog := fun p mask => d_fft dbg pp (p_n pp) p ord cF (x p) mask rearrange dom r)
  (prog' := fun p mask => d_fft dbg pp (p_n pp) p ord cF (x' p) mask rearrange dom r)
  new pr cok b8 Hy Hy' (fun p mask pI => S _ _ _ _ _ Hx Ey pI) (fun p mask pI => S _ _ _ _ _ Hx' Ey' pI)).
Qed.

Lemma c26_d_ifft (F : fftField) dbg lam b (pp : pss F) dom (cF : codec F) mb rearrange g ord
    x sec x' sec' values r_in r_out masks r :
  pss_new F dbg (2 ^ lam) = Ok pp -> domain_new F (2 ^ (b + lam)) = Some dom ->
  codec_ok cF mb -> (2 ^ b < 256 ^ 8)%N ->
  vsharing (T := Fm F) pp (2 * 2 ^ lam) (2 ^ b) x sec ->
  vsharing (T := Fm F) pp (2 * 2 ^ lam) (2 ^ b) x' sec' ->
  let sample := fft_mask_sample dbg pp rearrange g (d_gen_inv dom) (2 ^ (b + lam)) in
  let party x masks p :=
    d_ifft dbg pp (p_n pp) p ord cF (x p) (nth (FftMask [::] [::]) masks p) rearrange dom g r in
  sample values r_in r_out = Ok masks ->
  exists values' r_in',
    (forall r_out', exists masks', sample values' r_in' r_out' = Ok masks' /\
       forall p, (0 < p < p_n pp)%N ->
         exists msg, sends_only (party x masks p) msg /\ sends_only (party x' masks' p) msg) /\
    (forall values'' r_in'' r_out'' masks'', sample values'' r_in'' r_out'' = Ok masks'' ->
       (forall p, (0 < p < p_n pp)%N ->
         exists msg, sends_only (party x masks p) msg /\ sends_only (party x' masks'' p) msg) ->
       (forall i, (i < 2 ^ (b + lam))%N -> values'' i = values' i) /\
       (forall i, (i < 2 ^ b * p_t pp)%N -> r_in'' i = r_in' i)).
Proof.
move=> new Edom cok b8 Hx Hx' sample party; have El := pss_new_l new; have pr := dom_prim_inv Edom.
have [y [Ey Hy]] := fft1_vsharing El pr (vsharing_scale (d_size_inv dom) Hx).
have [y' [Ey' Hy']] := fft1_vsharing El pr (vsharing_scale (d_size_inv dom) Hx').
have S x1 y1 sec1 p mask : vsharing (T := Fm F) pp (2 * 2 ^ lam) (2 ^ b) x1 sec1 ->
   (forall p, (p < p_n pp)%N ->
      fft1 pp [seq u * d_size_inv dom | u <- x1 p] (d_gen_inv dom) = Ok (y1 p)) -> (0 < p < p_n pp)%N ->
   sends_only (d_ifft dbg pp (p_n pp) p ord cF (x1 p) mask rearrange dom g r)
     (enc (vec_codec cF) (zipmap +%R (y1 p) (fm_in mask))).
  move=> [Hz _] E /andP[p0 lt_p]; rewrite /d_ifft (px_assert El Edom) ?Hz // E //.
  by apply: fft2_sends; rewrite -lt0n.
exact: (fft_switch (prog := fun p mask => d_ifft dbg pp (p_n pp) p ord cF (x p) mask rearrange dom g r)
  (prog' := fun p mask => d_ifft dbg pp (p_n pp) p ord cF (x' p) mask rearrange dom g r)
  new pr cok b8 Hy Hy' (fun p mask pI => S _ _ _ _ _ Hx Ey pI) (fun p mask pI => S _ _ _ _ _ Hx' Ey' pI)).
Qed.

(** C26: the same for degree reduction, over a group generated by [gen]. *)
Lemma c26_deg_red (F : fftField) (T : lmodType F) dbg lam (pp : pss F) (gen : T) (cT : codec T) mb m
    ord x (sec : nat -> nat -> T) x' (sec' : nat -> nat -> T) values r_in r_out masks r :
  pss_new F dbg (2 ^ lam) = Ok pp -> codec_ok cT mb -> (0 < m < 256 ^ 8)%N ->
  gen != 0 -> (forall z : T, exists a : F, z = a *: gen) ->
  vsharing pp (2 * 2 ^ lam) m x sec -> vsharing pp (2 * 2 ^ lam) m x' sec' ->
  let sample := degred_mask_sample dbg pp gen m in
  let party x masks p :=
    deg_red dbg pp (p_n pp) p ord cT (x p) (nth (degred_mask_zero T 0) masks p) r in
  sample values r_in r_out = Ok masks ->
  exists values' r_in',
    (forall r_out', exists masks', sample values' r_in' r_out' = Ok masks' /\
       forall p, (0 < p < p_n pp)%N ->
         exists msg, sends_only (party x masks p) msg /\ sends_only (party x' masks' p) msg) /\
    (forall values'' r_in'' r_out'' masks'', sample values'' r_in'' r_out'' = Ok masks'' ->
       (forall p, (0 < p < p_n pp)%N ->
         exists msg, sends_only (party x masks p) msg /\ sends_only (party x' masks'' p) msg) ->
       (forall i, (i < m * p_l pp)%N -> values'' i = values' i) /\
       (forall i, (i < m * p_t pp)%N -> r_in'' i = r_in' i)).
Proof.
move=> new cok /andP[m0 m8] gen0 span Hy Hy' sample party Es.
have ok := pss_new_ok new; have El := pss_new_l new; rewrite -El in Hy Hy'.
have sz (v : nat -> F) : size (mkseq (fun i => v i *: gen) (m * p_l pp)) = (m * p_l pp)%N.
  by rewrite size_mkseq.
have [ins [outs [Ei [Sm Es']]]] := degred_sampleE ok dbg gen values r_in r_out m0.
rewrite /sample Es' in Es; have {Es'} Es := Ok_inj Es.
have Em p : (p < p_n pp)%N -> nth (degred_mask_zero T 0) masks p = DegRedMask (ins p) (outs p).
  by move=> lt_p; rewrite -Es nth_mkseq.
have Sy p : (p < p_n pp)%N -> size (x p) = m by case: Hy => H _ /H.
have Sy' p : (p < p_n pp)%N -> size (x' p) = m by case: Hy' => H _ /H.
have S1 p : (0 < p < p_n pp)%N ->
    sends_only (party x masks p) (enc (vec_codec cT) (masked x ins p)).
  move=> /andP[p0 lt_p]; have [si so] := Sm p lt_p.
  have := @deg_red_sends _ T dbg pp (p_n pp) p ord cT (x p) (DegRedMask (ins p) (outs p)) r.
  by rewrite /party Em // -lt0n; apply; rewrite //= Sy.
have [v' [r' [sv' [ins' Ei' Eq] Un]]] := mask_switch ok m0 Hy Hy' (sz values) Ei.
have [i _|values' Hv] := choice_upto 0 (m := m * p_l pp) (P := fun i a => v'`_i = a *: gen).
  exact: span.
have Ev : mkseq (fun i => values' i *: gen) (m * p_l pp) = v'.
  rewrite -[RHS](mkseq_nth 0) sv'; apply: eq_mkseq_in => i lt_i; by rewrite Hv.
exists values', r'; split.
  move=> r_out'; have [ins2 [outs2 [Ei2 [Sm2 E2]]]] := degred_sampleE ok dbg gen values' r' r_out' m0.
  rewrite Ev Ei' in Ei2; have {}Ei2 := Ok_inj Ei2.
  exists (mkseq (fun p => DegRedMask (ins2 p) (outs2 p)) (p_n pp)); split=> // p pI.
  have [p0 lt_p] := andP pI; exists (enc (vec_codec cT) (masked x ins p)); split; first exact: S1.
  have [si so] := Sm2 p lt_p.
  have := @deg_red_sends _ T dbg pp (p_n pp) p ord cT (x' p) (DegRedMask (ins2 p) (outs2 p)) r.
  rewrite /party nth_mkseq // -lt0n p0 /= si so Sy' // => /(_ isT erefl erefl).
  by rewrite Eq // /masked (mkseq_inj_in Ei2).
move=> values'' r_in'' r_out'' masks'' E2 H.
have [ins2 [outs2 [Ei2 [Sm2 E2']]]] := degred_sampleE ok dbg gen values'' r_in'' r_out'' m0.
rewrite /sample E2' in E2; have {E2'} E2 := Ok_inj E2.
have [|p pI|Ev2 Er] := Un _ _ _ _ Ei2; first exact: sz.
  have [msg [Q1 Q2]] := H p pI; have [p0 lt_p] := andP pI.
  have [si so] := Sm p lt_p; have [si2 so2] := Sm2 p lt_p.
  have S2 : sends_only (party x' masks'' p) (enc (vec_codec cT) (masked x' ins2 p)).
    have := @deg_red_sends _ T dbg pp (p_n pp) p ord cT (x' p) (DegRedMask (ins2 p) (outs2 p)) r.
    by rewrite /party -E2 nth_mkseq // -lt0n p0 /= si2 so2 Sy' // => /(_ isT erefl erefl).
  have E : enc (vec_codec cT) (masked x ins p) = enc (vec_codec cT) (masked x' ins2 p).
    by rewrite -(sends_only_inj Q1 (S1 p pI)); apply: sends_only_inj S2.
  apply: (enc_vec_inj cok m8) E; rewrite size_zipmap; first by rewrite Sy // si minnn.
  by rewrite Sy' // si2 minnn.
split=> // i lt_i.
have := congr1 (nth 0 ^~ i) Ev2; rewrite /= nth_mkseq // Hv // => /eqP.
by rewrite -subr_eq0 -scalerBl scaler_eq0 (negbTE gen0) orbF subr_eq0 => /eqP.
Qed.

(** C28, refuted: degree reduction of squares of packed shares.  With packing factor 2 over the
    field of 17 elements, the clients' messages in a run with secrets 0, 0 can be such that no
    sharing of the secrets 0, 1 and no masks lead to the same messages: the mask has degree below
    [2l] and leaves the upper coefficients of the product visible. *)
Lemma c28_hiding_refuted dbg (cF : codec F17) mb ord r : codec_ok cF mb ->
  exists (s s' : seq F17) (q : rng F17), [/\ size s = 2%N, size s' = 2%N &
    forall values r_in r_out masks q' values' r_in' r_out' masks',
      degred_mask_sample (T := T17) dbg pp2 1 1 values r_in r_out = Ok masks ->
      degred_mask_sample (T := T17) dbg pp2 1 1 values' r_in' r_out' = Ok masks' ->
      ~ forall p, (0 < p < p_n pp2)%N -> exists msg,
        sends_only (deg_red (T := T17) dbg pp2 (p_n pp2) p ord cF (square_shares dbg pp2 s q p)
          (nth (degred_mask_zero T17 0) masks p) r) msg /\
        sends_only (deg_red (T := T17) dbg pp2 (p_n pp2) p ord cF (square_shares dbg pp2 s' q' p)
          (nth (degred_mask_zero T17 0) masks' p) r) msg].
Proof.
move=> cok; exists [:: 0; 0], [:: 0; 1], (fun i => i%:R); split=> //.
move=> values r_in r_out masks q' values' r_in' r_out' masks' Es Es' H.
have ok := pp2_ok; have one8 : (1 < 256 ^ 8)%N by rewrite -{1}(exp1n 8) ltn_exp2r.
have M v r1 r2 ms : degred_mask_sample (T := T17) dbg pp2 1 1 v r1 r2 = Ok ms ->
  exists ins outs : nat -> seq F17, ms = mkseq (fun p => DegRedMask (T := T17) (ins p) (outs p)) (p_n pp2) /\
    exists g, shared (T := T17) pp2 4 (fun p => (ins p)`_0) g /\
    forall p, (p < p_n pp2)%N -> size (ins p) = 1%N /\ size (outs p) = 1%N.
  have [ins [outs [Ei [Sm Es1]]]] := degred_sampleE ok dbg (1%R : T17) v r1 r2 (isT : (0 < 1)%N).
  rewrite Es1 => E; exists ins, outs; split; first by rewrite (Ok_inj E).
  have sz : size (mkseq (fun i => v i *: (1%R : T17)) (1 * p_l pp2)) = (1 * p_l pp2)%N by rewrite size_mkseq.
  have [o [Eo /vsharingP[Ho1 Ho2]]] := pack_vec_deal ok dbg r1 (isT : (0 < 1)%N) sz.
  rewrite Ei in Eo; have Eo' := Ok_inj Eo.
  exists (blocks pp2 (mkseq (fun i => v i *: (1%R : T17)) (1 * p_l pp2)) 0); split=> //.
  by apply: shared_ext (Ho2 0%N isT) => // p lt_p; rewrite (mkseq_inj_in Eo' lt_p).
have [ins [outs [Em [g [Hg Sm]]]]] := M _ _ _ _ Es.
have [ins' [outs' [Em' [g' [Hg' Sm']]]]] := M _ _ _ _ Es'.
pose f s q p := (square_shares dbg pp2 s q p)`_0.
have E p : (0 < p < p_n pp2)%N ->
    f [:: 0; 0] (fun i => i%:R) p + (ins p)`_0 = f [:: 0; 1] q' p + (ins' p)`_0.
  move=> pI; have [msg [Q1 Q2]] := H p pI; have [p0 lt_p] := andP pI.
  have [si so] := Sm p lt_p; have [si' so'] := Sm' p lt_p.
  rewrite Em nth_mkseq // in Q1; rewrite Em' nth_mkseq // in Q2.
  have S1 := @deg_red_sends _ T17 dbg pp2 (p_n pp2) p ord cF (square_shares dbg pp2 [:: 0; 0] (fun i => i%:R) p) (DegRedMask (T := T17) (ins p) (outs p)) r.
  have S2 := @deg_red_sends _ T17 dbg pp2 (p_n pp2) p ord cF (square_shares dbg pp2 [:: 0; 1] q' p) (DegRedMask (T := T17) (ins' p) (outs' p)) r.
  rewrite -lt0n p0 /= si so in S1; rewrite -lt0n p0 /= si' so' in S2.
  have := sends_only_inj Q1 (S1 isT erefl erefl); rewrite (sends_only_inj Q2 (S2 isT erefl erefl)) => Ee.
  have := @enc_vec_inj _ T17 cF mb 1 _ _ cok one8 _ _ Ee.
  rewrite !size_zipmap si si' /= => /(_ erefl erefl)/(congr1 (nth 0 ^~ 0%N)).
  by rewrite !(nth_zipmap _ 0 0) ?si ?si'.
have Dadd k (u w u' w' : nat -> F17) : (forall p, (0 < p < p_n pp2)%N -> u p + w p = u' p + w' p) ->
    dual_val k w = 0 -> dual_val k w' = 0 -> dual_val k u = dual_val k u'.
  move=> Euw W W'; rewrite -[LHS]addr0 -[RHS]addr0 -{1}W -{1}W' /dual_val -!big_split /=.
  apply: eq_bigr => i _; rewrite -!mulrDr Euw // (ppn ok); exact: ltn_ord i.
have D k : (k < 3)%N -> dual_comp k (f [:: 0; 0] (fun i => i%:R)) = dual_comp k (f [:: 0; 1] q').
  move=> k3; rewrite -!dual_valE; apply: Dadd E _ _; [exact: dual_shared Hg|exact: dual_shared Hg'].
have Ef s (q : rng F17) k : size s = 2%N -> dual_comp k (f s q) = dual_comp k (nth 0 (sq17 s (q 0%N) (q 1%N))).
  move=> ss; rewrite /dual_comp; congr foldr; apply: eq_mkseq_in => i i7; congr (_ * _).
  have [sh [Esh zsh _]] := pack_sharing (T := T17) ok true q (ss : size s = p_l pp2).
  rewrite /f /square_shares (@pack_dbg F17 T17 pp2 dbg s sh q Esh) /sq17.
  have -> : pack_pts (T := T17) true pp2 s [:: q 0%N; q 1%N] = Ok sh by rewrite -Esh.
  rewrite /= (nth_map 0) // zsh (ppn ok); exact: i7.
have /allP/(_ (q' 0%N) (mem_all17 _))/allP/(_ (q' 1%N) (mem_all17 _))/negP[] := views17_differ.
apply/allP => k; rewrite mem_iota add0n /= => k3.
by rewrite -Ef // -D // Ef.
Qed.

(** C33, refuted: the first messages of the clients in [d_pp] determine all numerators and
    denominators (for all inputs, sharings, masks and random values). *)
Lemma c33_hiding_refuted (F : fftField) dbg lam pp (cF : codec F) mb m ord ord' masks masks'
    (xn xd xn' xd' : nat -> seq F) (num den num' den' : seq F) deg (r1 r2 r1' r2' : rng F) :
  pss_new F dbg (2 ^ lam) = Ok pp -> codec_ok cF mb -> (0 < m)%N -> (2 * m < 256 ^ 8)%N ->
  (deg <= 4 * 2 ^ lam - 1)%N ->
  size num = (m * 2 ^ lam)%N -> size den = (m * 2 ^ lam)%N ->
  size num' = (m * 2 ^ lam)%N -> size den' = (m * 2 ^ lam)%N ->
  vsharing (T := Fm F) pp deg m xn (blocks (T := Fm F) pp num) ->
  vsharing (T := Fm F) pp deg m xd (blocks (T := Fm F) pp den) ->
  vsharing (T := Fm F) pp deg m xn' (blocks (T := Fm F) pp num') ->
  vsharing (T := Fm F) pp deg m xd' (blocks (T := Fm F) pp den') ->
  (forall p, (0 < p < p_n pp)%N -> exists msg,
     first_message (d_pp dbg pp (p_n pp) p ord ord' cF (xn p) (xd p) (masks p) r1 r2) msg /\
     first_message (d_pp dbg pp (p_n pp) p ord ord' cF (xn' p) (xd' p) (masks' p) r1' r2') msg) ->
  num = num' /\ den = den'.
Proof.
move=> new cok m0 m8 Hdeg sn sd sn' sd' Hn Hd Hn' Hd' H.
have ok := pss_new_ok new; have El := pss_new_l new; rewrite -El in Hdeg sn sd sn' sd'.
have l0 := pp_l_gt0 ok; have n1 := n_gt1 ok.
have mms : (m + m < 256 ^ 8)%N by rewrite addnn -mul2n.
have /vsharingP[S1 V1] := numden_vsharing ok (conj m0 m8) Hdeg sn sd Hn Hd.
have /vsharingP[S2 V2] := numden_vsharing ok (conj m0 m8) Hdeg sn' sd' Hn' Hd'.
have E p : (0 < p < p_n pp)%N ->
    [seq u * 1 | u <- xn p] ++ [seq u * 1 | u <- xd p] = [seq u * 1 | u <- xn' p] ++ [seq u * 1 | u <- xd' p].
  move=> pI; have [msg [[k1 E1] [k2 E2]]] := H p pI; have [p0 lt_p] := andP pI.
  apply: (enc_vec_inj (T := Fm F) cok mms (S1 p lt_p) (S2 p lt_p)).
  by move: E1 E2; rewrite /d_pp /d_pp_with oner_eq0 /= -[p]prednK //= => -[-> _] [-> _].
have id_ok : hash_ok (fun s => s) by [].
have B e j : (e < m + m)%N -> (j < p_l pp)%N ->
    blocks (T := Fm F) pp (num ++ den) e j = blocks (T := Fm F) pp (num' ++ den') e j.
  move=> lt_e lt_j.
  have U1 := unpack_who ok false 0 id_ok Hdeg (V1 e lt_e).
  have U2 := unpack_who ok false 0 id_ok Hdeg (V2 e lt_e).
  have Ew : [seq ([seq u * 1 | u <- xn i] ++ [seq u * 1 | u <- xd i])`_e | i <- who pp 0 (fun s => s)]
          = [seq ([seq u * 1 | u <- xn' i] ++ [seq u * 1 | u <- xd' i])`_e | i <- who pp 0 (fun s => s)].
    apply/eq_in_map => i iw; rewrite E //.
    move: iw; rewrite /who /received_from (ltnW n1) /= mem_filter mem_iota; lia.
  rewrite Ew U2 in U1; exact: mkseq_inj_in (esym (Ok_inj U1)) lt_j.
suff Enn : num ++ den = num' ++ den'.
  by move/eqP: Enn; rewrite eqseq_cat ?sn ?sn' // => /andP[/eqP-> /eqP->].
apply: (@eq_from_nth _ 0); rewrite !size_cat sn sd ?sn' ?sd' // => i lt_i.
have lt_e : (i %/ p_l pp < m + m)%N by rewrite ltn_divLR // mulnDl.
by have := B _ _ lt_e (ltn_pmod i l0); rewrite /blocks -divn_eq.
Qed.
