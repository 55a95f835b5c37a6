(** Proofs about the witness extension. *)
From mathcomp Require Import all_ssreflect all_algebra.
From mathcomp Require Import zify.
From Verif Require Import RingTac Base ModelField ModelUtils ModelPss ModelPack ModelFft ModelNet.
From Verif Require Import ModelProto ModelQap Spec SpecNet SpecProto SpecGroth.
From Verif Require Import NetProofs KingProofs NetThm PartyProofs.
From Verif Require Import FieldProofs UtilsProofs PssProofs PackProofs FftProofs ProtoProofs DegProofs.
From Verif Require Import ProtoThm QapProofs.
Set Implicit Arguments.
Unset Strict Implicit.
Unset Printing Implicit Defensive.
Import GRing.Theory.
Local Open Scope ring_scope.

Local Notation Fm F := [lmodType F of F^o].

Lemma pval_horner (F : fftField) (x : F) (c : seq F) : pval x (c : seq F^o) = (Poly c).[x].
Proof.
rewrite (horner_coef_wide _ (size_Poly c)) /pval.
by apply: eq_bigr => j _; rewrite coef_Poly mulrC.
Qed.

(** ** Polynomials *)
Section Quotient.
Variable F : fieldType.
Variables (w : F) (N : nat).
Hypothesis pr : N.-primitive_root w.

Lemma vanish_dvd (P : {poly F}) : (forall i, (i < N)%N -> P.[w ^+ i] = 0) -> 'X^N - 1 %| P.
Proof.
move=> H; rewrite -(factor_Xn_sub_1 pr) big_mkord.
rewrite -(big_mkord predT (fun i => 'X - (w ^+ i)%:P)) /index_iota subn0.
rewrite -(big_map (fun i => w ^+ i) predT (fun x => 'X - x%:P)).
apply: uniq_roots_dvdp.
  by apply/allP => x /mapP[i]; rewrite mem_iota => /andP[_ lt_i] ->; apply/rootP/H.
rewrite uniq_rootsE map_inj_in_uniq ?iota_uniq // => i j.
rewrite !mem_iota !add0n => /andP[_ li] /andP[_ lj] /eqP.
by rewrite (eq_prim_root_expr pr) !modn_small // => /eqP.
Qed.

Lemma interp_unique v (P P' : {poly F}) :
  interpolates w N v P -> interpolates w N v P' -> P = P'.
Proof.
move=> [sP HP] [sP' HP']; apply/eqP; rewrite -subr_eq0; apply/negPn/negP => nz.
have N0 := prim_order_gt0 pr.
have : 'X^N - 1 %| P - P'.
  by apply: vanish_dvd => i lt_i; rewrite hornerD hornerN HP // HP' // subrr.
move/(dvdp_leq nz); rewrite size_Xn_sub_1 //; apply/negP; rewrite -ltnNge ltnS.
by apply: leq_trans (size_add _ _) _; rewrite size_opp geq_max sP.
Qed.

Lemma quotient (A B C : {poly F}) : (size A <= N)%N -> (size B <= N)%N -> (size C <= N)%N ->
  (forall i, (i < N)%N -> A.[w ^+ i] * B.[w ^+ i] = C.[w ^+ i]) ->
  exists2 h : {poly F}, A * B - C = h * ('X^N - 1) & (size h <= N.-1)%N.
Proof.
move=> sA sB sC H; have N0 := prim_order_gt0 pr.
have D : 'X^N - 1 %| A * B - C.
  by apply: vanish_dvd => i lt_i; rewrite !hornerE H // subrr.
exists ((A * B - C) %/ ('X^N - 1)); first by rewrite divpK.
have nz : 'X^N - 1 != 0 :> {poly F} by rewrite -size_poly_eq0 size_Xn_sub_1.
rewrite size_divp // size_Xn_sub_1 //=.
have : (size (A * B - C)%R <= (N + N).-1)%N; last by
  rewrite leq_subLR => /leq_trans; apply; lia.
apply: leq_trans (size_add _ _) _; rewrite size_opp geq_max.
apply/andP; split; last by apply: leq_trans sC _; lia.
apply: leq_trans (size_mul_leq _ _) _; lia.
Qed.

End Quotient.

Section Ext.
Variable F : fftField.
Variables (dbg : bool) (pp : pss F) (lam b : nat) (dom : domain F).
Hypothesis ok : pp_ok pp.
Hypothesis El : p_l pp = (2 ^ lam)%N.
  Local Notation N := (2 ^ (b + lam))%N.
  Local Notation m := (2 ^ b)%N.
  Local Notation l := (p_l pp).
Hypothesis Edom : domain_new F N = Some dom.

Lemma interpolates_evals (c : seq F) g : size c = N ->
  interpolates (d_gen dom) N (evals (T := Fm F) 1 (d_gen dom) N c) (Poly c) /\
  evals (T := Fm F) g (d_gen dom) N c = mkseq (fun i => (Poly c).[g * d_gen dom ^+ i]) N.
Proof.
move=> sc; split; last by apply: eq_map => i; rewrite pval_horner.
split=> [|i lt_i]; first by rewrite -sc size_Poly.
by rewrite nth_mkseq // mul1r pval_horner.
Qed.

(** the shares of [(a b - c) z] *)
Lemma vsharing_abc z (a bb c : nat -> seq F) sa sb sc mm :
  vsharing (T := Fm F) pp (2 * l) mm a sa -> vsharing (T := Fm F) pp (2 * l) mm bb sb ->
  vsharing (T := Fm F) pp (2 * l) mm c sc ->
  vsharing (T := Fm F) pp (4 * l - 1) mm
    (fun p => zipmap (fun ab c => (ab.1 * ab.2 - c) * z) (zip (a p) (bb p)) (c p))
    (fun e j => (sa e j * sb e j - sc e j) * z).
Proof.
move=> /vsharingP[a1 a2] /vsharingP[b1 b2] /vsharingP[c1 c2]; have l0 := pp_l_gt0 ok.
apply/vsharingP; split=> [p lt_p|e lt_e].
  by rewrite size_zipmap size_zip a1 // b1 // c1 // !minnn.
have l2 : (0 < 2 * l)%N by lia.
have Hab := shared_mul l2 (a2 e lt_e) (b2 e lt_e).
have Hc : shared (T := Fm F) pp (2 * l + 2 * l).-1 (fun p => (c p)`_e) (sc e).
  by have [x [sx H1 H2]] := c2 e lt_e; exists x; split=> //; lia.
have H := shared_lin z (shared_lin (-1) Hc Hab) (shared0 (Fm F) pp (2 * l + 2 * l).-1).
have E : (2 * l + 2 * l).-1 = (4 * l - 1)%N by lia.
rewrite E in H; apply: shared_ext H => i lt_i.
  rewrite (nth_zipmap _ (0, 0) 0) ?size_zip ?a1 ?b1 ?c1 ?minnn // nth_zip ?a1 ?b1 //=.
  by rewrite /GRing.scale /= addr0 mulN1r addrC mulrC.
by rewrite /GRing.scale /= addr0 mulN1r addrC mulrC.
Qed.

Variables (cF : codec F) (mb : nat).
Hypotheses (cok : codec_ok cF mb) (m_small : (m < 256 ^ 8)%N).

(** inverse transform to the shifted domain and back *)
Lemma chain rearrange g masks masks' (x : nat -> seq F) (c : seq F) deg (r r' : rng F) :
  (deg <= 4 * l - 1)%N -> masks_ok pp lam b true g (d_gen_inv dom) masks ->
  masks_ok pp lam b rearrange 1 (d_gen dom) masks' -> size c = N ->
  vsharing (T := Fm F) pp deg m x
    (strides (T := Fm F) b (b + lam) (evals (T := Fm F) 1 (d_gen dom) N c)) ->
  exists y out : nat -> seq F, [/\
    forall ord, hash_ok ord -> king_prog (p_n pp) (fun d => d != 0%N)
      (fun p => d_ifft dbg pp (p_n pp) p ord cF (x p) (masks p) true dom g r) y,
    forall ord, hash_ok ord -> king_prog (p_n pp) (fun d => d != 0%N)
      (fun p => d_fft dbg pp (p_n pp) p ord cF (y p) (masks' p) rearrange dom r') out &
    vsharing (T := Fm F) pp (2 * l) m out (slots (T := Fm F) pp rearrange b (b + lam)
      (mkseq (fun i => (Poly c).[g * d_gen dom ^+ i]) N))].
Proof.
move=> Hdeg H1 H2 sc Hx; have l0 := pp_l_gt0 ok.
have [y [Hy Hp]] := d_ifft_prog ok El cok m_small Edom dbg r Hdeg H1 sc Hx.
have scc : size (coset_coeffs (T := Fm F) g c) = N by rewrite size_mkseq.
have Hd2 : (2 * l <= 4 * l - 1)%N by lia.
have [out [Ho Hp']] := d_fft_prog ok El cok m_small Edom dbg r' Hd2 H2 scc Hy.
exists y, out; split=> //.
by rewrite coset_evals in Ho; rewrite (interpolates_evals g sc).2 in Ho.
Qed.

End Ext.
