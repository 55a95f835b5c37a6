(** The transforms when the clients send arbitrary bytes. *)
From mathcomp Require Import all_ssreflect all_algebra.
From mathcomp Require Import zify.
From Verif Require Import RingTac Base ModelField ModelUtils ModelPss ModelPack ModelFft ModelNet.
From Verif Require Import ModelProto Spec SpecNet SpecTamper SpecBytes NetProofs KingProofs RoundProofs LogProofs.
From Verif Require Import FieldProofs UtilsProofs PssProofs PackProofs FftProofs ProtoProofs DegProofs.
From Verif Require Import KingFail TamperProofs TamperFft BytesProofs ModelNet.
Set Implicit Arguments.
Unset Strict Implicit.
Unset Printing Implicit Defensive.
Import GRing.Theory.
Local Open Scope ring_scope.

Section Transform.
Variable F : fftField.
Variables (pp : pss F) (ok : pp_ok pp) (lam b : nat).
Hypothesis El : p_l pp = (2 ^ lam)%N.
Local Notation l := (p_l pp).
Local Notation n := (p_n pp).
Local Notation m := (2 ^ b)%N.
Local Notation k := (b + lam)%N.
Local Notation Fm := [lmodType F of F^o].
Hypothesis m_small : (m < 256 ^ 8)%N.

(** ** The parties' stage takes every value *)

Lemma fft1_value gen (x : seq F) : (2 ^ k)%N.-primitive_root gen -> size x = m ->
  fft1 pp x gen = Ok (mkseq (fun e => bsum gen (2 ^ lam) b e (nth 0 x)) m).
Proof.
by move=> pr sx; apply: (fft1P El sx) => K EK; apply: half_root; rewrite EK.
Qed.

Lemma fft1_onto gen (y : seq F) : (2 ^ k)%N.-primitive_root gen -> size y = m ->
  exists x : seq F, size x = m /\ fft1 pp x gen = Ok y.
Proof.
move=> pr sy; pose M : 'M[F]_m := \matrix_(i, e) gen ^+ (2 ^ lam * e.+1 * bitrev b i).
have ME (t : nat -> F) (e : 'I_m) : ((\row_i t i) *m M) 0 e = bsum gen (2 ^ lam) b e t.
  by rewrite mxE; apply: eq_bigr => i _; rewrite !mxE mulrC.
have U : M \in unitmx.
  rewrite -row_free_unit; apply: inj_row_free => v Hv; apply/rowP => i; rewrite mxE.
  pose t j := if insub j is Some i' then v 0 i' else 0.
  have Ev : v = \row_i t i by apply/rowP => i'; rewrite mxE /t valK.
  rewrite Ev mxE; apply: (bsum_inj ok El m_small pr _ (ltn_ord i)) => e le.
  by have := ME t (Ordinal le); rewrite -Ev Hv mxE.
pose v := (\row_e y`_(nat_of_ord e)) *m invmx M.
pose t j := if insub j is Some i' then v 0 i' else 0.
have Ev : v = \row_i t i by apply/rowP => i'; rewrite mxE /t valK.
exists (mkseq t m); split; first by rewrite size_mkseq.
rewrite fft1_value ?size_mkseq //; congr Ok; apply: (@eq_from_nth _ 0); rewrite size_mkseq // => e le.
rewrite nth_mkseq //; transitivity (bsum gen (2 ^ lam) b e t).
  by apply: eq_bsum => i li; rewrite nth_mkseq.
by rewrite -(ME t (Ordinal le)) -Ev /v mulmxKV // mxE.
Qed.

Variables (cF : codec F) (mb : nat).
Hypothesis cF_ok : codec_ok cF mb.

Section Fft2.
Variables (dbg rearrange : bool) (g gen : F) (masks : nat -> fft_mask F) (x : nat -> seq F) (r : rng F).
Variable w : nat -> bytes.
Hypothesis pr : (2 ^ k)%N.-primitive_root gen.
Hypothesis masks_good : masks_ok pp lam b rearrange g gen masks.
Hypothesis sx : forall p, (p < n)%N -> size (x p) = m.

Let R p v : cproc (seq F) := clift (Ok (zipmap +%R v (fm_out (masks p)))).
Let min p := fm_in (masks p).
Let s_in p : (p < n)%N -> size (min p) = m.
Proof. by have [v [[H _] _]] := masks_good; apply: H. Qed.
Let m_size : (0 < m < 256 ^ 8)%N.
Proof. by rewrite expn_gt0 m_small. Qed.
Let kf := fft2_king dbg pp m m rearrange g gen r.

Lemma fft2_masked p ord : (p < n)%N ->
  fft2_with_rearrange dbg pp n p ord cF (x p) (masks p) rearrange g gen r =
  masked_round (T := Fm) pp cF (vec_codec cF) (p_t pp) min x kf R ord p.
Proof. by move=> lp; rewrite /fft2_with_rearrange size_zipmap sx // s_in // minnn. Qed.

Lemma fft2_dictated (u : nat -> seq F) a ord dok :
  (forall p, (0 < p < n)%N -> ModelNet.decode (vec_codec cF) (w p) = Ok (u p)) ->
  king_prog n dok (fun p => dictating n w a p
      (fft2_with_rearrange dbg pp n p ord cF (x p) (masks p) rearrange g gen r))
    (fun p => if p == 0%N then a else zipmap +%R (u p) (fm_out (masks p))).
Proof.
move=> uK; have n0 := ltnW (n_gt1 ok).
apply: king_prog_ext (dictated_round (vec_codec cF) ord (fun p => zipmap +%R (x p) (min p)) (p_t pp)
  kf (R := R) dok n0 uK _ _) => //.
- by move=> p lp; rewrite /dictating; case: eqP => // _; rewrite fft2_masked.
by case=> // p _.
Qed.

Lemma fft2_king_eq s s' ids : transpose s = transpose s' -> kf (Received s ids) = kf (Received s' ids).
Proof. by rewrite /kf /fft2_king /= => ->. Qed.

Lemma fft2_king_panic s ids : transpose s = Panic -> kf (Received s ids) = Panic.
Proof. by rewrite /kf /fft2_king /= => ->. Qed.

Lemma sending_fft2 sid ord : mkseq (fun p => pthread sid
    (sending w p (fft2_with_rearrange dbg pp n p ord cF (x p) (masks p) rearrange g gen r))) n =
  mkseq (fun p => pthread sid (sending w p
    (masked_round (T := Fm) pp cF (vec_codec cF) (p_t pp) min x kf R ord p))) n.
Proof. by apply: eq_mkseq_in => p lp; rewrite fft2_masked. Qed.

Lemma fft2_garbled sid ord p : (0 < p < n)%N -> ModelNet.decode (vec_codec cF) (w p) = Err Generic ->
  king_fails (mkseq (fun p => pthread sid
    (sending w p (fft2_with_rearrange dbg pp n p ord cF (x p) (masks p) rearrange g gen r))) n) (Err Generic).
Proof. by move=> pI Hp; rewrite sending_fft2; apply: (masked_garbled (T := Fm) ok) pI Hp. Qed.

Variable y : nat -> seq F.
Hypothesis wK : forall p, (0 < p < n)%N -> ModelNet.decode (vec_codec cF) (w p) = Ok (y p).

Lemma fft2_short sid ord p : (0 < p < n)%N -> (size (y p) < m)%N ->
  king_dies (mkseq (fun p => pthread sid
    (sending w p (fft2_with_rearrange dbg pp n p ord cF (x p) (masks p) rearrange g gen r))) n).
Proof.
move=> pI Hp; rewrite sending_fft2.
by apply: (masked_short (T := Fm) ok cF_ok _ _ _ m_size sx s_in fft2_king_panic wK _ _ pI Hp).
Qed.

Hypothesis y_long : forall p, (0 < p < n)%N -> (m <= size (y p))%N.
Local Notation x' := (implied (T := Fm) min x y).

Lemma fft2_bytes_caught sid ord : dbg -> unbalanced (T := Fm) pp x' m ->
  king_dies (mkseq (fun p => pthread sid
    (sending w p (fft2_with_rearrange dbg pp n p ord cF (x p) (masks p) rearrange g gen r))) n).
Proof.
move=> dbgT bal; rewrite sending_fft2.
apply: (masked_caught (T := Fm) ok cF_ok _ _ _ m_size sx s_in fft2_king_eq wK y_long).
have [v [Hin _]] := masks_good.
have [sz Eu _] := masked (T := Fm) ok (size_implied (T := Fm) sx s_in y_long) Hin.
by rewrite /kf (fft2_king_any ok El) // Eu bal dbgT.
Qed.

Lemma fft2_bytes : ~~ (dbg && unbalanced (T := Fm) pp x' m) ->
  exists out : nat -> seq F,
    vsharing (T := Fm) pp (2 * l) m out (slots (T := Fm) pp rearrange b k (transformed pp lam b g gen x')) /\
    forall ord, hash_ok ord -> king_prog n (fun d => (d != 0%N) && (n <= d)%N)
      (fun p => sending w p (fft2_with_rearrange dbg pp n p ord cF (x p) (masks p) rearrange g gen r)) out.
Proof.
move=> bal; have [v [Hin Hout]] := masks_good; have n1 := n_gt1 ok.
have sx' := size_implied (T := Fm) sx s_in y_long.
have [sz Eu _] := masked (T := Fm) ok sx' Hin.
pose z p := zipmap +%R (x' p) (min p).
have st : size (transformed pp lam b g gen z) = (2 ^ k)%N by rewrite size_mkseq.
have [dealt [Ed Hd]] := share_out_deal ok El dbg rearrange r st.
exists (fun p => zipmap +%R (dealt p) (fm_out (masks p))); split.
  apply: vsharing_ext (vsharing_add Hd Hout) => // e j lt_e lt_j.
  rewrite !(slots_ix pp lam b); have lt_q := slot_ix_lt El rearrange lt_e lt_j.
  by rewrite (transformed_masked ok El g gen sx' lt_q Hin) [X in _ + X]nth_mkseq // addrK.
have sd p : (p < n)%N -> size (dealt p) = m by case: Hd => H _ /H.
move=> ord Ho.
apply: king_prog_ext (@masked_bytes _ Fm pp ok cF mb cF_ok _ _ _ _ _ _ _ _ R w m_size sx s_in fft2_king_eq y wK
  y_long ord dealt (fun p => zipmap +%R (dealt p) (fm_out (masks p))) _ _ _ _) => //.
- exact: ltnW.
- by move=> p lp; rewrite fft2_masked.
- by move=> i lt_i; apply: (vec_dec (T := Fm) cF_ok m_small) (sd _ _).
- by move=> i lt_i; rewrite !(size_enc_vec cF_ok) !sd // ltnW.
by rewrite /kf (fft2_king_any ok El) // Eu (negPf bal).
Qed.

End Fft2.

(** ** The transforms *)

Lemma eq_unbalanced (x y : nat -> seq F) : (forall p, (p < n)%N -> x p = y p) ->
  unbalanced (T := Fm) pp x m = unbalanced (T := Fm) pp y m.
Proof.
move=> E; apply: eq_in_has => e _; congr (_ != _); apply: eq_imbalance => p lp.
by rewrite /entry E.
Qed.

Variable dom : domain F.
Hypothesis Edom : domain_new F (2 ^ k) = Some dom.
Variables (dbg rearrange : bool) (masks : nat -> fft_mask F) (r : rng F) (w : nat -> bytes).

Section Forward.
Variable x : nat -> seq F.
Hypothesis masks_good : masks_ok pp lam b rearrange 1 (d_gen dom) masks.
Hypothesis sx : forall p, (p < n)%N -> size (x p) = m.

Let px p := mkseq (fun e => bsum (d_gen dom) (2 ^ lam) b e (nth 0 (x p))) m.
Let spx p : (p < n)%N -> size (px p) = m.
Proof. by rewrite size_mkseq. Qed.

Lemma d_fft_fft2 p ord : (p < n)%N -> d_fft dbg pp n p ord cF (x p) (masks p) rearrange dom r =
  fft2_with_rearrange dbg pp n p ord cF (px p) (masks p) rearrange 1 (d_gen dom) r.
Proof.
by move=> lp; rewrite /d_fft (px_assert El Edom) ?sx // (fft1_value (dom_prim Edom)) ?sx.
Qed.

Lemma sending_fft sid ord : mkseq (fun p => pthread sid
    (sending w p (d_fft dbg pp n p ord cF (x p) (masks p) rearrange dom r))) n =
  mkseq (fun p => pthread sid
    (sending w p (fft2_with_rearrange dbg pp n p ord cF (px p) (masks p) rearrange 1 (d_gen dom) r))) n.
Proof. by apply: eq_mkseq_in => p lp; rewrite d_fft_fft2. Qed.

Lemma d_fft_dictated (u : nat -> seq F) a ord dok :
  (forall p, (0 < p < n)%N -> ModelNet.decode (vec_codec cF) (w p) = Ok (u p)) ->
  king_prog n dok (fun p => dictating n w a p (d_fft dbg pp n p ord cF (x p) (masks p) rearrange dom r))
    (fun p => if p == 0%N then a else zipmap +%R (u p) (fm_out (masks p))).
Proof.
move=> uK; have H := fft2_dictated dbg r masks_good spx a ord dok uK.
apply: king_prog_ext H; first exact: ltnW (n_gt1 ok).
by move=> p lp; rewrite /dictating; case: eqP => // _; rewrite d_fft_fft2.
Qed.

Lemma d_fft_garbled sid ord p : (0 < p < n)%N -> ModelNet.decode (vec_codec cF) (w p) = Err Generic ->
  king_fails (mkseq (fun p => pthread sid
    (sending w p (d_fft dbg pp n p ord cF (x p) (masks p) rearrange dom r))) n) (Err Generic).
Proof. by move=> pI Hp; rewrite sending_fft; apply: (fft2_garbled _ _ masks_good spx _ _ pI Hp). Qed.

Variable y : nat -> seq F.
Hypothesis wK : forall p, (0 < p < n)%N -> ModelNet.decode (vec_codec cF) (w p) = Ok (y p).

Lemma d_fft_short sid ord p : (0 < p < n)%N -> (size (y p) < m)%N ->
  king_dies (mkseq (fun p => pthread sid
    (sending w p (d_fft dbg pp n p ord cF (x p) (masks p) rearrange dom r))) n).
Proof. by move=> pI Hp; rewrite sending_fft; apply: (fft2_short _ _ masks_good spx wK _ _ pI Hp). Qed.

Hypothesis y_long : forall p, (0 < p < n)%N -> (m <= size (y p))%N.
Variable x' : nat -> seq F.
Hypothesis x'0 : x' 0%N = x 0%N.
Hypothesis sx' : forall p, (p < n)%N -> size (x' p) = m.
Hypothesis x'1 : forall p, (0 < p < n)%N ->
  fft1 pp (x' p) (d_gen dom) = Ok (zipmap (fun a b => a - b) (y p) (fm_in (masks p))).

Let Y := implied (T := Fm) (fun p => fm_in (masks p)) px y.
Let YE p : (p < n)%N -> fft1 pp (x' p) (d_gen dom) = Ok (Y p).
Proof.
rewrite /Y /implied; case: eqP => [->|/eqP p0] lp; last by rewrite x'1 // lt0n p0.
by rewrite x'0 (fft1_value (dom_prim Edom)) ?sx.
Qed.

Let Yfacts : unbalanced (T := Fm) pp Y m = unbalanced (T := Fm) pp x' m /\
  forall e j, (e < m)%N -> (j < l)%N -> interpolated (T := Fm) pp (entry (T := Fm) Y e) j =
      bsum (d_gen dom) (2 ^ lam) b e (fun i => interpolated (T := Fm) pp (entry (T := Fm) x' i) j).
Proof.
have [y' [Ey sy Uy Iy]] := fft1_any ok El m_small (dom_prim Edom) sx'.
have E p : (p < n)%N -> Y p = y' p by move=> lp; have := YE lp; rewrite Ey // => -[->].
split; first by rewrite (eq_unbalanced E).
move=> e j le lj; rewrite -Iy //; apply: eq_interpolated => p lp; by rewrite /entry E.
Qed.

Lemma d_fft_bytes_caught sid ord : dbg -> unbalanced (T := Fm) pp x' m ->
  king_dies (mkseq (fun p => pthread sid
    (sending w p (d_fft dbg pp n p ord cF (x p) (masks p) rearrange dom r))) n).
Proof.
move=> dbgT bal; rewrite sending_fft.
by apply: (fft2_bytes_caught _ (dom_prim Edom) masks_good spx wK y_long) => //; rewrite (proj1 Yfacts).
Qed.

Lemma d_fft_bytes (c : seq F) : ~~ (dbg && unbalanced (T := Fm) pp x' m) -> size c = (2 ^ k)%N ->
  (forall e j, (e < m)%N -> (j < l)%N ->
     strides (T := Fm) b k c e j = interpolated (T := Fm) pp (entry (T := Fm) x' e) j) ->
  exists out : nat -> seq F,
    vsharing (T := Fm) pp (2 * l) m out
      (slots (T := Fm) pp rearrange b k (evals (T := Fm) 1 (d_gen dom) (2 ^ k) c)) /\
    forall ord, hash_ok ord -> king_prog n (fun d => (d != 0%N) && (n <= d)%N)
      (fun p => sending w p (d_fft dbg pp n p ord cF (x p) (masks p) rearrange dom r)) out.
Proof.
move=> bal sc Ec; have pr := dom_prim Edom; have l0 := pp_l_gt0 ok; have [Uy Iy] := Yfacts.
rewrite -Uy in bal; have [out [Ho Hp]] := fft2_bytes r pr masks_good spx wK y_long bal.
exists out; split.
  apply: vsharing_ext Ho => // e j lt_e lt_j; rewrite !(slots_ix pp lam b).
  have lq := slot_ix_lt El rearrange lt_e lt_j; rewrite !nth_mkseq // expr1n !mul1r.
  rewrite -(kfft_eval ok El m_small pr sc lq); apply: (eq_kfft El) => // i li.
  have lj : (i %% l < l)%N by rewrite ltn_pmod.
  have le : (i %/ l < m)%N by rewrite ltn_divLR // El -expnD.
  by rewrite Iy //; apply: eq_bsum => e' le'; rewrite Ec.
move=> ord Hord; apply: king_prog_ext (Hp ord Hord); first exact: ltnW (n_gt1 ok).
by move=> p lt_p; rewrite d_fft_fft2.
Qed.

End Forward.

Section Inverse.
Variables (x : nat -> seq F) (g : F).
Hypothesis masks_good : masks_ok pp lam b rearrange g (d_gen_inv dom) masks.
Hypothesis sx : forall p, (p < n)%N -> size (x p) = m.

Let scaled (s : seq F) := [seq u * d_size_inv dom | u <- s].
Let px p := mkseq (fun e => bsum (d_gen_inv dom) (2 ^ lam) b e (nth 0 (scaled (x p)))) m.
Let spx p : (p < n)%N -> size (px p) = m.
Proof. by rewrite size_mkseq. Qed.

Lemma d_ifft_fft2 p ord : (p < n)%N -> d_ifft dbg pp n p ord cF (x p) (masks p) rearrange dom g r =
  fft2_with_rearrange dbg pp n p ord cF (px p) (masks p) rearrange g (d_gen_inv dom) r.
Proof.
by move=> lp; rewrite /d_ifft (px_assert El Edom) ?sx // (fft1_value (dom_prim_inv Edom)) ?size_map ?sx.
Qed.

Lemma sending_ifft sid ord : mkseq (fun p => pthread sid
    (sending w p (d_ifft dbg pp n p ord cF (x p) (masks p) rearrange dom g r))) n =
  mkseq (fun p => pthread sid
    (sending w p (fft2_with_rearrange dbg pp n p ord cF (px p) (masks p) rearrange g (d_gen_inv dom) r))) n.
Proof. by apply: eq_mkseq_in => p lp; rewrite d_ifft_fft2. Qed.

Lemma d_ifft_dictated (u : nat -> seq F) a ord dok :
  (forall p, (0 < p < n)%N -> ModelNet.decode (vec_codec cF) (w p) = Ok (u p)) ->
  king_prog n dok (fun p => dictating n w a p (d_ifft dbg pp n p ord cF (x p) (masks p) rearrange dom g r))
    (fun p => if p == 0%N then a else zipmap +%R (u p) (fm_out (masks p))).
Proof.
move=> uK; have H := fft2_dictated dbg r masks_good spx a ord dok uK.
apply: king_prog_ext H; first exact: ltnW (n_gt1 ok).
by move=> p lp; rewrite /dictating; case: eqP => // _; rewrite d_ifft_fft2.
Qed.

Lemma d_ifft_garbled sid ord p : (0 < p < n)%N -> ModelNet.decode (vec_codec cF) (w p) = Err Generic ->
  king_fails (mkseq (fun p => pthread sid
    (sending w p (d_ifft dbg pp n p ord cF (x p) (masks p) rearrange dom g r))) n) (Err Generic).
Proof. by move=> pI Hp; rewrite sending_ifft; apply: (fft2_garbled _ _ masks_good spx _ _ pI Hp). Qed.

Variable y : nat -> seq F.
Hypothesis wK : forall p, (0 < p < n)%N -> ModelNet.decode (vec_codec cF) (w p) = Ok (y p).

Lemma d_ifft_short sid ord p : (0 < p < n)%N -> (size (y p) < m)%N ->
  king_dies (mkseq (fun p => pthread sid
    (sending w p (d_ifft dbg pp n p ord cF (x p) (masks p) rearrange dom g r))) n).
Proof. by move=> pI Hp; rewrite sending_ifft; apply: (fft2_short _ _ masks_good spx wK _ _ pI Hp). Qed.

Hypothesis y_long : forall p, (0 < p < n)%N -> (m <= size (y p))%N.
Variable x' : nat -> seq F.
Hypothesis x'0 : x' 0%N = x 0%N.
Hypothesis sx' : forall p, (p < n)%N -> size (x' p) = m.
Hypothesis x'1 : forall p, (0 < p < n)%N ->
  fft1 pp (scaled (x' p)) (d_gen_inv dom) = Ok (zipmap (fun a b => a - b) (y p) (fm_in (masks p))).

Let Y := implied (T := Fm) (fun p => fm_in (masks p)) px y.
Let YE p : (p < n)%N -> fft1 pp (scaled (x' p)) (d_gen_inv dom) = Ok (Y p).
Proof.
rewrite /Y /implied; case: eqP => [->|/eqP p0] lp; last by rewrite x'1 // lt0n p0.
by rewrite x'0 (fft1_value (dom_prim_inv Edom)) ?size_map ?sx.
Qed.

Let Yfacts : unbalanced (T := Fm) pp Y m = unbalanced (T := Fm) pp x' m /\
  forall e j, (e < m)%N -> (j < l)%N -> interpolated (T := Fm) pp (entry (T := Fm) Y e) j =
      bsum (d_gen_inv dom) (2 ^ lam) b e (fun i =>
        interpolated (T := Fm) pp (entry (T := Fm) x' i) j * d_size_inv dom).
Proof.
have [sx2 Ux2 Ix2] := scale_any (size_inv_neq0 Edom) sx'.
have [y' [Ey sy Uy Iy]] := fft1_any ok El m_small (dom_prim_inv Edom) sx2.
have E p : (p < n)%N -> Y p = y' p by move=> lp; have := YE lp; rewrite Ey // => -[->].
split; first by rewrite (eq_unbalanced E) Uy Ux2.
move=> e j le lj; transitivity (interpolated (T := Fm) pp (entry (T := Fm) y' e) j).
  by apply: eq_interpolated => p lp; rewrite /entry E.
by rewrite Iy //; apply: eq_bsum => i li; rewrite Ix2.
Qed.

Lemma d_ifft_bytes_caught sid ord : dbg -> unbalanced (T := Fm) pp x' m ->
  king_dies (mkseq (fun p => pthread sid
    (sending w p (d_ifft dbg pp n p ord cF (x p) (masks p) rearrange dom g r))) n).
Proof.
move=> dbgT bal; rewrite sending_ifft.
by apply: (fft2_bytes_caught _ (dom_prim_inv Edom) masks_good spx wK y_long) => //; rewrite (proj1 Yfacts).
Qed.

Lemma d_ifft_bytes (c : seq F) : ~~ (dbg && unbalanced (T := Fm) pp x' m) -> size c = (2 ^ k)%N ->
  (forall e j, (e < m)%N -> (j < l)%N ->
     strides (T := Fm) b k (evals (T := Fm) 1 (d_gen dom) (2 ^ k) c) e j
     = interpolated (T := Fm) pp (entry (T := Fm) x' e) j) ->
  exists out : nat -> seq F,
    vsharing (T := Fm) pp (2 * l) m out
      (slots (T := Fm) pp rearrange b k (coset_coeffs (T := Fm) g c)) /\
    forall ord, hash_ok ord -> king_prog n (fun d => (d != 0%N) && (n <= d)%N)
      (fun p => sending w p (d_ifft dbg pp n p ord cF (x p) (masks p) rearrange dom g r)) out.
Proof.
move=> bal sc Ec; have pr := dom_prim_inv Edom; have l0 := pp_l_gt0 ok; have [Uy Iy] := Yfacts.
rewrite -Uy in bal; have [out [Ho Hp]] := fft2_bytes r pr masks_good spx wK y_long bal.
exists out; split.
  apply: vsharing_ext Ho => // e j lt_e lt_j.
  rewrite -(ifft_slots ok El m_small Edom rearrange g sc lt_e lt_j) !(slots_ix pp lam b).
  have lq := slot_ix_lt El rearrange lt_e lt_j; rewrite !nth_mkseq //; congr (_ * _).
  apply: (eq_kfft El) => // i li.
  have lj : (i %% l < l)%N by rewrite ltn_pmod.
  have le : (i %/ l < m)%N by rewrite ltn_divLR // El -expnD.
  by rewrite Iy //; apply: eq_bsum => e' le'; rewrite Ec.
move=> ord Hord; apply: king_prog_ext (Hp ord Hord); first exact: ltnW (n_gt1 ok).
by move=> p lt_p; rewrite d_ifft_fft2.
Qed.

Lemma ifft_input (v : seq F) : size v = m -> exists s : seq F, size s = m /\
  fft1 pp (scaled s) (d_gen_inv dom) = Ok v.
Proof.
move=> sv; have [t [st Et]] := fft1_onto (dom_prim_inv Edom) sv.
exists [seq u / d_size_inv dom | u <- t]; split; first by rewrite size_map.
rewrite /scaled -map_comp (eq_map (f2 := id)) ?map_id // => u /=.
by rewrite divfK // (size_inv_neq0 Edom).
Qed.

End Inverse.
End Transform.
