(** Property theorems only; proofs are in ProtoThm.v. *)
From mathcomp Require Import all_ssreflect all_algebra.
From mathcomp Require Import zify.
From Verif Require Import RingTac Base ModelField ModelUtils ModelPss ModelPack ModelFft ModelNet.
From Verif Require Import ModelProto Spec SpecNet SpecProto NetProofs KingProofs KingFail RoundProofs NetThm.
From Verif Require Import FieldProofs UtilsProofs PssProofs PackProofs FftProofs ProtoProofs DegProofs.
From Verif Require Import PpProofs.
Set Implicit Arguments.
Unset Strict Implicit.
Unset Printing Implicit Defensive.
Import GRing.Theory.
Local Open Scope ring_scope.
Local Notation Fm F := [lmodType F of F^o].
From Verif Require Import ProtoThm.

(** C22: the distributed transform.  [x p] are shares of bit-reversed coefficients [c]; for every
    mask, schedule, hash order and crash of one client, party [p] ends with [out p], and [out] are
    shares of the values of the polynomial on the domain. *)
Theorem C22_d_fft (F : fftField) dbg lam b pp dom (cF : codec F) mb rearrange masks x c deg (r : rng F) :
  pss_new F dbg (2 ^ lam) = Ok pp -> domain_new F (2 ^ (b + lam)) = Some dom ->
  codec_ok cF mb -> (2 ^ b < 256 ^ 8)%N -> (deg <= 4 * 2 ^ lam - 1)%N ->
  fft_masks dbg pp rearrange 1 (d_gen dom) (2 ^ (b + lam)) masks ->
  size c = (2 ^ (b + lam))%N ->
  vsharing (T := Fm F) pp deg (2 ^ b) x (strides (T := Fm F) b (b + lam) c) ->
  exists out : nat -> seq F,
    vsharing (T := Fm F) pp (2 * 2 ^ lam) (2 ^ b) out (slots (T := Fm F) pp rearrange b (b + lam)
      (evals (T := Fm F) 1 (d_gen dom) (2 ^ (b + lam)) c)) /\
    yields (p_n pp) false
      (fun ords p => d_fft dbg pp (p_n pp) p (ords 0%N) cF (x p) (masks p) rearrange dom r) out.
Proof. exact: c22_d_fft. Qed.
Print Assumptions C22_d_fft.

(** C23: the distributed inverse transform: the input are shares of arbitrary values [v] on the
    domain, which are the values of one polynomial [c]; the output are shares of the coefficients
    of [c(g x)]. *)
Theorem C23_d_ifft (F : fftField) dbg lam b pp dom (cF : codec F) mb rearrange g masks x v deg (r : rng F) :
  pss_new F dbg (2 ^ lam) = Ok pp -> domain_new F (2 ^ (b + lam)) = Some dom ->
  codec_ok cF mb -> (2 ^ b < 256 ^ 8)%N -> (deg <= 4 * 2 ^ lam - 1)%N ->
  fft_masks dbg pp rearrange g (d_gen_inv dom) (2 ^ (b + lam)) masks ->
  size v = (2 ^ (b + lam))%N ->
  vsharing (T := Fm F) pp deg (2 ^ b) x (strides (T := Fm F) b (b + lam) v) ->
  exists (c : seq F) (out : nat -> seq F), [/\ size c = (2 ^ (b + lam))%N,
    v = evals (T := Fm F) 1 (d_gen dom) (2 ^ (b + lam)) c,
    vsharing (T := Fm F) pp (2 * 2 ^ lam) (2 ^ b) out
      (slots (T := Fm F) pp rearrange b (b + lam) (coset_coeffs (T := Fm F) g c)) &
    yields (p_n pp) false
      (fun ords p => d_ifft dbg pp (p_n pp) p (ords 0%N) cF (x p) (masks p) rearrange dom g r) out].
Proof. exact: c23_d_ifft. Qed.
Print Assumptions C23_d_ifft.

(** C22, C23: debug builds reject shares that do not fill the domain, before anything is sent. *)
Theorem C22_debug_length (F : fftField) (pp : pss F) n me ord (cF : codec F) px mask rearrange dom r :
  (size px * p_l pp != d_size dom)%N ->
  d_fft true pp n me ord cF px mask rearrange dom r = CRet Panic.
Proof. exact: c22_debug_length. Qed.
Print Assumptions C22_debug_length.

Theorem C23_debug_length (F : fftField) (pp : pss F) n me ord (cF : codec F) px mask rearrange dom g r :
  (size px * p_l pp != d_size dom)%N ->
  d_ifft true pp n me ord cF px mask rearrange dom g r = CRet Panic.
Proof. exact: c23_debug_length. Qed.
Print Assumptions C23_debug_length.

(** C24: inverse transform with shift [g] and then the transform: the values of the interpolated
    polynomial on the coset [g H]. *)
Theorem C24_ifft_then_fft (F : fftField) dbg lam b pp dom (cF : codec F) mb rearrange g masks masks'
    x v deg (r r' : rng F) :
  pss_new F dbg (2 ^ lam) = Ok pp -> domain_new F (2 ^ (b + lam)) = Some dom ->
  codec_ok cF mb -> (2 ^ b < 256 ^ 8)%N -> (deg <= 4 * 2 ^ lam - 1)%N ->
  fft_masks dbg pp true g (d_gen_inv dom) (2 ^ (b + lam)) masks ->
  fft_masks dbg pp rearrange 1 (d_gen dom) (2 ^ (b + lam)) masks' ->
  size v = (2 ^ (b + lam))%N ->
  vsharing (T := Fm F) pp deg (2 ^ b) x (strides (T := Fm F) b (b + lam) v) ->
  exists (c : seq F) (out : nat -> seq F), [/\ size c = (2 ^ (b + lam))%N,
    v = evals (T := Fm F) 1 (d_gen dom) (2 ^ (b + lam)) c,
    vsharing (T := Fm F) pp (2 * 2 ^ lam) (2 ^ b) out (slots (T := Fm F) pp rearrange b (b + lam)
      (evals (T := Fm F) g (d_gen dom) (2 ^ (b + lam)) c)) &
    yields (p_n pp) false (fun ords p =>
      do! y := d_ifft dbg pp (p_n pp) p (ords 0%N) cF (x p) (masks p) true dom g r in
      d_fft dbg pp (p_n pp) p (ords 1%N) cF y (masks' p) rearrange dom r') out].
Proof. exact: c24_ifft_then_fft. Qed.
Print Assumptions C24_ifft_then_fft.

(** C24: without a shift the original values come back. *)
Theorem C24_roundtrip (F : fftField) dbg lam b pp dom (cF : codec F) mb rearrange masks masks'
    x v deg (r r' : rng F) :
  pss_new F dbg (2 ^ lam) = Ok pp -> domain_new F (2 ^ (b + lam)) = Some dom ->
  codec_ok cF mb -> (2 ^ b < 256 ^ 8)%N -> (deg <= 4 * 2 ^ lam - 1)%N ->
  fft_masks dbg pp true 1 (d_gen_inv dom) (2 ^ (b + lam)) masks ->
  fft_masks dbg pp rearrange 1 (d_gen dom) (2 ^ (b + lam)) masks' ->
  size v = (2 ^ (b + lam))%N ->
  vsharing (T := Fm F) pp deg (2 ^ b) x (strides (T := Fm F) b (b + lam) v) ->
  exists out : nat -> seq F,
    vsharing (T := Fm F) pp (2 * 2 ^ lam) (2 ^ b) out
      (slots (T := Fm F) pp rearrange b (b + lam) v) /\
    yields (p_n pp) false (fun ords p =>
      do! y := d_ifft dbg pp (p_n pp) p (ords 0%N) cF (x p) (masks p) true dom 1 r in
      d_fft dbg pp (p_n pp) p (ords 1%N) cF y (masks' p) rearrange dom r') out.
Proof. exact: c24_roundtrip. Qed.
Print Assumptions C24_roundtrip.

(** C27: degree reduction keeps the secrets and returns sharings of degree below [2l]. *)
Theorem C27_deg_red (F : fftField) (T : lmodType F) dbg lam pp (gen : T) (cT : codec T) mb m masks x
    (sec : nat -> nat -> T) deg (r : rng T) :
  pss_new F dbg (2 ^ lam) = Ok pp -> codec_ok cT mb -> (0 < m < 256 ^ 8)%N ->
  (deg <= 4 * 2 ^ lam - 1)%N -> degred_masks dbg pp gen m masks ->
  vsharing pp deg m x sec ->
  exists out : nat -> seq T, vsharing pp (2 * 2 ^ lam) m out sec /\
    yields (p_n pp) false
      (fun ords p => deg_red dbg pp (p_n pp) p (ords 0%N) cT (x p) (masks p) r) out.
Proof. exact: c27_deg_red. Qed.
Print Assumptions C27_deg_red.

(** C27: products of sharings (of field elements with module elements) are such inputs. *)
Theorem C27_products (F : fftField) (T : lmodType F) dbg lam pp (gen : T) (cT : codec T) mb m masks
    (s : nat -> seq F) ss (x : nat -> seq T) (sx : nat -> nat -> T) (r : rng T) :
  pss_new F dbg (2 ^ lam) = Ok pp -> codec_ok cT mb -> (0 < m < 256 ^ 8)%N ->
  degred_masks dbg pp gen m masks ->
  vsharing (T := Fm F) pp (2 * 2 ^ lam) m s ss -> vsharing pp (2 * 2 ^ lam) m x sx ->
  exists out : nat -> seq T,
    vsharing pp (2 * 2 ^ lam) m out (fun e j => ss e j *: sx e j) /\
    yields (p_n pp) false (fun ords p => deg_red dbg pp (p_n pp) p (ords 0%N) cT
      (zipmap (fun a y => a *: y) (s p) (x p)) (masks p) r) out.
Proof. exact: c27_products. Qed.
Print Assumptions C27_products.

(** C27: debug builds reject masks of another length, before anything is sent. *)
Theorem C27_debug_length (F : fftField) (T : lmodType F) (pp : pss F) n me ord (cT : codec T) x
    (mask : degred_mask T) r :
  (size x != size (dr_in mask)) || (size x != size (dr_out mask)) ->
  deg_red true pp n me ord cT x mask r = CRet Panic.
Proof. exact: c27_debug_length. Qed.
Print Assumptions C27_debug_length.

(** C29: the distributed multi-scalar multiplication: the output are shares of [l] copies of the
    sum of all [scalar * base]. *)
Theorem C29_d_msm (F : fftField) (T : lmodType F) dbg lam pp (gen : T) (cT : codec T) mb m masks
    (bases : nat -> seq T) (scalars : nat -> seq F) (bv : seq T) (sv : seq F) :
  pss_new F dbg (2 ^ lam) = Ok pp -> codec_ok cT mb ->
  msm_masks dbg pp gen masks ->
  vsharing pp (2 * 2 ^ lam) m bases (blocks pp bv) ->
  vsharing (T := Fm F) pp (2 * 2 ^ lam) m scalars (blocks (T := Fm F) pp sv) ->
  exists out : nat -> T,
    sharing pp (2 * 2 ^ lam) (mkseq out (p_n pp))
      (nseq (2 ^ lam) (\sum_(i < m * 2 ^ lam) sv`_i *: bv`_i)) /\
    yields (p_n pp) false
      (fun ords p => d_msm dbg pp (p_n pp) p (ords 0%N) cT (bases p) (scalars p) (masks p)) out.
Proof. exact: c29_d_msm. Qed.
Print Assumptions C29_d_msm.

(** C30: different numbers of bases and scalars. *)
Theorem C30_length_mismatch (F : fftField) (T : lmodType F) dbg (pp : pss F) n me ord (cT : codec T)
    bases scalars mask :
  size bases <> size scalars ->
  d_msm dbg pp n me ord cT bases scalars mask = CRet (if dbg then Panic else Err Generic).
Proof. exact: c30_length_mismatch. Qed.
Print Assumptions C30_length_mismatch.

(** C31: the partial products.  In debug builds the king insists on hearing from everybody. *)
Theorem C31_d_pp (F : fftField) dbg lam pp (cF : codec F) mb m gen masks
    (xn xd : nat -> seq F) (num den : seq F) deg (r r' : rng F) :
  pss_new F dbg (2 ^ lam) = Ok pp -> codec_ok cF mb -> (0 < m)%N -> (2 * m < 256 ^ 8)%N ->
  (deg <= 4 * 2 ^ lam - 1)%N -> degred_masks (T := Fm F) dbg pp gen m masks ->
  size num = (m * 2 ^ lam)%N -> size den = (m * 2 ^ lam)%N -> all (fun z => z != 0) den ->
  vsharing (T := Fm F) pp deg m xn (blocks (T := Fm F) pp num) ->
  vsharing (T := Fm F) pp deg m xd (blocks (T := Fm F) pp den) ->
  exists out : nat -> seq F,
    vsharing (T := Fm F) pp (2 * 2 ^ lam) m out
      (blocks (T := Fm F) pp (running_products num den)) /\
    yields (p_n pp) dbg (fun ords p =>
      d_pp dbg pp (p_n pp) p (ords 0%N) (ords 1%N) cF (xn p) (xd p) (masks p) r r') out.
Proof. exact: c31_d_pp. Qed.
Print Assumptions C31_d_pp.

(** C32: with a zero denominator the king panics in every execution and nobody else finishes. *)
Theorem C32_zero_denominator (F : fftField) dbg lam pp (cF : codec F) mb m masks
    (xn xd : nat -> seq F) (num den : seq F) deg (r r' : rng F) ord ord' sid :
  pss_new F dbg (2 ^ lam) = Ok pp -> codec_ok cF mb -> (0 < m)%N -> (2 * m < 256 ^ 8)%N ->
  (deg <= 4 * 2 ^ lam - 1)%N ->
  size num = (m * 2 ^ lam)%N -> size den = (m * 2 ^ lam)%N -> 0 \in den ->
  vsharing (T := Fm F) pp deg m xn (blocks (T := Fm F) pp num) ->
  vsharing (T := Fm F) pp deg m xd (blocks (T := Fm F) pp den) ->
  hash_ok ord ->
  king_dies (mkseq (fun p => pthread sid
    (d_pp dbg pp (p_n pp) p ord ord' cF (xn p) (xd p) (masks p) r r')) (p_n pp)).
Proof. exact: c32_zero_denominator. Qed.
Print Assumptions C32_zero_denominator.

(** C25: the secrets obtained do not depend on the masks. *)
Theorem C25_d_fft (F : fftField) dbg lam b pp dom (cF : codec F) mb rearrange masks masks' x c deg
    (r r' : rng F) :
  pss_new F dbg (2 ^ lam) = Ok pp -> domain_new F (2 ^ (b + lam)) = Some dom ->
  codec_ok cF mb -> (2 ^ b < 256 ^ 8)%N -> (deg <= 4 * 2 ^ lam - 1)%N ->
  fft_masks dbg pp rearrange 1 (d_gen dom) (2 ^ (b + lam)) masks ->
  fft_masks dbg pp rearrange 1 (d_gen dom) (2 ^ (b + lam)) masks' ->
  size c = (2 ^ (b + lam))%N ->
  vsharing (T := Fm F) pp deg (2 ^ b) x (strides (T := Fm F) b (b + lam) c) ->
  exists out out' : nat -> seq F, [/\
    yields (p_n pp) false (fun ords p =>
      d_fft dbg pp (p_n pp) p (ords 0%N) cF (x p) (masks p) rearrange dom r) out,
    yields (p_n pp) false (fun ords p =>
      d_fft dbg pp (p_n pp) p (ords 0%N) cF (x p) (masks' p) rearrange dom r') out' &
    forall e, (e < 2 ^ b)%N -> unpack (T := Fm F) pp (mkseq (fun p => (out p)`_e) (p_n pp)) =
                               unpack (T := Fm F) pp (mkseq (fun p => (out' p)`_e) (p_n pp))].
Proof. exact: c25_d_fft. Qed.
Print Assumptions C25_d_fft.

Theorem C25_d_ifft (F : fftField) dbg lam b pp dom (cF : codec F) mb rearrange g masks masks' x v deg
    (r r' : rng F) :
  pss_new F dbg (2 ^ lam) = Ok pp -> domain_new F (2 ^ (b + lam)) = Some dom ->
  codec_ok cF mb -> (2 ^ b < 256 ^ 8)%N -> (deg <= 4 * 2 ^ lam - 1)%N ->
  fft_masks dbg pp rearrange g (d_gen_inv dom) (2 ^ (b + lam)) masks ->
  fft_masks dbg pp rearrange g (d_gen_inv dom) (2 ^ (b + lam)) masks' ->
  size v = (2 ^ (b + lam))%N ->
  vsharing (T := Fm F) pp deg (2 ^ b) x (strides (T := Fm F) b (b + lam) v) ->
  exists out out' : nat -> seq F, [/\
    yields (p_n pp) false (fun ords p =>
      d_ifft dbg pp (p_n pp) p (ords 0%N) cF (x p) (masks p) rearrange dom g r) out,
    yields (p_n pp) false (fun ords p =>
      d_ifft dbg pp (p_n pp) p (ords 0%N) cF (x p) (masks' p) rearrange dom g r') out' &
    forall e, (e < 2 ^ b)%N -> unpack (T := Fm F) pp (mkseq (fun p => (out p)`_e) (p_n pp)) =
                               unpack (T := Fm F) pp (mkseq (fun p => (out' p)`_e) (p_n pp))].
Proof. exact: c25_d_ifft. Qed.
Print Assumptions C25_d_ifft.

Theorem C25_deg_red (F : fftField) (T : lmodType F) dbg lam pp (gen : T) (cT : codec T) mb m
    masks masks' x (sec : nat -> nat -> T) deg (r r' : rng T) :
  pss_new F dbg (2 ^ lam) = Ok pp -> codec_ok cT mb -> (0 < m < 256 ^ 8)%N ->
  (deg <= 4 * 2 ^ lam - 1)%N ->
  degred_masks dbg pp gen m masks -> degred_masks dbg pp gen m masks' ->
  vsharing pp deg m x sec ->
  exists out out' : nat -> seq T, [/\
    yields (p_n pp) false (fun ords p =>
      deg_red dbg pp (p_n pp) p (ords 0%N) cT (x p) (masks p) r) out,
    yields (p_n pp) false (fun ords p =>
      deg_red dbg pp (p_n pp) p (ords 0%N) cT (x p) (masks' p) r') out' &
    forall e, (e < m)%N -> unpack pp (mkseq (fun p => (out p)`_e) (p_n pp)) =
                           unpack pp (mkseq (fun p => (out' p)`_e) (p_n pp))].
Proof. exact: c25_deg_red. Qed.
Print Assumptions C25_deg_red.

Theorem C25_d_msm (F : fftField) (T : lmodType F) dbg lam pp (gen : T) (cT : codec T) mb m masks masks'
    (bases : nat -> seq T) (scalars : nat -> seq F) (bv : seq T) (sv : seq F) :
  pss_new F dbg (2 ^ lam) = Ok pp -> codec_ok cT mb ->
  msm_masks dbg pp gen masks -> msm_masks dbg pp gen masks' ->
  vsharing pp (2 * 2 ^ lam) m bases (blocks pp bv) ->
  vsharing (T := Fm F) pp (2 * 2 ^ lam) m scalars (blocks (T := Fm F) pp sv) ->
  exists out out' : nat -> T, [/\
    yields (p_n pp) false (fun ords p =>
      d_msm dbg pp (p_n pp) p (ords 0%N) cT (bases p) (scalars p) (masks p)) out,
    yields (p_n pp) false (fun ords p =>
      d_msm dbg pp (p_n pp) p (ords 0%N) cT (bases p) (scalars p) (masks' p)) out' &
    unpack pp (mkseq out (p_n pp)) = unpack pp (mkseq out' (p_n pp))].
Proof. exact: c25_d_msm. Qed.
Print Assumptions C25_d_msm.

