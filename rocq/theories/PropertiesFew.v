(** Property theorems only; proofs are in FewThm.v. *)
From mathcomp Require Import all_ssreflect all_algebra.
From mathcomp Require Import zify.
From Verif Require Import Base ModelField ModelUtils ModelPss ModelPack ModelFft ModelNet ModelProto.
From Verif Require Import Spec SpecNet SpecProto ExampleField.
From Verif Require Import KingProofs RoundProofs FieldProofs UtilsProofs PssProofs PssThm PackProofs FftProofs.
From Verif Require Import ProtoProofs DegProofs FewProofs ProtoThm.
Set Implicit Arguments.
Unset Strict Implicit.
Unset Printing Implicit Defensive.
Import GRing.Theory.
Local Open Scope ring_scope.
Local Notation Fm F := [lmodType F of F^o].
From Verif Require Import FewThm.

(** C59: the multi-scalar multiplication.  If fewer than [t] parties take part, the king reports a
    protocol error; in debug builds it panics if there are [t] or more but not enough to
    reconstruct a product.  The others wait for ever. *)
Theorem C59_d_msm (F : fftField) (T : lmodType F) dbg lam pp (cT : codec T) mb sid ord dead
    (bases : nat -> seq T) (scalars : nat -> seq F) (masks : nat -> msm_mask T) :
  pss_new F dbg (2 ^ lam) = Ok pp -> codec_ok cT mb -> hash_ok ord -> ~~ dead 0%N ->
  (forall p, (p < p_n pp)%N -> size (bases p) = size (scalars p)) ->
  let live := live_count (p_n pp) dead in
  let ps := with_silent (p_n pp) sid dead (fun p =>
    d_msm dbg pp (p_n pp) p ord cT (bases p) (scalars p) (masks p)) in
  ((live < p_t pp)%N -> king_fails ps (Err (Protocol 0))) /\
  (dbg -> (p_t pp <= live <= 2 * (p_t pp + p_l pp - 1))%N -> king_fails ps Panic).
Proof. exact: c59_d_msm. Qed.
Print Assumptions C59_d_msm.

(** C59: degree reduction. *)
Theorem C59_deg_red (F : fftField) (T : lmodType F) dbg lam pp (cT : codec T) mb sid ord dead m
    (x : nat -> seq T) (masks : nat -> degred_mask T) (r : rng T) :
  pss_new F dbg (2 ^ lam) = Ok pp -> codec_ok cT mb -> hash_ok ord -> ~~ dead 0%N ->
  (0 < m < 256 ^ 8)%N ->
  (forall p, (p < p_n pp)%N ->
     [/\ size (x p) = m, size (dr_in (masks p)) = m & size (dr_out (masks p)) = m]) ->
  let live := live_count (p_n pp) dead in
  let ps := with_silent (p_n pp) sid dead (fun p =>
    deg_red dbg pp (p_n pp) p ord cT (x p) (masks p) r) in
  ((live < p_t pp)%N -> king_fails ps (Err (Protocol 0))) /\
  (dbg -> (p_t pp <= live <= 2 * (p_t pp + p_l pp - 1))%N -> king_fails ps Panic).
Proof. exact: c59_deg_red. Qed.
Print Assumptions C59_deg_red.

(** C59: the transforms. *)
Theorem C59_d_fft (F : fftField) (dbg : bool) lam b pp dom (cF : codec F) mb rearrange
    (masks : nat -> fft_mask F) (x : nat -> seq F) (r : rng F) sid ord dead :
  pss_new F dbg (2 ^ lam) = Ok pp -> domain_new F (2 ^ (b + lam)) = Some dom ->
  codec_ok cF mb -> (2 ^ b < 256 ^ 8)%N -> hash_ok ord -> ~~ dead 0%N ->
  (forall p, (p < p_n pp)%N -> size (x p) = (2 ^ b)%N /\ size (fm_in (masks p)) = (2 ^ b)%N) ->
  let live := live_count (p_n pp) dead in
  let ps := with_silent (p_n pp) sid dead (fun p =>
    d_fft dbg pp (p_n pp) p ord cF (x p) (masks p) rearrange dom r) in
  ((live < p_t pp)%N -> king_fails ps (Err (Protocol 0))) /\
  (dbg -> (p_t pp <= live <= 2 * (p_t pp + p_l pp - 1))%N -> king_fails ps Panic).
Proof. exact: c59_d_fft. Qed.
Print Assumptions C59_d_fft.

Theorem C59_d_ifft (F : fftField) (dbg : bool) lam b pp dom (cF : codec F) mb rearrange g
    (masks : nat -> fft_mask F) (x : nat -> seq F) (r : rng F) sid ord dead :
  pss_new F dbg (2 ^ lam) = Ok pp -> domain_new F (2 ^ (b + lam)) = Some dom ->
  codec_ok cF mb -> (2 ^ b < 256 ^ 8)%N -> hash_ok ord -> ~~ dead 0%N ->
  (forall p, (p < p_n pp)%N -> size (x p) = (2 ^ b)%N /\ size (fm_in (masks p)) = (2 ^ b)%N) ->
  let live := live_count (p_n pp) dead in
  let ps := with_silent (p_n pp) sid dead (fun p =>
    d_ifft dbg pp (p_n pp) p ord cF (x p) (masks p) rearrange dom g r) in
  ((live < p_t pp)%N -> king_fails ps (Err (Protocol 0))) /\
  (dbg -> (p_t pp <= live <= 2 * (p_t pp + p_l pp - 1))%N -> king_fails ps Panic).
Proof. exact: c59_d_ifft. Qed.
Print Assumptions C59_d_ifft.

(** C59: the partial products: in debug builds any silent party makes the king panic. *)
Theorem C59_d_pp (F : fftField) (dbg : bool) lam pp (cF : codec F) mb m
    (xn xd : nat -> seq F) (masks : nat -> degred_mask (Fm F)) (r r' : rng F) sid ord ord' dead :
  pss_new F dbg (2 ^ lam) = Ok pp -> codec_ok cF mb -> (2 * m < 256 ^ 8)%N ->
  hash_ok ord -> ~~ dead 0%N ->
  (forall p, (p < p_n pp)%N -> size (xn p) = m /\ size (xd p) = m) ->
  let live := live_count (p_n pp) dead in
  let ps := with_silent (p_n pp) sid dead (fun p =>
    d_pp dbg pp (p_n pp) p ord ord' cF (xn p) (xd p) (masks p) r r') in
  ((live < p_t pp)%N -> king_fails ps (Err (Protocol 0))) /\
  (dbg -> (p_t pp <= live < p_n pp)%N -> king_fails ps Panic).
Proof. exact: c59_d_pp. Qed.
Print Assumptions C59_d_pp.

(** C59: release builds need no more shares than the degree of what is transformed: any number of
    clients may be silent as long as [live] is at least [2l] (the degree of the masks) and the
    degree of the input. *)
Theorem C59_release_d_fft (F : fftField) lam b pp dom (cF : codec F) mb rearrange masks x c deg (r : rng F) :
  pss_new F false (2 ^ lam) = Ok pp -> domain_new F (2 ^ (b + lam)) = Some dom ->
  codec_ok cF mb -> (2 ^ b < 256 ^ 8)%N -> (deg <= 4 * 2 ^ lam - 1)%N ->
  fft_masks false pp rearrange 1 (d_gen dom) (2 ^ (b + lam)) masks ->
  size c = (2 ^ (b + lam))%N ->
  vsharing (T := Fm F) pp deg (2 ^ b) x (strides (T := Fm F) b (b + lam) c) ->
  exists out : nat -> seq F,
    vsharing (T := Fm F) pp (2 * 2 ^ lam) (2 ^ b) out (slots (T := Fm F) pp rearrange b (b + lam)
      (evals (T := Fm F) 1 (d_gen dom) (2 ^ (b + lam)) c)) /\
    forall ord dead sid, hash_ok ord -> ~~ dead 0%N ->
      (maxn deg (2 * 2 ^ lam) <= live_count (p_n pp) dead)%N ->
      every_schedule (with_silent (p_n pp) sid dead (fun p =>
        d_fft false pp (p_n pp) p ord cF (x p) (masks p) rearrange dom r)) (predC dead) out.
Proof. exact: c59_release_d_fft. Qed.
Print Assumptions C59_release_d_fft.

(** C59: the same for degree reduction. *)
Theorem C59_release_deg_red (F : fftField) (T : lmodType F) lam pp (gen : T) (cT : codec T) mb m masks
    (x : nat -> seq T) sec deg (r : rng T) :
  pss_new F false (2 ^ lam) = Ok pp -> codec_ok cT mb -> (0 < m < 256 ^ 8)%N ->
  (deg <= 4 * 2 ^ lam - 1)%N -> degred_masks false pp gen m masks ->
  vsharing pp deg m x sec ->
  exists out : nat -> seq T,
    vsharing pp (2 * 2 ^ lam) m out sec /\
    forall ord dead sid, hash_ok ord -> ~~ dead 0%N ->
      (maxn deg (2 * 2 ^ lam) <= live_count (p_n pp) dead)%N ->
      every_schedule (with_silent (p_n pp) sid dead (fun p =>
        deg_red false pp (p_n pp) p ord cT (x p) (masks p) r)) (predC dead) out.
Proof. exact: c59_release_deg_red. Qed.
Print Assumptions C59_release_deg_red.

(** C59: the same for the inverse transform. *)
Theorem C59_release_d_ifft (F : fftField) lam b pp dom (cF : codec F) mb rearrange g masks x v deg (r : rng F) :
  pss_new F false (2 ^ lam) = Ok pp -> domain_new F (2 ^ (b + lam)) = Some dom ->
  codec_ok cF mb -> (2 ^ b < 256 ^ 8)%N -> (deg <= 4 * 2 ^ lam - 1)%N ->
  fft_masks false pp rearrange g (d_gen_inv dom) (2 ^ (b + lam)) masks ->
  size v = (2 ^ (b + lam))%N ->
  vsharing (T := Fm F) pp deg (2 ^ b) x (strides (T := Fm F) b (b + lam) v) ->
  exists (c : seq F) (out : nat -> seq F), [/\ size c = (2 ^ (b + lam))%N,
    v = evals (T := Fm F) 1 (d_gen dom) (2 ^ (b + lam)) c,
    vsharing (T := Fm F) pp (2 * 2 ^ lam) (2 ^ b) out
      (slots (T := Fm F) pp rearrange b (b + lam) (coset_coeffs (T := Fm F) g c)) &
    forall ord dead sid, hash_ok ord -> ~~ dead 0%N ->
      (maxn deg (2 * 2 ^ lam) <= live_count (p_n pp) dead)%N ->
      every_schedule (with_silent (p_n pp) sid dead (fun p =>
        d_ifft false pp (p_n pp) p ord cF (x p) (masks p) rearrange dom g r)) (predC dead) out].
Proof. exact: c59_release_d_ifft. Qed.
Print Assumptions C59_release_d_ifft.

(** C59, refuted for release builds: "if enough parties take part for the king to answer, the
    answer is right".  With eight parties of which six are silent the king's check for [t] = 2
    messages succeeds and both live parties get the same wrong sum. *)
Theorem C59_release_refuted (cF : codec F17) mb : codec_ok cF mb ->
  exists (pp : pss F17) (sb ss shb shs : seq F17) (rb rs : rng F17) (dead : pred nat) (v : F17),
    [/\ pss_new F17 false (2 ^ 1) = Ok pp,
        pack (T := T17) false pp sb rb = Ok shb /\ pack (T := T17) false pp ss rs = Ok shs,
        ~~ dead 0%N /\ (p_t pp <= live_count (p_n pp) dead)%N,
        v != ss`_0 * sb`_0 + ss`_1 * sb`_1 &
        forall ord sid, hash_ok ord -> every_schedule (with_silent (p_n pp) sid dead (fun p =>
          d_msm (T := T17) false pp (p_n pp) p ord cF [:: shb`_p] [:: shs`_p] (msm_mask_zero T17)))
          (predC dead) (fun=> v)].
Proof. exact: c59_release_refuted. Qed.
Print Assumptions C59_release_refuted.

