(** Property theorems only; proofs are in MixThm.v. *)
From mathcomp Require Import all_ssreflect all_algebra.
From mathcomp Require Import zify.
From Verif Require Import Base ModelField ModelUtils ModelPss ModelPack ModelFft ModelNet ModelProto.
From Verif Require Import Spec SpecNet SpecProto SpecTamper SpecBytes.
From Verif Require Import KingProofs RoundProofs FieldProofs UtilsProofs PssProofs PssThm PackProofs FftProofs.
From Verif Require Import ProtoProofs DegProofs FewProofs ProtoThm FewThm MixProofs BytesThm ModelNet.
Set Implicit Arguments.
Unset Strict Implicit.
Unset Printing Implicit Defensive.
Import GRing.Theory.
Local Open Scope ring_scope.
Local Notation Fm F := [lmodType F of F^o].
From Verif Require Import MixThm.

(** C75: the multi-scalar multiplication.  The parties in [dead] (at least one) are silent, those in
    [bad] send bytes that do not decode.  The king drops the latter and goes on with the [live] other
    messages: fewer than [t] give a protocol error, [t] or more but not enough to reconstruct a
    product make debug builds panic.  The others wait for ever. *)
Theorem C75_d_msm (F : fftField) (T : lmodType F) dbg lam pp (cT : codec T) mb sid ord dead bad w
    (bases : nat -> seq T) (scalars : nat -> seq F) (masks : nat -> msm_mask T) :
  pss_new F dbg (2 ^ lam) = Ok pp -> codec_ok cT mb -> hash_ok ord ->
  ~~ (dead 0%N || bad 0%N) -> (live_count (p_n pp) dead < p_n pp)%N ->
  (forall p, (p < p_n pp)%N -> bad p -> decode cT (w p) = Err Generic) ->
  (forall p, (p < p_n pp)%N -> size (bases p) = size (scalars p)) ->
  let live := live_count (p_n pp) (fun p => dead p || bad p) in
  let ps := with_garbled (p_n pp) sid dead bad w (fun p =>
    d_msm dbg pp (p_n pp) p ord cT (bases p) (scalars p) (masks p)) in
  ((live < p_t pp)%N -> king_fails ps (Err (Protocol 0))) /\
  (dbg -> (p_t pp <= live <= 2 * (p_t pp + p_l pp - 1))%N -> king_fails ps Panic).
Proof. exact: c75_d_msm. Qed.
Print Assumptions C75_d_msm.

(** C75: degree reduction. *)
Theorem C75_deg_red (F : fftField) (T : lmodType F) dbg lam pp (cT : codec T) mb sid ord dead bad w m
    (x : nat -> seq T) (masks : nat -> degred_mask T) (r : rng T) :
  pss_new F dbg (2 ^ lam) = Ok pp -> codec_ok cT mb -> hash_ok ord ->
  ~~ (dead 0%N || bad 0%N) -> (live_count (p_n pp) dead < p_n pp)%N ->
  (forall p, (p < p_n pp)%N -> bad p -> decode (vec_codec cT) (w p) = Err Generic) ->
  (0 < m < 256 ^ 8)%N ->
  (forall p, (p < p_n pp)%N ->
     [/\ size (x p) = m, size (dr_in (masks p)) = m & size (dr_out (masks p)) = m]) ->
  let live := live_count (p_n pp) (fun p => dead p || bad p) in
  let ps := with_garbled (p_n pp) sid dead bad w (fun p =>
    deg_red dbg pp (p_n pp) p ord cT (x p) (masks p) r) in
  ((live < p_t pp)%N -> king_fails ps (Err (Protocol 0))) /\
  (dbg -> (p_t pp <= live <= 2 * (p_t pp + p_l pp - 1))%N -> king_fails ps Panic).
Proof. exact: c75_deg_red. Qed.
Print Assumptions C75_deg_red.

(** C75: the transforms. *)
Theorem C75_d_fft (F : fftField) (dbg : bool) lam b pp dom (cF : codec F) mb rearrange
    (masks : nat -> fft_mask F) (x : nat -> seq F) (r : rng F) sid ord dead bad w :
  pss_new F dbg (2 ^ lam) = Ok pp -> domain_new F (2 ^ (b + lam)) = Some dom ->
  codec_ok cF mb -> (2 ^ b < 256 ^ 8)%N -> hash_ok ord ->
  ~~ (dead 0%N || bad 0%N) -> (live_count (p_n pp) dead < p_n pp)%N ->
  (forall p, (p < p_n pp)%N -> bad p -> decode (vec_codec cF) (w p) = Err Generic) ->
  (forall p, (p < p_n pp)%N -> size (x p) = (2 ^ b)%N /\ size (fm_in (masks p)) = (2 ^ b)%N) ->
  let live := live_count (p_n pp) (fun p => dead p || bad p) in
  let ps := with_garbled (p_n pp) sid dead bad w (fun p =>
    d_fft dbg pp (p_n pp) p ord cF (x p) (masks p) rearrange dom r) in
  ((live < p_t pp)%N -> king_fails ps (Err (Protocol 0))) /\
  (dbg -> (p_t pp <= live <= 2 * (p_t pp + p_l pp - 1))%N -> king_fails ps Panic).
Proof. exact: c75_d_fft. Qed.
Print Assumptions C75_d_fft.

Theorem C75_d_ifft (F : fftField) (dbg : bool) lam b pp dom (cF : codec F) mb rearrange g
    (masks : nat -> fft_mask F) (x : nat -> seq F) (r : rng F) sid ord dead bad w :
  pss_new F dbg (2 ^ lam) = Ok pp -> domain_new F (2 ^ (b + lam)) = Some dom ->
  codec_ok cF mb -> (2 ^ b < 256 ^ 8)%N -> hash_ok ord ->
  ~~ (dead 0%N || bad 0%N) -> (live_count (p_n pp) dead < p_n pp)%N ->
  (forall p, (p < p_n pp)%N -> bad p -> decode (vec_codec cF) (w p) = Err Generic) ->
  (forall p, (p < p_n pp)%N -> size (x p) = (2 ^ b)%N /\ size (fm_in (masks p)) = (2 ^ b)%N) ->
  let live := live_count (p_n pp) (fun p => dead p || bad p) in
  let ps := with_garbled (p_n pp) sid dead bad w (fun p =>
    d_ifft dbg pp (p_n pp) p ord cF (x p) (masks p) rearrange dom g r) in
  ((live < p_t pp)%N -> king_fails ps (Err (Protocol 0))) /\
  (dbg -> (p_t pp <= live <= 2 * (p_t pp + p_l pp - 1))%N -> king_fails ps Panic).
Proof. exact: c75_d_ifft. Qed.
Print Assumptions C75_d_ifft.

(** C75: the partial products: debug builds panic whenever [live] is at least [t]. *)
Theorem C75_d_pp (F : fftField) (dbg : bool) lam pp (cF : codec F) mb m
    (xn xd : nat -> seq F) (masks : nat -> degred_mask (Fm F)) (r r' : rng F) sid ord ord' dead bad w :
  pss_new F dbg (2 ^ lam) = Ok pp -> codec_ok cF mb -> (2 * m < 256 ^ 8)%N ->
  hash_ok ord ->
  ~~ (dead 0%N || bad 0%N) -> (live_count (p_n pp) dead < p_n pp)%N ->
  (forall p, (p < p_n pp)%N -> bad p -> decode (vec_codec cF) (w p) = Err Generic) ->
  (forall p, (p < p_n pp)%N -> size (xn p) = m /\ size (xd p) = m) ->
  let live := live_count (p_n pp) (fun p => dead p || bad p) in
  let ps := with_garbled (p_n pp) sid dead bad w (fun p =>
    d_pp dbg pp (p_n pp) p ord ord' cF (xn p) (xd p) (masks p) r r') in
  ((live < p_t pp)%N -> king_fails ps (Err (Protocol 0))) /\
  (dbg -> (p_t pp <= live < p_n pp)%N -> king_fails ps Panic).
Proof. exact: c75_d_pp. Qed.
Print Assumptions C75_d_pp.

(** C75: in release builds the result is right as long as [live] is at least [2l] (the degree of the
    masks) and the degree of the input; also those who sent garbage get their shares of it. *)
Theorem C75_release_d_fft (F : fftField) lam b pp dom (cF : codec F) mb rearrange masks x c deg (r : rng F) :
  pss_new F false (2 ^ lam) = Ok pp -> domain_new F (2 ^ (b + lam)) = Some dom ->
  codec_ok cF mb -> (2 ^ b < 256 ^ 8)%N -> (deg <= 4 * 2 ^ lam - 1)%N ->
  fft_masks false pp rearrange 1 (d_gen dom) (2 ^ (b + lam)) masks ->
  size c = (2 ^ (b + lam))%N ->
  vsharing (T := Fm F) pp deg (2 ^ b) x (strides (T := Fm F) b (b + lam) c) ->
  exists out : nat -> seq F,
    vsharing (T := Fm F) pp (2 * 2 ^ lam) (2 ^ b) out (slots (T := Fm F) pp rearrange b (b + lam)
      (evals (T := Fm F) 1 (d_gen dom) (2 ^ (b + lam)) c)) /\
    forall ord dead bad w sid, hash_ok ord ->
      ~~ (dead 0%N || bad 0%N) -> (live_count (p_n pp) dead < p_n pp)%N ->
      (forall p, (p < p_n pp)%N -> bad p -> decode (vec_codec cF) (w p) = Err Generic) ->
      (maxn deg (2 * 2 ^ lam) <= live_count (p_n pp) (fun p => dead p || bad p))%N ->
      every_schedule (with_garbled (p_n pp) sid dead bad w (fun p =>
        d_fft false pp (p_n pp) p ord cF (x p) (masks p) rearrange dom r)) (predC dead) out.
Proof. exact: c75_release_d_fft. Qed.
Print Assumptions C75_release_d_fft.

(** C75: the same for degree reduction. *)
Theorem C75_release_deg_red (F : fftField) (T : lmodType F) lam pp (gen : T) (cT : codec T) mb m masks
    (x : nat -> seq T) sec deg (r : rng T) :
  pss_new F false (2 ^ lam) = Ok pp -> codec_ok cT mb -> (0 < m < 256 ^ 8)%N ->
  (deg <= 4 * 2 ^ lam - 1)%N -> degred_masks false pp gen m masks ->
  vsharing pp deg m x sec ->
  exists out : nat -> seq T,
    vsharing pp (2 * 2 ^ lam) m out sec /\
    forall ord dead bad w sid, hash_ok ord ->
      ~~ (dead 0%N || bad 0%N) -> (live_count (p_n pp) dead < p_n pp)%N ->
      (forall p, (p < p_n pp)%N -> bad p -> decode (vec_codec cT) (w p) = Err Generic) ->
      (maxn deg (2 * 2 ^ lam) <= live_count (p_n pp) (fun p => dead p || bad p))%N ->
      every_schedule (with_garbled (p_n pp) sid dead bad w (fun p =>
        deg_red false pp (p_n pp) p ord cT (x p) (masks p) r)) (predC dead) out.
Proof. exact: c75_release_deg_red. Qed.
Print Assumptions C75_release_deg_red.

(** C75: the same for the inverse transform. *)
Theorem C75_release_d_ifft (F : fftField) lam b pp dom (cF : codec F) mb rearrange g masks x v deg (r : rng F) :
  pss_new F false (2 ^ lam) = Ok pp -> domain_new F (2 ^ (b + lam)) = Some dom ->
  codec_ok cF mb -> (2 ^ b < 256 ^ 8)%N -> (deg <= 4 * 2 ^ lam - 1)%N ->
  fft_masks false pp rearrange g (d_gen_inv dom) (2 ^ (b + lam)) masks ->
  size v = (2 ^ (b + lam))%N ->
  vsharing (T := Fm F) pp deg (2 ^ b) x (strides (T := Fm F) b (b + lam) v) ->
  exists (c : seq F) (out : nat -> seq F), [/\ size c = (2 ^ (b + lam))%N,
    v = evals (T := Fm F) 1 (d_gen dom) (2 ^ (b + lam)) c,
    vsharing (T := Fm F) pp (2 * 2 ^ lam) (2 ^ b) out
      (slots (T := Fm F) pp rearrange b (b + lam) (coset_coeffs (T := Fm F) g c)) &
    forall ord dead bad w sid, hash_ok ord ->
      ~~ (dead 0%N || bad 0%N) -> (live_count (p_n pp) dead < p_n pp)%N ->
      (forall p, (p < p_n pp)%N -> bad p -> decode (vec_codec cF) (w p) = Err Generic) ->
      (maxn deg (2 * 2 ^ lam) <= live_count (p_n pp) (fun p => dead p || bad p))%N ->
      every_schedule (with_garbled (p_n pp) sid dead bad w (fun p =>
        d_ifft false pp (p_n pp) p ord cF (x p) (masks p) rearrange dom g r)) (predC dead) out].
Proof. exact: c75_release_d_ifft. Qed.
Print Assumptions C75_release_d_ifft.

(** C75: one client [p] sends garbage in a release build.  If everybody takes part, the king stops with
    an error; if another client [q] is silent, all others get the right result. *)
Theorem C75_deg_red_rescued (F : fftField) (T : lmodType F) lam pp (gen : T) (cT : codec T) mb m masks
    (x : nat -> seq T) sec deg (r : rng T) w p :
  pss_new F false (2 ^ lam) = Ok pp -> codec_ok cT mb -> (0 < m < 256 ^ 8)%N ->
  (deg <= 4 * 2 ^ lam - 2)%N -> degred_masks false pp gen m masks -> vsharing pp deg m x sec ->
  (0 < p < p_n pp)%N -> decode (vec_codec cT) (w p) = Err Generic ->
  exists out : nat -> seq T, vsharing pp (2 * 2 ^ lam) m out sec /\
    forall ord sid, hash_ok ord ->
      let prog p := deg_red false pp (p_n pp) p ord cT (x p) (masks p) r in
      king_fails (with_garbled (p_n pp) sid pred0 (pred1 p) w prog) (Err Generic) /\
      forall q, (0 < q < p_n pp)%N -> q != p ->
        every_schedule (with_garbled (p_n pp) sid (pred1 q) (pred1 p) w prog) (predC (pred1 q)) out.
Proof. exact: c75_deg_red_rescued. Qed.
Print Assumptions C75_deg_red_rescued.

