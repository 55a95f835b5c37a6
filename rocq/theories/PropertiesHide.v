(** Property theorems only; proofs are in HideThm.v. *)
From mathcomp Require Import all_ssreflect all_algebra.
From mathcomp Require Import zify.
From Verif Require Import RingTac Base ModelField ModelUtils ModelPss ModelPack ModelFft ModelNet.
From Verif Require Import ModelProto Spec SpecNet SpecProto RoundProofs.
From Verif Require Import FieldProofs UtilsProofs PssProofs PackProofs FftProofs ProtoProofs DegProofs.
From Verif Require Import PpProofs MaskProofs ProtoThm ExampleField.
Set Implicit Arguments.
Unset Strict Implicit.
Unset Printing Implicit Defensive.
Import GRing.Theory.
Local Open Scope ring_scope.
Local Notation Fm F := [lmodType F of F^o].
From Verif Require Import HideThm.

(** C26: in the transforms on sharings of degree below [2l], whatever the two inputs [x], [x'] and
    the masks used with [x], exactly one choice of the random values of the input mask makes the
    clients send the same messages with input [x']. *)
Theorem C26_d_fft (F : fftField) dbg lam b (pp : pss F) dom (cF : codec F) mb rearrange ord
    x sec x' sec' values r_in r_out masks r :
  pss_new F dbg (2 ^ lam) = Ok pp -> domain_new F (2 ^ (b + lam)) = Some dom ->
  codec_ok cF mb -> (2 ^ b < 256 ^ 8)%N ->
  vsharing (T := Fm F) pp (2 * 2 ^ lam) (2 ^ b) x sec ->
  vsharing (T := Fm F) pp (2 * 2 ^ lam) (2 ^ b) x' sec' ->
  let sample := fft_mask_sample dbg pp rearrange 1 (d_gen dom) (2 ^ (b + lam)) in
  let party x masks p :=
    d_fft dbg pp (p_n pp) p ord cF (x p) (nth (FftMask [::] [::]) masks p) rearrange dom r in
  sample values r_in r_out = Ok masks ->
  exists values' r_in',
    (forall r_out', exists masks', sample values' r_in' r_out' = Ok masks' /\
       forall p, (0 < p < p_n pp)%N ->
         exists msg, sends_only (party x masks p) msg /\ sends_only (party x' masks' p) msg) /\
    (forall values'' r_in'' r_out'' masks'', sample values'' r_in'' r_out'' = Ok masks'' ->
       (forall p, (0 < p < p_n pp)%N ->
         exists msg, sends_only (party x masks p) msg /\ sends_only (party x' masks'' p) msg) ->
       (forall i, (i < 2 ^ (b + lam))%N -> values'' i = values' i) /\
       (forall i, (i < 2 ^ b * p_t pp)%N -> r_in'' i = r_in' i)).
Proof. exact: c26_d_fft. Qed.
Print Assumptions C26_d_fft.

Theorem C26_d_ifft (F : fftField) dbg lam b (pp : pss F) dom (cF : codec F) mb rearrange g ord
    x sec x' sec' values r_in r_out masks r :
  pss_new F dbg (2 ^ lam) = Ok pp -> domain_new F (2 ^ (b + lam)) = Some dom ->
  codec_ok cF mb -> (2 ^ b < 256 ^ 8)%N ->
  vsharing (T := Fm F) pp (2 * 2 ^ lam) (2 ^ b) x sec ->
  vsharing (T := Fm F) pp (2 * 2 ^ lam) (2 ^ b) x' sec' ->
  let sample := fft_mask_sample dbg pp rearrange g (d_gen_inv dom) (2 ^ (b + lam)) in
  let party x masks p :=
    d_ifft dbg pp (p_n pp) p ord cF (x p) (nth (FftMask [::] [::]) masks p) rearrange dom g r in
  sample values r_in r_out = Ok masks ->
  exists values' r_in',
    (forall r_out', exists masks', sample values' r_in' r_out' = Ok masks' /\
       forall p, (0 < p < p_n pp)%N ->
         exists msg, sends_only (party x masks p) msg /\ sends_only (party x' masks' p) msg) /\
    (forall values'' r_in'' r_out'' masks'', sample values'' r_in'' r_out'' = Ok masks'' ->
       (forall p, (0 < p < p_n pp)%N ->
         exists msg, sends_only (party x masks p) msg /\ sends_only (party x' masks'' p) msg) ->
       (forall i, (i < 2 ^ (b + lam))%N -> values'' i = values' i) /\
       (forall i, (i < 2 ^ b * p_t pp)%N -> r_in'' i = r_in' i)).
Proof. exact: c26_d_ifft. Qed.
Print Assumptions C26_d_ifft.

(** C26: the same for degree reduction, over a group generated by [gen]. *)
Theorem C26_deg_red (F : fftField) (T : lmodType F) dbg lam (pp : pss F) (gen : T) (cT : codec T) mb m
    ord x (sec : nat -> nat -> T) x' (sec' : nat -> nat -> T) values r_in r_out masks r :
  pss_new F dbg (2 ^ lam) = Ok pp -> codec_ok cT mb -> (0 < m < 256 ^ 8)%N ->
  gen != 0 -> (forall z : T, exists a : F, z = a *: gen) ->
  vsharing pp (2 * 2 ^ lam) m x sec -> vsharing pp (2 * 2 ^ lam) m x' sec' ->
  let sample := degred_mask_sample dbg pp gen m in
  let party x masks p :=
    deg_red dbg pp (p_n pp) p ord cT (x p) (nth (degred_mask_zero T 0) masks p) r in
  sample values r_in r_out = Ok masks ->
  exists values' r_in',
    (forall r_out', exists masks', sample values' r_in' r_out' = Ok masks' /\
       forall p, (0 < p < p_n pp)%N ->
         exists msg, sends_only (party x masks p) msg /\ sends_only (party x' masks' p) msg) /\
    (forall values'' r_in'' r_out'' masks'', sample values'' r_in'' r_out'' = Ok masks'' ->
       (forall p, (0 < p < p_n pp)%N ->
         exists msg, sends_only (party x masks p) msg /\ sends_only (party x' masks'' p) msg) ->
       (forall i, (i < m * p_l pp)%N -> values'' i = values' i) /\
       (forall i, (i < m * p_t pp)%N -> r_in'' i = r_in' i)).
Proof. exact: c26_deg_red. Qed.
Print Assumptions C26_deg_red.

(** C28, refuted: degree reduction of squares of packed shares.  With packing factor 2 over the
    field of 17 elements, the clients' messages in a run with secrets 0, 0 can be such that no
    sharing of the secrets 0, 1 and no masks lead to the same messages: the mask has degree below
    [2l] and leaves the upper coefficients of the product visible. *)
Theorem C28_hiding_refuted dbg (cF : codec F17) mb ord r : codec_ok cF mb ->
  exists (s s' : seq F17) (q : rng F17), [/\ size s = 2%N, size s' = 2%N &
    forall values r_in r_out masks q' values' r_in' r_out' masks',
      degred_mask_sample (T := T17) dbg pp2 1 1 values r_in r_out = Ok masks ->
      degred_mask_sample (T := T17) dbg pp2 1 1 values' r_in' r_out' = Ok masks' ->
      ~ forall p, (0 < p < p_n pp2)%N -> exists msg,
        sends_only (deg_red (T := T17) dbg pp2 (p_n pp2) p ord cF (square_shares dbg pp2 s q p)
          (nth (degred_mask_zero T17 0) masks p) r) msg /\
        sends_only (deg_red (T := T17) dbg pp2 (p_n pp2) p ord cF (square_shares dbg pp2 s' q' p)
          (nth (degred_mask_zero T17 0) masks' p) r) msg].
Proof. exact: c28_hiding_refuted. Qed.
Print Assumptions C28_hiding_refuted.

(** C33, refuted: the first messages of the clients in [d_pp] determine all numerators and
    denominators (for all inputs, sharings, masks and random values). *)
Theorem C33_hiding_refuted (F : fftField) dbg lam pp (cF : codec F) mb m ord ord' masks masks'
    (xn xd xn' xd' : nat -> seq F) (num den num' den' : seq F) deg (r1 r2 r1' r2' : rng F) :
  pss_new F dbg (2 ^ lam) = Ok pp -> codec_ok cF mb -> (0 < m)%N -> (2 * m < 256 ^ 8)%N ->
  (deg <= 4 * 2 ^ lam - 1)%N ->
  size num = (m * 2 ^ lam)%N -> size den = (m * 2 ^ lam)%N ->
  size num' = (m * 2 ^ lam)%N -> size den' = (m * 2 ^ lam)%N ->
  vsharing (T := Fm F) pp deg m xn (blocks (T := Fm F) pp num) ->
  vsharing (T := Fm F) pp deg m xd (blocks (T := Fm F) pp den) ->
  vsharing (T := Fm F) pp deg m xn' (blocks (T := Fm F) pp num') ->
  vsharing (T := Fm F) pp deg m xd' (blocks (T := Fm F) pp den') ->
  (forall p, (0 < p < p_n pp)%N -> exists msg,
     first_message (d_pp dbg pp (p_n pp) p ord ord' cF (xn p) (xd p) (masks p) r1 r2) msg /\
     first_message (d_pp dbg pp (p_n pp) p ord ord' cF (xn' p) (xd' p) (masks' p) r1' r2') msg) ->
  num = num' /\ den = den'.
Proof. exact: c33_hiding_refuted. Qed.
Print Assumptions C33_hiding_refuted.

