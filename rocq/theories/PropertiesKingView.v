(** Property theorems only; proofs are in KingViewThm.v. *)
From mathcomp Require Import all_ssreflect all_algebra.
From mathcomp Require Import zify.
From Verif Require Import RingTac Base ModelField ModelUtils ModelPss ModelPack ModelFft ModelNet.
From Verif Require Import ModelProto ModelQap ModelProve ModelMain.
From Verif Require Import Spec SpecNet SpecView SpecKing SpecProto SpecGroth SpecVerify.
From Verif Require Import NetProofs KingProofs RoundProofs LogProofs NetThm PartyProofs.
From Verif Require Import FieldProofs UtilsProofs PssProofs PackProofs FftProofs ProtoProofs DegProofs.
From Verif Require Import PssThm ProtoThm MaskProofs HideThm QapProofs ProveProofs ViewProofs ViewThm KingViewProofs.
Set Implicit Arguments.
Unset Strict Implicit.
Unset Printing Implicit Defensive.
Import GRing.Theory.
Local Open Scope ring_scope.
Local Notation Fm F := [lmodType F of F^o].
From Verif Require Import KingViewThm.

(** C61: what at most [t] parties, the king among them, see of the degree reduction: their masks, results
    and all messages, also those the king collects.  Inputs whose difference is a sharing of degree below
    [2l] and which give the coalition the same shares lead to the same views: some translation of the
    randomness of the masks leaves everything the coalition sees as it is. *)
Theorem C61_deg_red (F : fftField) (T : lmodType F) dbg lam (pp : pss F) (gen : T) (cT : codec T) mb m
    x x' (sec sec' : nat -> nat -> T) (c : nat -> nat -> F) deg (P : seq nat) (r : rng T) :
  pss_new F dbg (2 ^ lam) = Ok pp -> codec_ok cT mb -> (0 < m < 256 ^ 8)%N ->
  (deg <= 4 * 2 ^ lam - 1)%N -> ff_generator F ^+ p_n pp != 1 ->
  uniq P -> all (fun p => p < p_n pp)%N P -> (size P <= p_t pp)%N ->
  vsharing pp deg m x sec -> vsharing pp deg m x' sec' ->
  vsharing pp (2 * 2 ^ lam) m (fun p => zipmap (fun a b => a - b) (x p) (x' p)) (fun e j => sec e j - sec' e j) ->
  (forall p, p \in P -> x p = x' p) ->
  (forall e j, sec e j - sec' e j = c e j *: gen) ->
  exists (dv : rng F) (d_in d_out : rng T), forall values r_in r_out, exists masks masks' out out',
    let x0 := degred_mask_zero T 0 in
    [/\ degred_mask_sample dbg pp gen m values r_in r_out = Ok masks,
        degred_mask_sample dbg pp gen m (fun i => values i + dv i) (fun i => r_in i + d_in i)
          (fun i => r_out i + d_out i) = Ok masks',
        yields (p_n pp) true (fun ords p => clogk (deg_red dbg pp (p_n pp) p (ords 0%N) cT (x p)
          (nth x0 masks p) r) [::]) out,
        yields (p_n pp) true (fun ords p => clogk (deg_red dbg pp (p_n pp) p (ords 0%N) cT (x' p)
          (nth x0 masks' p) r) [::]) out' &
        forall p, p \in P -> nth x0 masks' p = nth x0 masks p /\ out' p = out p].
Proof. exact: c61_deg_red. Qed.
Print Assumptions C61_deg_red.

(** C61: the same for the transform. *)
Theorem C61_d_fft (F : fftField) dbg lam b (pp : pss F) dom (cF : codec F) mb rearrange x x'
    (sec sec' : nat -> nat -> F) deg (P : seq nat) (r : rng F) :
  pss_new F dbg (2 ^ lam) = Ok pp -> domain_new F (2 ^ (b + lam)) = Some dom ->
  codec_ok cF mb -> (2 ^ b < 256 ^ 8)%N -> (deg <= 4 * 2 ^ lam - 1)%N ->
  ff_generator F ^+ p_n pp != 1 ->
  uniq P -> all (fun p => p < p_n pp)%N P -> (size P <= p_t pp)%N ->
  vsharing (T := Fm F) pp deg (2 ^ b) x sec -> vsharing (T := Fm F) pp deg (2 ^ b) x' sec' ->
  vsharing (T := Fm F) pp (2 * 2 ^ lam) (2 ^ b) (fun p => zipmap (fun a b => a - b) (x p) (x' p))
    (fun e j => sec e j - sec' e j) ->
  (forall p, p \in P -> x p = x' p) ->
  exists dv d_in d_out : rng F, forall values r_in r_out, exists masks masks' out out',
    [/\ fft_mask_sample dbg pp rearrange 1 (d_gen dom) (2 ^ (b + lam)) values r_in r_out = Ok masks,
        fft_mask_sample dbg pp rearrange 1 (d_gen dom) (2 ^ (b + lam)) (fun i => values i + dv i)
          (fun i => r_in i + d_in i) (fun i => r_out i + d_out i) = Ok masks',
        yields (p_n pp) true (fun ords p => clogk (d_fft dbg pp (p_n pp) p (ords 0%N) cF (x p) (nth (no_mask F) masks p) rearrange dom r) [::]) out,
        yields (p_n pp) true (fun ords p => clogk (d_fft dbg pp (p_n pp) p (ords 0%N) cF (x' p) (nth (no_mask F) masks' p) rearrange dom r) [::]) out' &
        forall p, p \in P -> nth (no_mask F) masks' p = nth (no_mask F) masks p /\ out' p = out p].
Proof. exact: c61_d_fft. Qed.
Print Assumptions C61_d_fft.

(** C61: the same for the inverse transform. *)
Theorem C61_d_ifft (F : fftField) dbg lam b (pp : pss F) dom (cF : codec F) mb rearrange g x x'
    (sec sec' : nat -> nat -> F) deg (P : seq nat) (r : rng F) :
  pss_new F dbg (2 ^ lam) = Ok pp -> domain_new F (2 ^ (b + lam)) = Some dom ->
  codec_ok cF mb -> (2 ^ b < 256 ^ 8)%N -> (deg <= 4 * 2 ^ lam - 1)%N ->
  ff_generator F ^+ p_n pp != 1 ->
  uniq P -> all (fun p => p < p_n pp)%N P -> (size P <= p_t pp)%N ->
  vsharing (T := Fm F) pp deg (2 ^ b) x sec -> vsharing (T := Fm F) pp deg (2 ^ b) x' sec' ->
  vsharing (T := Fm F) pp (2 * 2 ^ lam) (2 ^ b) (fun p => zipmap (fun a b => a - b) (x p) (x' p))
    (fun e j => sec e j - sec' e j) ->
  (forall p, p \in P -> x p = x' p) ->
  exists dv d_in d_out : rng F, forall values r_in r_out, exists masks masks' out out',
    [/\ fft_mask_sample dbg pp rearrange g (d_gen_inv dom) (2 ^ (b + lam)) values r_in r_out = Ok masks,
        fft_mask_sample dbg pp rearrange g (d_gen_inv dom) (2 ^ (b + lam)) (fun i => values i + dv i)
          (fun i => r_in i + d_in i) (fun i => r_out i + d_out i) = Ok masks',
        yields (p_n pp) true (fun ords p => clogk (d_ifft dbg pp (p_n pp) p (ords 0%N) cF (x p) (nth (no_mask F) masks p) rearrange dom g r) [::]) out,
        yields (p_n pp) true (fun ords p => clogk (d_ifft dbg pp (p_n pp) p (ords 0%N) cF (x' p) (nth (no_mask F) masks' p) rearrange dom g r) [::]) out' &
        forall p, p \in P -> nth (no_mask F) masks' p = nth (no_mask F) masks p /\ out' p = out p].
Proof. exact: c61_d_ifft. Qed.
Print Assumptions C61_d_ifft.

(** C61: the same for the multi-scalar multiplication.  What has to be a sharing of degree below [2l] is
    the difference of the parties' own inner products. *)
Theorem C61_d_msm (F : fftField) (T : lmodType F) dbg lam (pp : pss F) (gen : T) (cT : codec T) mb m
    bases bases' scalars scalars' sb sb' ss ss' (c : nat -> F) (P : seq nat) :
  pss_new F dbg (2 ^ lam) = Ok pp -> codec_ok cT mb -> ff_generator F ^+ p_n pp != 1 ->
  uniq P -> all (fun p => p < p_n pp)%N P -> (size P <= p_t pp)%N ->
  vsharing pp (2 * p_l pp) m bases sb -> vsharing (T := Fm F) pp (2 * p_l pp) m scalars ss ->
  vsharing pp (2 * p_l pp) m bases' sb' -> vsharing (T := Fm F) pp (2 * p_l pp) m scalars' ss' ->
  sharing pp (2 * p_l pp)
    (mkseq (fun p => \sum_(e < m) (scalars p)`_e *: (bases p)`_e - \sum_(e < m) (scalars' p)`_e *: (bases' p)`_e) (p_n pp))
    (mkseq (fun j => \sum_(e < m) ss e j *: sb e j - \sum_(e < m) ss' e j *: sb' e j) (p_l pp)) ->
  (forall p, p \in P -> bases p = bases' p /\ scalars p = scalars' p) ->
  (forall j, \sum_(e < m) ss e j *: sb e j - \sum_(e < m) ss' e j *: sb' e j = c j *: gen) ->
  exists (dv : rng F) (dr : rng T), forall values r, exists masks masks' out out',
    let x0 := msm_mask_zero T in
    [/\ msm_mask_sample dbg pp gen values r = Ok masks,
        msm_mask_sample dbg pp gen (fun i => values i + dv i) (fun i => r i + dr i) = Ok masks',
        yields (p_n pp) true (fun ords p => clogk (d_msm dbg pp (p_n pp) p (ords 0%N) cT (bases p)
          (scalars p) (nth x0 masks p)) [::]) out,
        yields (p_n pp) true (fun ords p => clogk (d_msm dbg pp (p_n pp) p (ords 0%N) cT (bases' p)
          (scalars' p) (nth x0 masks' p)) [::]) out' &
        forall p, p \in P -> nth x0 masks' p = nth x0 masks p /\ out' p = out p].
Proof. exact: c61_d_msm. Qed.
Print Assumptions C61_d_msm.

(** C61: the condition on the difference is needed, for the degree reduction: when the king sees the same
    in two runs, in which it has the same share and the same mask, then the difference of the inputs is a
    sharing of degree below [2l], whatever the randomness of the masks.  So the messages tell products of
    sharings with different upper coefficients apart. *)
Theorem C61_deg_red_exact (F : fftField) (T : lmodType F) dbg lam (pp : pss F) (gen : T) (cT : codec T) mb m
    x x' (sec sec' : nat -> nat -> T) deg (r : rng T) :
  pss_new F dbg (2 ^ lam) = Ok pp -> codec_ok cT mb -> (0 < m < 256 ^ 8)%N ->
  (deg <= 4 * 2 ^ lam - 1)%N -> vsharing pp deg m x sec -> vsharing pp deg m x' sec' -> x 0%N = x' 0%N ->
  forall values r_in r_out values' r_in' r_out', exists masks masks' out out',
    let x0 := degred_mask_zero T 0 in
    [/\ degred_mask_sample dbg pp gen m values r_in r_out = Ok masks,
        degred_mask_sample dbg pp gen m values' r_in' r_out' = Ok masks',
        yields (p_n pp) true (fun ords p => clogk (deg_red dbg pp (p_n pp) p (ords 0%N) cT (x p)
          (nth x0 masks p) r) [::]) out,
        yields (p_n pp) true (fun ords p => clogk (deg_red dbg pp (p_n pp) p (ords 0%N) cT (x' p)
          (nth x0 masks' p) r) [::]) out' &
        nth x0 masks' 0 = nth x0 masks 0 -> out' 0%N = out 0%N ->
        vsharing pp (2 * 2 ^ lam) m (fun p => zipmap (fun a b => a - b) (x p) (x' p))
          (fun e j => sec e j - sec' e j)].
Proof. exact: c61_deg_red_exact. Qed.
Print Assumptions C61_deg_red_exact.

(** C61: the same for the multi-scalar multiplication: the difference of the parties' own inner products
    is a sharing of degree below [2l] when the king sees the same. *)
Theorem C61_d_msm_exact (F : fftField) (T : lmodType F) dbg lam (pp : pss F) (gen : T) (cT : codec T) mb m
    bases bases' scalars scalars' sb sb' ss ss' :
  pss_new F dbg (2 ^ lam) = Ok pp -> codec_ok cT mb ->
  vsharing pp (2 * p_l pp) m bases sb -> vsharing (T := Fm F) pp (2 * p_l pp) m scalars ss ->
  vsharing pp (2 * p_l pp) m bases' sb' -> vsharing (T := Fm F) pp (2 * p_l pp) m scalars' ss' ->
  bases 0%N = bases' 0%N -> scalars 0%N = scalars' 0%N ->
  forall values r values' r', exists masks masks' out out',
    let x0 := msm_mask_zero T in
    [/\ msm_mask_sample dbg pp gen values r = Ok masks,
        msm_mask_sample dbg pp gen values' r' = Ok masks',
        yields (p_n pp) true (fun ords p => clogk (d_msm dbg pp (p_n pp) p (ords 0%N) cT (bases p)
          (scalars p) (nth x0 masks p)) [::]) out,
        yields (p_n pp) true (fun ords p => clogk (d_msm dbg pp (p_n pp) p (ords 0%N) cT (bases' p)
          (scalars' p) (nth x0 masks' p)) [::]) out' &
        nth x0 masks' 0 = nth x0 masks 0 -> out' 0%N = out 0%N ->
        sharing pp (2 * p_l pp)
          (mkseq (fun p => \sum_(e < m) (scalars p)`_e *: (bases p)`_e
                           - \sum_(e < m) (scalars' p)`_e *: (bases' p)`_e) (p_n pp))
          (mkseq (fun j => \sum_(e < m) ss e j *: sb e j - \sum_(e < m) ss' e j *: sb' e j) (p_l pp))].
Proof. exact: c61_d_msm_exact. Qed.
Print Assumptions C61_d_msm_exact.

(** C61: and for the transforms, where the last one of [libsnark_h] gets a product of sharings. *)
Theorem C61_d_fft_exact (F : fftField) dbg lam b (pp : pss F) dom (cF : codec F) mb rearrange x x'
    (sec sec' : nat -> nat -> F) deg (r : rng F) :
  pss_new F dbg (2 ^ lam) = Ok pp -> domain_new F (2 ^ (b + lam)) = Some dom ->
  codec_ok cF mb -> (2 ^ b < 256 ^ 8)%N -> (deg <= 4 * 2 ^ lam - 1)%N ->
  vsharing (T := Fm F) pp deg (2 ^ b) x sec -> vsharing (T := Fm F) pp deg (2 ^ b) x' sec' -> x 0%N = x' 0%N ->
  forall values r_in r_out values' r_in' r_out', exists masks masks' out out',
    [/\ fft_mask_sample dbg pp rearrange 1 (d_gen dom) (2 ^ (b + lam)) values r_in r_out = Ok masks,
        fft_mask_sample dbg pp rearrange 1 (d_gen dom) (2 ^ (b + lam)) values' r_in' r_out' = Ok masks',
        yields (p_n pp) true (fun ords p => clogk (d_fft dbg pp (p_n pp) p (ords 0%N) cF (x p) (nth (no_mask F) masks p) rearrange dom r) [::]) out,
        yields (p_n pp) true (fun ords p => clogk (d_fft dbg pp (p_n pp) p (ords 0%N) cF (x' p) (nth (no_mask F) masks' p) rearrange dom r) [::]) out' &
        nth (no_mask F) masks' 0 = nth (no_mask F) masks 0 -> out' 0%N = out 0%N ->
        vsharing (T := Fm F) pp (2 * 2 ^ lam) (2 ^ b) (fun p => zipmap (fun a b => a - b) (x p) (x' p))
          (fun e j => sec e j - sec' e j)].
Proof. exact: c61_d_fft_exact. Qed.
Print Assumptions C61_d_fft_exact.

(** C61: the same for the inverse transform. *)
Theorem C61_d_ifft_exact (F : fftField) dbg lam b (pp : pss F) dom (cF : codec F) mb rearrange g x x'
    (sec sec' : nat -> nat -> F) deg (r : rng F) :
  pss_new F dbg (2 ^ lam) = Ok pp -> domain_new F (2 ^ (b + lam)) = Some dom ->
  codec_ok cF mb -> (2 ^ b < 256 ^ 8)%N -> (deg <= 4 * 2 ^ lam - 1)%N ->
  vsharing (T := Fm F) pp deg (2 ^ b) x sec -> vsharing (T := Fm F) pp deg (2 ^ b) x' sec' -> x 0%N = x' 0%N ->
  forall values r_in r_out values' r_in' r_out', exists masks masks' out out',
    [/\ fft_mask_sample dbg pp rearrange g (d_gen_inv dom) (2 ^ (b + lam)) values r_in r_out = Ok masks,
        fft_mask_sample dbg pp rearrange g (d_gen_inv dom) (2 ^ (b + lam)) values' r_in' r_out' = Ok masks',
        yields (p_n pp) true (fun ords p => clogk (d_ifft dbg pp (p_n pp) p (ords 0%N) cF (x p) (nth (no_mask F) masks p) rearrange dom g r) [::]) out,
        yields (p_n pp) true (fun ords p => clogk (d_ifft dbg pp (p_n pp) p (ords 0%N) cF (x' p) (nth (no_mask F) masks' p) rearrange dom g r) [::]) out' &
        nth (no_mask F) masks' 0 = nth (no_mask F) masks 0 -> out' 0%N = out 0%N ->
        vsharing (T := Fm F) pp (2 * 2 ^ lam) (2 ^ b) (fun p => zipmap (fun a b => a - b) (x p) (x' p))
          (fun e j => sec e j - sec' e j)].
Proof. exact: c61_d_ifft_exact. Qed.
Print Assumptions C61_d_ifft_exact.

