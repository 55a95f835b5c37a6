(** Property theorems only; proofs are in ViewThm.v. *)
From mathcomp Require Import all_ssreflect all_algebra.
From mathcomp Require Import zify.
From Verif Require Import RingTac Base ModelField ModelUtils ModelPss ModelPack ModelFft ModelNet.
From Verif Require Import ModelProto ModelQap ModelProve ModelMain.
From Verif Require Import Spec SpecNet SpecView SpecProto SpecGroth SpecVerify.
From Verif Require Import NetProofs KingProofs LogProofs NetThm PartyProofs.
From Verif Require Import FieldProofs UtilsProofs PssProofs PackProofs FftProofs ProtoProofs DegProofs.
From Verif Require Import PssThm ProtoThm MaskProofs QapProofs ProveProofs ViewProofs.
Set Implicit Arguments.
Unset Strict Implicit.
Unset Printing Implicit Defensive.
Import GRing.Theory.
Local Open Scope ring_scope.
Local Notation Fm F := [lmodType F of F^o].
From Verif Require Import ViewThm.

(** C55, refuted: [QAP::pss] draws its randomness from [test_rng()], a generator with a published
    seed.  Whatever stream [r] that is: the shares of any [t] parties determine the vectors. *)
Theorem C55_hiding_refuted (F : fftField) dbg lam b (pp : pss F) (P : seq nat) (q q' q0 : qap_t F)
    (r : rng F) shares shares' :
  pss_new F dbg (2 ^ lam) = Ok pp -> ff_generator F ^+ p_n pp != 1 ->
  uniq P -> all (fun p => p < p_n pp)%N P -> size P = p_t pp ->
  size (q_a q) = (2 ^ (b + lam))%N -> size (q_b q) = (2 ^ (b + lam))%N ->
  size (q_c q) = (2 ^ (b + lam))%N ->
  size (q_a q') = (2 ^ (b + lam))%N -> size (q_b q') = (2 ^ (b + lam))%N ->
  size (q_c q') = (2 ^ (b + lam))%N ->
  qap_pss dbg pp q r = Ok shares -> qap_pss dbg pp q' r = Ok shares' ->
  (forall p, p \in P -> nth q0 shares p = nth q0 shares' p) ->
  [/\ q_a q = q_a q', q_b q = q_b q' & q_c q = q_c q'].
Proof. exact: c55_hiding_refuted. Qed.
Print Assumptions C55_hiding_refuted.

(** C56: with fresh randomness the shares of at most [t] parties do not depend on the vectors: some
    translation of the randomness makes the views for any two QAPs of the same dimensions equal. *)
Theorem C56_qap (F : fftField) dbg lam b (pp : pss F) (P : seq nat) (q q' q0 : qap_t F) :
  pss_new F dbg (2 ^ lam) = Ok pp -> ff_generator F ^+ p_n pp != 1 ->
  uniq P -> all (fun p => p < p_n pp)%N P -> (size P <= p_t pp)%N ->
  size (q_a q) = (2 ^ (b + lam))%N -> size (q_b q) = (2 ^ (b + lam))%N ->
  size (q_c q) = (2 ^ (b + lam))%N ->
  size (q_a q') = (2 ^ (b + lam))%N -> size (q_b q') = (2 ^ (b + lam))%N ->
  size (q_c q') = (2 ^ (b + lam))%N ->
  num_inputs q = num_inputs q' -> num_constraints q = num_constraints q' ->
  q_domain q = q_domain q' ->
  exists delta : rng F, forall r, exists shares shares',
    [/\ qap_pss dbg pp q r = Ok shares, qap_pss dbg pp q' (fun i => r i + delta i) = Ok shares' &
        forall p, p \in P -> nth q0 shares' p = nth q0 shares p].
Proof. exact: c56_qap. Qed.
Print Assumptions C56_qap.

(** C56: the shares of the witness made by the sha256 example. *)
Theorem C56_witness (F : fftField) dbg lam (pp : pss F) (P : seq nat) (z z' : seq F) :
  pss_new F dbg (2 ^ lam) = Ok pp -> ff_generator F ^+ p_n pp != 1 ->
  uniq P -> all (fun p => p < p_n pp)%N P -> (size P <= p_t pp)%N -> size z = size z' ->
  exists delta : rng F, forall r, exists shares shares',
    [/\ pack_from_witness dbg pp z r = Ok shares,
        pack_from_witness dbg pp z' (fun i => r i + delta i) = Ok shares' &
        forall p, p \in P -> nth [::] shares' p = nth [::] shares p].
Proof. exact: c56_witness. Qed.
Print Assumptions C56_witness.

(** C56: what at most [t] parties see of a distributed transform (their results and the messages they
    receive: [clog]) does not depend on the secrets of the other parties, if the king shares its
    result out with fresh randomness [r].  The messages the king collects are not part of these
    views; what they reveal is C28. *)
Theorem C56_d_fft (F : fftField) dbg lam b (pp : pss F) dom (cF : codec F) mb rearrange masks masks' x x'
    (sec sec' : nat -> nat -> F) deg (P : seq nat) :
  pss_new F dbg (2 ^ lam) = Ok pp -> domain_new F (2 ^ (b + lam)) = Some dom ->
  codec_ok cF mb -> (2 ^ b < 256 ^ 8)%N -> (deg <= 4 * 2 ^ lam - 1)%N ->
  ff_generator F ^+ p_n pp != 1 ->
  uniq P -> all (fun p => p < p_n pp)%N P -> (size P <= p_t pp)%N ->
  fft_masks dbg pp rearrange 1 (d_gen dom) (2 ^ (b + lam)) masks ->
  fft_masks dbg pp rearrange 1 (d_gen dom) (2 ^ (b + lam)) masks' ->
  (forall p, p \in P -> masks p = masks' p) ->
  vsharing (T := Fm F) pp deg (2 ^ b) x sec -> vsharing (T := Fm F) pp deg (2 ^ b) x' sec' ->
  exists delta : rng F, forall r, exists out out', [/\
    yields (p_n pp) false (fun ords p => clog (d_fft dbg pp (p_n pp) p (ords 0%N) cF (x p) (masks p)
      rearrange dom r) [::]) out,
    yields (p_n pp) false (fun ords p => clog (d_fft dbg pp (p_n pp) p (ords 0%N) cF (x' p) (masks' p)
      rearrange dom (fun i => r i + delta i)) [::]) out' &
    forall p, p \in P -> out' p = out p].
Proof. exact: c56_d_fft. Qed.
Print Assumptions C56_d_fft.

(** C56: the same for the inverse transform. *)
Theorem C56_d_ifft (F : fftField) dbg lam b (pp : pss F) dom (cF : codec F) mb rearrange g masks masks' x x'
    (sec sec' : nat -> nat -> F) deg (P : seq nat) :
  pss_new F dbg (2 ^ lam) = Ok pp -> domain_new F (2 ^ (b + lam)) = Some dom ->
  codec_ok cF mb -> (2 ^ b < 256 ^ 8)%N -> (deg <= 4 * 2 ^ lam - 1)%N ->
  ff_generator F ^+ p_n pp != 1 ->
  uniq P -> all (fun p => p < p_n pp)%N P -> (size P <= p_t pp)%N ->
  fft_masks dbg pp rearrange g (d_gen_inv dom) (2 ^ (b + lam)) masks ->
  fft_masks dbg pp rearrange g (d_gen_inv dom) (2 ^ (b + lam)) masks' ->
  (forall p, p \in P -> masks p = masks' p) ->
  vsharing (T := Fm F) pp deg (2 ^ b) x sec -> vsharing (T := Fm F) pp deg (2 ^ b) x' sec' ->
  exists delta : rng F, forall r, exists out out', [/\
    yields (p_n pp) false (fun ords p => clog (d_ifft dbg pp (p_n pp) p (ords 0%N) cF (x p) (masks p)
      rearrange dom g r) [::]) out,
    yields (p_n pp) false (fun ords p => clog (d_ifft dbg pp (p_n pp) p (ords 0%N) cF (x' p) (masks' p)
      rearrange dom g (fun i => r i + delta i)) [::]) out' &
    forall p, p \in P -> out' p = out p].
Proof. exact: c56_d_ifft. Qed.
Print Assumptions C56_d_ifft.

(** C56: the same for the degree reduction. *)
Theorem C56_deg_red (F : fftField) (T : lmodType F) dbg lam (pp : pss F) (gen gen' : T) (cT : codec T) mb m
    masks masks' x x' (sec sec' : nat -> nat -> T) deg (P : seq nat) :
  pss_new F dbg (2 ^ lam) = Ok pp -> codec_ok cT mb -> (0 < m < 256 ^ 8)%N ->
  (deg <= 4 * 2 ^ lam - 1)%N -> ff_generator F ^+ p_n pp != 1 ->
  uniq P -> all (fun p => p < p_n pp)%N P -> (size P <= p_t pp)%N ->
  degred_masks dbg pp gen m masks -> degred_masks dbg pp gen' m masks' ->
  (forall p, p \in P -> masks p = masks' p) ->
  vsharing pp deg m x sec -> vsharing pp deg m x' sec' ->
  exists delta : rng T, forall r, exists out out', [/\
    yields (p_n pp) false (fun ords p => clog (deg_red dbg pp (p_n pp) p (ords 0%N) cT (x p) (masks p) r) [::]) out,
    yields (p_n pp) false (fun ords p => clog (deg_red dbg pp (p_n pp) p (ords 0%N) cT (x' p) (masks' p)
      (fun i => r i + delta i)) [::]) out' &
    forall p, p \in P -> out' p = out p].
Proof. exact: c56_deg_red. Qed.
Print Assumptions C56_deg_red.

(** C56: if the king's randomness [r] is known (the rearranging transforms use [test_rng()]) fresh
    masks hide the secrets: some translation of the dealer's randomness leaves the masks and the
    views of at most [t] parties as they are when the secrets of the others change. *)
Theorem C56_d_fft_masks (F : fftField) dbg lam b (pp : pss F) dom (cF : codec F) mb rearrange x x'
    (sec sec' : nat -> nat -> F) deg (P : seq nat) (r : rng F) x0 :
  pss_new F dbg (2 ^ lam) = Ok pp -> domain_new F (2 ^ (b + lam)) = Some dom ->
  codec_ok cF mb -> (2 ^ b < 256 ^ 8)%N -> (deg <= 4 * 2 ^ lam - 1)%N ->
  ff_generator F ^+ p_n pp != 1 ->
  uniq P -> all (fun p => p < p_n pp)%N P -> (size P <= p_t pp)%N ->
  vsharing (T := Fm F) pp deg (2 ^ b) x sec -> vsharing (T := Fm F) pp deg (2 ^ b) x' sec' ->
  exists dv d_in d_out : rng F, forall values r_in r_out, exists masks masks' out out',
    [/\ fft_mask_sample dbg pp rearrange 1 (d_gen dom) (2 ^ (b + lam)) values r_in r_out = Ok masks,
        fft_mask_sample dbg pp rearrange 1 (d_gen dom) (2 ^ (b + lam)) (fun i => values i + dv i)
          (fun i => r_in i + d_in i) (fun i => r_out i + d_out i) = Ok masks',
        yields (p_n pp) false (fun ords p => clog (d_fft dbg pp (p_n pp) p (ords 0%N) cF (x p)
          (nth x0 masks p) rearrange dom r) [::]) out,
        yields (p_n pp) false (fun ords p => clog (d_fft dbg pp (p_n pp) p (ords 0%N) cF (x' p)
          (nth x0 masks' p) rearrange dom r) [::]) out' &
        forall p, p \in P -> nth x0 masks' p = nth x0 masks p /\ out' p = out p].
Proof. exact: c56_d_fft_masks. Qed.
Print Assumptions C56_d_fft_masks.

(** C56: the same for the inverse transform. *)
Theorem C56_d_ifft_masks (F : fftField) dbg lam b (pp : pss F) dom (cF : codec F) mb rearrange g x x'
    (sec sec' : nat -> nat -> F) deg (P : seq nat) (r : rng F) x0 :
  pss_new F dbg (2 ^ lam) = Ok pp -> domain_new F (2 ^ (b + lam)) = Some dom ->
  codec_ok cF mb -> (2 ^ b < 256 ^ 8)%N -> (deg <= 4 * 2 ^ lam - 1)%N ->
  ff_generator F ^+ p_n pp != 1 ->
  uniq P -> all (fun p => p < p_n pp)%N P -> (size P <= p_t pp)%N ->
  vsharing (T := Fm F) pp deg (2 ^ b) x sec -> vsharing (T := Fm F) pp deg (2 ^ b) x' sec' ->
  exists dv d_in d_out : rng F, forall values r_in r_out, exists masks masks' out out',
    [/\ fft_mask_sample dbg pp rearrange g (d_gen_inv dom) (2 ^ (b + lam)) values r_in r_out = Ok masks,
        fft_mask_sample dbg pp rearrange g (d_gen_inv dom) (2 ^ (b + lam)) (fun i => values i + dv i)
          (fun i => r_in i + d_in i) (fun i => r_out i + d_out i) = Ok masks',
        yields (p_n pp) false (fun ords p => clog (d_ifft dbg pp (p_n pp) p (ords 0%N) cF (x p)
          (nth x0 masks p) rearrange dom g r) [::]) out,
        yields (p_n pp) false (fun ords p => clog (d_ifft dbg pp (p_n pp) p (ords 0%N) cF (x' p)
          (nth x0 masks' p) rearrange dom g r) [::]) out' &
        forall p, p \in P -> nth x0 masks' p = nth x0 masks p /\ out' p = out p].
Proof. exact: c56_d_ifft_masks. Qed.
Print Assumptions C56_d_ifft_masks.

(** C56: the same for the degree reduction, for secrets that differ by multiples of the generator
    [gen] of the masks (any secrets, for field elements and for a cyclic group). *)
Theorem C56_deg_red_masks (F : fftField) (T : lmodType F) dbg lam (pp : pss F) (gen : T) (cT : codec T) mb m
    x x' (sec sec' : nat -> nat -> T) (c : nat -> nat -> F) deg (P : seq nat) (r : rng T) x0 :
  pss_new F dbg (2 ^ lam) = Ok pp -> codec_ok cT mb -> (0 < m < 256 ^ 8)%N ->
  (deg <= 4 * 2 ^ lam - 1)%N -> ff_generator F ^+ p_n pp != 1 ->
  uniq P -> all (fun p => p < p_n pp)%N P -> (size P <= p_t pp)%N ->
  vsharing pp deg m x sec -> vsharing pp deg m x' sec' ->
  (forall e j, sec e j - sec' e j = c e j *: gen) ->
  exists (dv : rng F) (d_in d_out : rng T), forall values r_in r_out, exists masks masks' out out',
    [/\ degred_mask_sample dbg pp gen m values r_in r_out = Ok masks,
        degred_mask_sample dbg pp gen m (fun i => values i + dv i) (fun i => r_in i + d_in i)
          (fun i => r_out i + d_out i) = Ok masks',
        yields (p_n pp) false (fun ords p => clog (deg_red dbg pp (p_n pp) p (ords 0%N) cT (x p)
          (nth x0 masks p) r) [::]) out,
        yields (p_n pp) false (fun ords p => clog (deg_red dbg pp (p_n pp) p (ords 0%N) cT (x' p)
          (nth x0 masks' p) r) [::]) out' &
        forall p, p \in P -> nth x0 masks' p = nth x0 masks p /\ out' p = out p].
Proof. exact: c56_deg_red_masks. Qed.
Print Assumptions C56_deg_red_masks.

(** C56: the same for the multi-scalar multiplication, whose masked result the king sends to every
    party as it is. *)
Theorem C56_d_msm_masks (F : fftField) (T : lmodType F) dbg lam (pp : pss F) (gen : T) (cT : codec T) mb m
    bases bases' scalars scalars' sb sb' ss ss' (c : F) (P : seq nat) x0 :
  pss_new F dbg (2 ^ lam) = Ok pp -> codec_ok cT mb -> ff_generator F ^+ p_n pp != 1 ->
  uniq P -> all (fun p => p < p_n pp)%N P -> (size P <= p_t pp)%N ->
  vsharing pp (2 * p_l pp) m bases sb -> vsharing (T := Fm F) pp (2 * p_l pp) m scalars ss ->
  vsharing pp (2 * p_l pp) m bases' sb' -> vsharing (T := Fm F) pp (2 * p_l pp) m scalars' ss' ->
  \sum_(e < m) \sum_(j < p_l pp) ss e j *: sb e j -
    \sum_(e < m) \sum_(j < p_l pp) ss' e j *: sb' e j = c *: gen ->
  exists (dv : rng F) (dr : rng T), forall values r, exists masks masks' out out',
    [/\ msm_mask_sample dbg pp gen values r = Ok masks,
        msm_mask_sample dbg pp gen (fun i => values i + dv i) (fun i => r i + dr i) = Ok masks',
        yields (p_n pp) false (fun ords p => clog (d_msm dbg pp (p_n pp) p (ords 0%N) cT (bases p)
          (scalars p) (nth x0 masks p)) [::]) out,
        yields (p_n pp) false (fun ords p => clog (d_msm dbg pp (p_n pp) p (ords 0%N) cT (bases' p)
          (scalars' p) (nth x0 masks' p)) [::]) out' &
        forall p, p \in P -> nth x0 masks' p = nth x0 masks p /\ out' p = out p].
Proof. exact: c56_d_msm_masks. Qed.
Print Assumptions C56_d_msm_masks.

