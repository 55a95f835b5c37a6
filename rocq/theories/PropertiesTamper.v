(** Property theorems only; proofs are in TamperThm.v. *)
From mathcomp Require Import all_ssreflect all_algebra.
From mathcomp Require Import zify.
From Verif Require Import RingTac Base ModelField ModelUtils ModelPss ModelPack ModelFft ModelNet.
From Verif Require Import ModelProto Spec SpecNet SpecProto SpecTamper NetProofs KingProofs KingFail.
From Verif Require Import RoundProofs NetThm FieldProofs UtilsProofs PssProofs PackProofs FftProofs.
From Verif Require Import ProtoProofs DegProofs TamperProofs TamperFft PpProofs ProtoThm.
Set Implicit Arguments.
Unset Strict Implicit.
Unset Printing Implicit Defensive.
Import GRing.Theory.
Local Open Scope ring_scope.
Local Notation Fm F := [lmodType F of F^o].
From Verif Require Import TamperThm.

(** C73: the weights.  They are the values of the Lagrange polynomials of the share points at the
    secret points, and none of them is zero. *)
Theorem C73_weight (F : fftField) dbg lam (pp : pss F) p j :
  pss_new F dbg (2 ^ lam) = Ok pp -> ff_generator F ^+ p_n pp != 1 ->
  weight pp p j = share_pt pp p * (secret_pt pp j ^+ p_n pp - 1)
                  / ((p_n pp)%:R * (secret_pt pp j - share_pt pp p)) /\
  weight pp p j != 0.
Proof. exact: c73_weight. Qed.
Print Assumptions C73_weight.

Theorem C73_weight_without (F : fftField) dbg lam (pp : pss F) d p j :
  pss_new F dbg (2 ^ lam) = Ok pp -> ff_generator F ^+ p_n pp != 1 ->
  (d < p_n pp)%N -> (p < p_n pp)%N -> p != d ->
  weight_without pp d p j = weight pp p j * ((share_pt pp p - share_pt pp d)
                                             / (secret_pt pp j - share_pt pp d)) /\
  weight_without pp d p j != 0.
Proof. exact: c73_weight_without. Qed.
Print Assumptions C73_weight_without.

(** C73: on sharings the interpolation gives the secrets, and up to [n - 1] coefficients nothing is
    out of balance. *)
Theorem C73_sharings (F : fftField) (T : lmodType F) dbg lam (pp : pss F) deg (y g : nat -> T) :
  pss_new F dbg (2 ^ lam) = Ok pp ->
  sharing pp deg (mkseq y (p_n pp)) (mkseq g (2 ^ lam)) ->
  ((deg <= p_n pp)%N -> forall j, (j < 2 ^ lam)%N -> interpolated pp y j = g j) /\
  ((deg <= (p_n pp).-1)%N -> imbalance pp y = 0).
Proof. exact: c73_sharings. Qed.
Print Assumptions C73_sharings.

(** C73: [unpack2] on any shares at all. *)
Theorem C73_unpack2 (F : fftField) (T : lmodType F) dbg lam (pp : pss F) (y : nat -> T) :
  pss_new F dbg (2 ^ lam) = Ok pp ->
  unpack2 dbg pp (mkseq y (p_n pp)) =
  if dbg && (imbalance pp y != 0) then Panic else Ok (mkseq (interpolated pp y) (2 ^ lam)).
Proof. exact: c73_unpack2. Qed.
Print Assumptions C73_unpack2.

(** C73: degree reduction of any vectors at all, if nobody crashes.  In release builds all parties
    end with sharings of what the vectors interpolate to; in debug builds the same if every entry
    is balanced, and otherwise the king panics in every execution and nobody else finishes. *)
Theorem C73_deg_red (F : fftField) (T : lmodType F) dbg lam pp (gen : T) (cT : codec T) mb m masks x
    (r : rng T) :
  pss_new F dbg (2 ^ lam) = Ok pp -> codec_ok cT mb -> (0 < m < 256 ^ 8)%N ->
  degred_masks dbg pp gen m masks -> (forall p, (p < p_n pp)%N -> size (x p) = m) ->
  (dbg -> forall e, (e < m)%N -> imbalance pp (entry x e) = 0) ->
  exists out : nat -> seq T,
    vsharing pp (2 * 2 ^ lam) m out (fun e j => interpolated pp (entry x e) j) /\
    yields (p_n pp) true
      (fun ords p => deg_red dbg pp (p_n pp) p (ords 0%N) cT (x p) (masks p) r) out.
Proof. exact: c73_deg_red. Qed.
Print Assumptions C73_deg_red.

Theorem C73_deg_red_caught (F : fftField) (T : lmodType F) lam pp (gen : T) (cT : codec T) mb m masks x
    (r : rng T) sid ord e :
  pss_new F true (2 ^ lam) = Ok pp -> codec_ok cT mb -> (0 < m < 256 ^ 8)%N ->
  degred_masks true pp gen m masks -> (forall p, (p < p_n pp)%N -> size (x p) = m) ->
  hash_ok ord -> (e < m)%N -> imbalance pp (entry x e) != 0 ->
  king_dies (mkseq (fun p => pthread sid
    (deg_red true pp (p_n pp) p ord cT (x p) (masks p) r)) (p_n pp)).
Proof. exact: c73_deg_red_caught. Qed.
Print Assumptions C73_deg_red_caught.

(** C73: one party [q] replaces its shares by anything else.  In debug builds the king panics; in
    release builds nobody notices, and every slot of every replaced entry is wrong. *)
Theorem C73_one_party_debug (F : fftField) (T : lmodType F) lam pp (gen : T) (cT : codec T) mb m masks x
    sec deg (r : rng T) sid ord q v :
  pss_new F true (2 ^ lam) = Ok pp -> codec_ok cT mb -> (0 < m < 256 ^ 8)%N ->
  degred_masks true pp gen m masks -> (deg <= 4 * 2 ^ lam - 1)%N -> vsharing pp deg m x sec ->
  hash_ok ord -> (q < p_n pp)%N -> size v = m -> v != x q ->
  king_dies (mkseq (fun p => pthread sid
    (deg_red true pp (p_n pp) p ord cT (replaced x q v p) (masks p) r)) (p_n pp)).
Proof. exact: c73_one_party_debug. Qed.
Print Assumptions C73_one_party_debug.

Theorem C73_one_party_release (F : fftField) (T : lmodType F) lam pp (gen : T) (cT : codec T) mb m masks
    x sec deg (r : rng T) q v :
  pss_new F false (2 ^ lam) = Ok pp -> codec_ok cT mb -> (0 < m < 256 ^ 8)%N ->
  degred_masks false pp gen m masks -> (deg <= 4 * 2 ^ lam)%N -> vsharing pp deg m x sec ->
  ff_generator F ^+ p_n pp != 1 -> (q < p_n pp)%N -> size v = m ->
  exists out sec' : nat -> _, [/\ vsharing pp (2 * 2 ^ lam) m out sec',
    yields (p_n pp) true
      (fun ords p => deg_red false pp (p_n pp) p (ords 0%N) cT (replaced x q v p) (masks p) r) out,
    forall e j, (e < m)%N -> (j < 2 ^ lam)%N ->
      sec' e j = sec e j + weight pp q j *: (v`_e - (x q)`_e) &
    forall e j, (e < m)%N -> (j < 2 ^ lam)%N -> v`_e != (x q)`_e -> sec' e j != sec e j].
Proof. exact: c73_one_party_release. Qed.
Print Assumptions C73_one_party_release.

(** C73: two parties together are not noticed by debug builds either: the errors
    [share_pt q' *: a] and [- share_pt q *: a] cancel in the check, and every slot of every entry
    in which [a] is not zero is wrong. *)
Theorem C73_two_parties (F : fftField) (T : lmodType F) dbg lam pp (gen : T) (cT : codec T) mb m masks x
    sec deg (r : rng T) q q' (a : seq T) :
  pss_new F dbg (2 ^ lam) = Ok pp -> codec_ok cT mb -> (0 < m < 256 ^ 8)%N ->
  degred_masks dbg pp gen m masks -> (deg <= 4 * 2 ^ lam - 1)%N -> vsharing pp deg m x sec ->
  ff_generator F ^+ p_n pp != 1 -> (q < p_n pp)%N -> (q' < p_n pp)%N -> q != q' -> size a = m ->
  let v := zipmap (fun u w => u + share_pt pp q' *: w) (x q) a in
  let v' := zipmap (fun u w => u - share_pt pp q *: w) (x q') a in
  exists out sec' : nat -> _, [/\ vsharing pp (2 * 2 ^ lam) m out sec',
    yields (p_n pp) true (fun ords p =>
      deg_red dbg pp (p_n pp) p (ords 0%N) cT (replaced (replaced x q v) q' v' p) (masks p) r) out,
    forall e j, (e < m)%N -> (j < 2 ^ lam)%N ->
      sec' e j = sec e j + (share_pt pp q' * weight_without pp q' q j) *: a`_e &
    forall e j, (e < m)%N -> (j < 2 ^ lam)%N -> a`_e != 0 -> sec' e j != sec e j].
Proof. exact: c73_two_parties. Qed.
Print Assumptions C73_two_parties.

(** C73: if one party [d] sends nothing, the king interpolates from the others and has nothing left
    to check with: whatever they send, in either build, nobody notices. *)
Theorem C73_deg_red_missing (F : fftField) (T : lmodType F) dbg lam pp (gen : T) (cT : codec T) mb m
    masks x (r : rng T) d :
  pss_new F dbg (2 ^ lam) = Ok pp -> codec_ok cT mb -> (0 < m < 256 ^ 8)%N ->
  degred_masks dbg pp gen m masks -> (forall p, (p < p_n pp)%N -> size (x p) = m) ->
  (0 < d < p_n pp)%N ->
  exists out : nat -> seq T,
    vsharing pp (2 * 2 ^ lam) m out (fun e j => interpolated_without pp d (entry x e) j) /\
    forall sid ord, hash_ok ord ->
      every_schedule (crashing (p_n pp) d 0 (fun=> 0%N) (fun p =>
        pthread sid (deg_red dbg pp (p_n pp) p ord cT (x p) (masks p) r))) (fun p => p != d) out.
Proof. exact: c73_deg_red_missing. Qed.
Print Assumptions C73_deg_red_missing.

(** C73: so one other party [q] that replaces its shares makes every slot of every replaced entry
    wrong, in either build. *)
Theorem C73_one_party_missing (F : fftField) (T : lmodType F) dbg lam pp (gen : T) (cT : codec T) mb m
    masks x sec deg (r : rng T) d q v :
  pss_new F dbg (2 ^ lam) = Ok pp -> codec_ok cT mb -> (0 < m < 256 ^ 8)%N ->
  degred_masks dbg pp gen m masks -> (deg <= 4 * 2 ^ lam - 1)%N -> vsharing pp deg m x sec ->
  ff_generator F ^+ p_n pp != 1 -> (0 < d < p_n pp)%N -> (q < p_n pp)%N -> q != d -> size v = m ->
  exists out sec' : nat -> _, [/\ vsharing pp (2 * 2 ^ lam) m out sec',
    forall sid ord, hash_ok ord ->
      every_schedule (crashing (p_n pp) d 0 (fun=> 0%N) (fun p =>
        pthread sid (deg_red dbg pp (p_n pp) p ord cT (replaced x q v p) (masks p) r)))
        (fun p => p != d) out,
    forall e j, (e < m)%N -> (j < 2 ^ lam)%N ->
      sec' e j = sec e j + weight_without pp d q j *: (v`_e - (x q)`_e) &
    forall e j, (e < m)%N -> (j < 2 ^ lam)%N -> v`_e != (x q)`_e -> sec' e j != sec e j].
Proof. exact: c73_one_party_missing. Qed.
Print Assumptions C73_one_party_missing.

(** C73: multi-scalar multiplication of any shares at all, if nobody crashes. *)
Theorem C73_d_msm (F : fftField) (T : lmodType F) dbg lam pp (gen : T) (cT : codec T) mb m masks
    (bases : nat -> seq T) (scalars : nat -> seq F) :
  pss_new F dbg (2 ^ lam) = Ok pp -> codec_ok cT mb -> msm_masks dbg pp gen masks ->
  (forall p, (p < p_n pp)%N -> size (bases p) = m) ->
  (forall p, (p < p_n pp)%N -> size (scalars p) = m) ->
  (dbg -> imbalance pp (products bases scalars m) = 0) ->
  exists out : nat -> T,
    sharing pp (2 * 2 ^ lam) (mkseq out (p_n pp))
      (nseq (2 ^ lam) (\sum_(j < 2 ^ lam) interpolated pp (products bases scalars m) j)) /\
    yields (p_n pp) true (fun ords p =>
      d_msm dbg pp (p_n pp) p (ords 0%N) cT (bases p) (scalars p) (masks p)) out.
Proof. exact: c73_d_msm. Qed.
Print Assumptions C73_d_msm.

Theorem C73_d_msm_caught (F : fftField) (T : lmodType F) lam pp (gen : T) (cT : codec T) mb m masks
    (bases : nat -> seq T) (scalars : nat -> seq F) sid ord :
  pss_new F true (2 ^ lam) = Ok pp -> codec_ok cT mb -> msm_masks true pp gen masks ->
  (forall p, (p < p_n pp)%N -> size (bases p) = m) ->
  (forall p, (p < p_n pp)%N -> size (scalars p) = m) -> hash_ok ord ->
  imbalance pp (products bases scalars m) != 0 ->
  king_dies (mkseq (fun p => pthread sid
    (d_msm true pp (p_n pp) p ord cT (bases p) (scalars p) (masks p))) (p_n pp)).
Proof. exact: c73_d_msm_caught. Qed.
Print Assumptions C73_d_msm_caught.

(** C73: one party with other bases.  Its error [a] in the product reaches the result with the
    factor [\sum_j weight q j]. *)
Theorem C73_d_msm_one_party (F : fftField) (T : lmodType F) lam pp (gen : T) (cT : codec T) mb m masks
    (bases : nat -> seq T) sb (scalars : nat -> seq F) ss q v :
  pss_new F false (2 ^ lam) = Ok pp -> codec_ok cT mb -> msm_masks false pp gen masks ->
  vsharing pp (2 * 2 ^ lam) m bases sb -> vsharing (T := Fm F) pp (2 * 2 ^ lam) m scalars ss ->
  (q < p_n pp)%N -> size v = m ->
  let a := \sum_(e < m) (scalars q)`_e *: (v`_e - (bases q)`_e) in
  let S := \sum_(e < m) \sum_(j < 2 ^ lam) ss e j *: sb e j in
  exists out : nat -> T,
    sharing pp (2 * 2 ^ lam) (mkseq out (p_n pp))
      (nseq (2 ^ lam) (S + (\sum_(j < 2 ^ lam) weight pp q j) *: a)) /\
    yields (p_n pp) true (fun ords p =>
      d_msm false pp (p_n pp) p (ords 0%N) cT (replaced bases q v p) (scalars p) (masks p)) out.
Proof. exact: c73_d_msm_one_party. Qed.
Print Assumptions C73_d_msm_one_party.

(** C73: the transforms of any vectors at all, if nobody crashes: all parties end with sharings of
    the transform of what the vectors interpolate to. *)
Theorem C73_d_fft (F : fftField) dbg lam b pp dom (cF : codec F) mb rearrange masks (x : nat -> seq F)
    (r : rng F) :
  pss_new F dbg (2 ^ lam) = Ok pp -> domain_new F (2 ^ (b + lam)) = Some dom ->
  codec_ok cF mb -> (2 ^ b < 256 ^ 8)%N ->
  fft_masks dbg pp rearrange 1 (d_gen dom) (2 ^ (b + lam)) masks ->
  (forall p, (p < p_n pp)%N -> size (x p) = (2 ^ b)%N) ->
  (dbg -> forall e, (e < 2 ^ b)%N -> imbalance (T := Fm F) pp (entry (T := Fm F) x e) = 0) ->
  exists (c : seq F) (out : nat -> seq F), [/\ size c = (2 ^ (b + lam))%N,
    forall e j, (e < 2 ^ b)%N -> (j < 2 ^ lam)%N -> strides (T := Fm F) b (b + lam) c e j =
      interpolated (T := Fm F) pp (entry (T := Fm F) x e) j,
    vsharing (T := Fm F) pp (2 * 2 ^ lam) (2 ^ b) out (slots (T := Fm F) pp rearrange b (b + lam)
      (evals (T := Fm F) 1 (d_gen dom) (2 ^ (b + lam)) c)) &
    yields (p_n pp) true
      (fun ords p => d_fft dbg pp (p_n pp) p (ords 0%N) cF (x p) (masks p) rearrange dom r) out].
Proof. exact: c73_d_fft. Qed.
Print Assumptions C73_d_fft.

Theorem C73_d_ifft (F : fftField) dbg lam b pp dom (cF : codec F) mb rearrange g masks
    (x : nat -> seq F) (r : rng F) :
  pss_new F dbg (2 ^ lam) = Ok pp -> domain_new F (2 ^ (b + lam)) = Some dom ->
  codec_ok cF mb -> (2 ^ b < 256 ^ 8)%N ->
  fft_masks dbg pp rearrange g (d_gen_inv dom) (2 ^ (b + lam)) masks ->
  (forall p, (p < p_n pp)%N -> size (x p) = (2 ^ b)%N) ->
  (dbg -> forall e, (e < 2 ^ b)%N -> imbalance (T := Fm F) pp (entry (T := Fm F) x e) = 0) ->
  exists (c : seq F) (out : nat -> seq F), [/\ size c = (2 ^ (b + lam))%N,
    forall e j, (e < 2 ^ b)%N -> (j < 2 ^ lam)%N ->
      strides (T := Fm F) b (b + lam) (evals (T := Fm F) 1 (d_gen dom) (2 ^ (b + lam)) c) e j =
      interpolated (T := Fm F) pp (entry (T := Fm F) x e) j,
    vsharing (T := Fm F) pp (2 * 2 ^ lam) (2 ^ b) out
      (slots (T := Fm F) pp rearrange b (b + lam) (coset_coeffs (T := Fm F) g c)) &
    yields (p_n pp) true
      (fun ords p => d_ifft dbg pp (p_n pp) p (ords 0%N) cF (x p) (masks p) rearrange dom g r) out].
Proof. exact: c73_d_ifft. Qed.
Print Assumptions C73_d_ifft.

(** C73: and in debug builds the king panics if one party replaces its vector. *)
Theorem C73_d_fft_one_party_debug (F : fftField) lam b pp dom (cF : codec F) mb rearrange masks (x : nat -> seq F) sec deg
    (r : rng F) sid ord q v :
  pss_new F true (2 ^ lam) = Ok pp -> domain_new F (2 ^ (b + lam)) = Some dom ->
  codec_ok cF mb -> (2 ^ b < 256 ^ 8)%N -> (deg <= 4 * 2 ^ lam - 1)%N ->
  fft_masks true pp rearrange 1 (d_gen dom) (2 ^ (b + lam)) masks ->
  vsharing (T := Fm F) pp deg (2 ^ b) x sec ->
  hash_ok ord -> (q < p_n pp)%N -> size v = (2 ^ b)%N -> v != x q ->
  king_dies (mkseq (fun p => pthread sid
    (d_fft true pp (p_n pp) p ord cF (replaced x q v p) (masks p) rearrange dom r)) (p_n pp)).
Proof. exact: c73_d_fft_one_party_debug. Qed.
Print Assumptions C73_d_fft_one_party_debug.

Theorem C73_d_ifft_one_party_debug (F : fftField) lam b pp dom (cF : codec F) mb rearrange g masks (x : nat -> seq F) sec
    deg (r : rng F) sid ord q v :
  pss_new F true (2 ^ lam) = Ok pp -> domain_new F (2 ^ (b + lam)) = Some dom ->
  codec_ok cF mb -> (2 ^ b < 256 ^ 8)%N -> (deg <= 4 * 2 ^ lam - 1)%N ->
  fft_masks true pp rearrange g (d_gen_inv dom) (2 ^ (b + lam)) masks ->
  vsharing (T := Fm F) pp deg (2 ^ b) x sec ->
  hash_ok ord -> (q < p_n pp)%N -> size v = (2 ^ b)%N -> v != x q ->
  king_dies (mkseq (fun p => pthread sid
    (d_ifft true pp (p_n pp) p ord cF (replaced x q v p) (masks p) rearrange dom g r)) (p_n pp)).
Proof. exact: c73_d_ifft_one_party_debug. Qed.
Print Assumptions C73_d_ifft_one_party_debug.

