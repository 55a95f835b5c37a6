(** Property theorems only; proofs are in BytesThm.v. *)
From mathcomp Require Import all_ssreflect all_algebra.
From mathcomp Require Import zify.
From Verif Require Import RingTac Base ModelField ModelUtils ModelPss ModelPack ModelFft ModelNet.
From Verif Require Import ModelProto Spec SpecNet SpecProto SpecTamper SpecBytes NetProofs KingProofs.
From Verif Require Import KingFail RoundProofs NetThm FieldProofs UtilsProofs PssProofs PackProofs FftProofs.
From Verif Require Import ProtoProofs DegProofs TamperProofs TamperFft PpProofs ProtoThm TamperThm.
From Verif Require Import BytesProofs BytesFft ModelNet.
Set Implicit Arguments.
Unset Strict Implicit.
Unset Printing Implicit Defensive.
Import GRing.Theory.
Local Open Scope ring_scope.
Local Notation Fm F := [lmodType F of F^o].
From Verif Require Import BytesThm.

(** C74: a message decodes or fails with [Generic]; nothing else can happen, whatever the bytes. *)
Theorem C74_decode A (c : codec A) (b : bytes) :
  (exists v, decode c b = Ok v) \/ decode c b = Err Generic.
Proof. exact: c74_decode. Qed.
Print Assumptions C74_decode.

(** C74: degree reduction, one message that does not decode: the king ends with that error in every
    execution, and nobody else finishes. *)
Theorem C74_deg_red_garbled (F : fftField) (T : lmodType F) dbg lam pp (gen : T) (cT : codec T) m
    masks x (r : rng T) w sid ord p :
  pss_new F dbg (2 ^ lam) = Ok pp -> (0 < m)%N ->
  degred_masks dbg pp gen m masks -> (forall p, (p < p_n pp)%N -> size (x p) = m) ->
  (0 < p < p_n pp)%N -> decode (vec_codec cT) (w p) = Err Generic ->
  king_fails (mkseq (fun p => pthread sid
    (sending w p (deg_red dbg pp (p_n pp) p ord cT (x p) (masks p) r))) (p_n pp)) (Err Generic).
Proof. exact: c74_deg_red_garbled. Qed.
Print Assumptions C74_deg_red_garbled.

(** C74: all messages decode, to vectors [y]; one shorter than the king's makes the king panic, in
    either build. *)
Theorem C74_deg_red_short (F : fftField) (T : lmodType F) dbg lam pp (gen : T) (cT : codec T) mb m
    masks x (r : rng T) w y sid ord p :
  pss_new F dbg (2 ^ lam) = Ok pp -> codec_ok cT mb -> (0 < m < 256 ^ 8)%N ->
  degred_masks dbg pp gen m masks -> (forall p, (p < p_n pp)%N -> size (x p) = m) ->
  (forall p, (0 < p < p_n pp)%N -> decode (vec_codec cT) (w p) = Ok (y p)) ->
  (0 < p < p_n pp)%N -> (size (y p) < m)%N ->
  king_dies (mkseq (fun p => pthread sid
    (sending w p (deg_red dbg pp (p_n pp) p ord cT (x p) (masks p) r))) (p_n pp)).
Proof. exact: c74_deg_red_short. Qed.
Print Assumptions C74_deg_red_short.

(** C74: otherwise the bytes do what the inputs [x'] do in C73: those from which the clients would
    have computed the vectors [y], cut to the king's length. *)
Theorem C74_deg_red (F : fftField) (T : lmodType F) dbg lam pp (gen : T) (cT : codec T) mb m
    masks x (r : rng T) w y :
  pss_new F dbg (2 ^ lam) = Ok pp -> codec_ok cT mb -> (0 < m < 256 ^ 8)%N ->
  degred_masks dbg pp gen m masks -> (forall p, (p < p_n pp)%N -> size (x p) = m) ->
  (forall p, (0 < p < p_n pp)%N -> decode (vec_codec cT) (w p) = Ok (y p)) ->
  (forall p, (0 < p < p_n pp)%N -> (m <= size (y p))%N) ->
  let x' p := if p == 0%N then x 0%N else zipmap (fun a b => a - b) (y p) (dr_in (masks p)) in
  (dbg -> forall e, (e < m)%N -> imbalance pp (entry x' e) = 0) ->
  exists out : nat -> seq T,
    vsharing pp (2 * 2 ^ lam) m out (fun e j => interpolated pp (entry x' e) j) /\
    yields (p_n pp) true
      (fun ords p => sending w p (deg_red dbg pp (p_n pp) p (ords 0%N) cT (x p) (masks p) r)) out.
Proof. exact: c74_deg_red. Qed.
Print Assumptions C74_deg_red.

Theorem C74_deg_red_caught (F : fftField) (T : lmodType F) lam pp (gen : T) (cT : codec T) mb m
    masks x (r : rng T) w y sid ord e :
  pss_new F true (2 ^ lam) = Ok pp -> codec_ok cT mb -> (0 < m < 256 ^ 8)%N ->
  degred_masks true pp gen m masks -> (forall p, (p < p_n pp)%N -> size (x p) = m) ->
  (forall p, (0 < p < p_n pp)%N -> decode (vec_codec cT) (w p) = Ok (y p)) ->
  (forall p, (0 < p < p_n pp)%N -> (m <= size (y p))%N) ->
  let x' p := if p == 0%N then x 0%N else zipmap (fun a b => a - b) (y p) (dr_in (masks p)) in
  (e < m)%N -> imbalance pp (entry x' e) != 0 ->
  king_dies (mkseq (fun p => pthread sid
    (sending w p (deg_red true pp (p_n pp) p ord cT (x p) (masks p) r))) (p_n pp)).
Proof. exact: c74_deg_red_caught. Qed.
Print Assumptions C74_deg_red_caught.

(** C74: multi-scalar multiplication. *)
Theorem C74_d_msm_garbled (F : fftField) (T : lmodType F) dbg lam pp (cT : codec T) m
    (masks : nat -> msm_mask T) (bases : nat -> seq T) (scalars : nat -> seq F) w sid ord p :
  pss_new F dbg (2 ^ lam) = Ok pp ->
  (forall p, (p < p_n pp)%N -> size (bases p) = m) ->
  (forall p, (p < p_n pp)%N -> size (scalars p) = m) ->
  (0 < p < p_n pp)%N -> decode cT (w p) = Err Generic ->
  king_fails (mkseq (fun p => pthread sid
    (sending w p (d_msm dbg pp (p_n pp) p ord cT (bases p) (scalars p) (masks p)))) (p_n pp))
    (Err Generic).
Proof. exact: c74_d_msm_garbled. Qed.
Print Assumptions C74_d_msm_garbled.

Theorem C74_d_msm (F : fftField) (T : lmodType F) dbg lam pp (gen : T) (cT : codec T) mb m masks
    (bases : nat -> seq T) (scalars : nat -> seq F) w y :
  pss_new F dbg (2 ^ lam) = Ok pp -> codec_ok cT mb -> msm_masks dbg pp gen masks ->
  (forall p, (p < p_n pp)%N -> size (bases p) = m) ->
  (forall p, (p < p_n pp)%N -> size (scalars p) = m) ->
  (forall p, (0 < p < p_n pp)%N -> decode cT (w p) = Ok (y p)) ->
  let u p := if p == 0%N then products bases scalars m 0 else y p - mm_in (masks p) in
  (dbg -> imbalance pp u = 0) ->
  exists out : nat -> T,
    sharing pp (2 * 2 ^ lam) (mkseq out (p_n pp))
      (nseq (2 ^ lam) (\sum_(j < 2 ^ lam) interpolated pp u j)) /\
    yields (p_n pp) true (fun ords p =>
      sending w p (d_msm dbg pp (p_n pp) p (ords 0%N) cT (bases p) (scalars p) (masks p))) out.
Proof. exact: c74_d_msm. Qed.
Print Assumptions C74_d_msm.

Theorem C74_d_msm_caught (F : fftField) (T : lmodType F) lam pp (gen : T) (cT : codec T) mb m masks
    (bases : nat -> seq T) (scalars : nat -> seq F) w y sid ord :
  pss_new F true (2 ^ lam) = Ok pp -> codec_ok cT mb -> msm_masks true pp gen masks ->
  (forall p, (p < p_n pp)%N -> size (bases p) = m) ->
  (forall p, (p < p_n pp)%N -> size (scalars p) = m) ->
  (forall p, (0 < p < p_n pp)%N -> decode cT (w p) = Ok (y p)) ->
  let u p := if p == 0%N then products bases scalars m 0 else y p - mm_in (masks p) in
  imbalance pp u != 0 ->
  king_dies (mkseq (fun p => pthread sid
    (sending w p (d_msm true pp (p_n pp) p ord cT (bases p) (scalars p) (masks p)))) (p_n pp)).
Proof. exact: c74_d_msm_caught. Qed.
Print Assumptions C74_d_msm_caught.

(** C74: the transforms. *)
Theorem C74_d_fft_garbled (F : fftField) dbg lam b pp dom (cF : codec F) rearrange masks
    (x : nat -> seq F) (r : rng F) w sid ord p :
  pss_new F dbg (2 ^ lam) = Ok pp -> domain_new F (2 ^ (b + lam)) = Some dom ->
  fft_masks dbg pp rearrange 1 (d_gen dom) (2 ^ (b + lam)) masks ->
  (forall p, (p < p_n pp)%N -> size (x p) = (2 ^ b)%N) ->
  (0 < p < p_n pp)%N -> decode (vec_codec cF) (w p) = Err Generic ->
  king_fails (mkseq (fun p => pthread sid (sending w p
    (d_fft dbg pp (p_n pp) p ord cF (x p) (masks p) rearrange dom r))) (p_n pp)) (Err Generic).
Proof. exact: c74_d_fft_garbled. Qed.
Print Assumptions C74_d_fft_garbled.

Theorem C74_d_fft_short (F : fftField) dbg lam b pp dom (cF : codec F) mb rearrange masks
    (x : nat -> seq F) (r : rng F) w y sid ord p :
  pss_new F dbg (2 ^ lam) = Ok pp -> domain_new F (2 ^ (b + lam)) = Some dom ->
  codec_ok cF mb -> (2 ^ b < 256 ^ 8)%N ->
  fft_masks dbg pp rearrange 1 (d_gen dom) (2 ^ (b + lam)) masks ->
  (forall p, (p < p_n pp)%N -> size (x p) = (2 ^ b)%N) ->
  (forall p, (0 < p < p_n pp)%N -> decode (vec_codec cF) (w p) = Ok (y p)) ->
  (0 < p < p_n pp)%N -> (size (y p) < 2 ^ b)%N ->
  king_dies (mkseq (fun p => pthread sid (sending w p
    (d_fft dbg pp (p_n pp) p ord cF (x p) (masks p) rearrange dom r))) (p_n pp)).
Proof. exact: c74_d_fft_short. Qed.
Print Assumptions C74_d_fft_short.

(** the inputs [x'] that the bytes stand for exist *)
Theorem C74_d_fft_inputs (F : fftField) dbg lam b pp dom rearrange masks (x y : nat -> seq F) :
  pss_new F dbg (2 ^ lam) = Ok pp -> domain_new F (2 ^ (b + lam)) = Some dom -> (2 ^ b < 256 ^ 8)%N ->
  fft_masks dbg pp rearrange 1 (d_gen dom) (2 ^ (b + lam)) masks ->
  (forall p, (p < p_n pp)%N -> size (x p) = (2 ^ b)%N) ->
  (forall p, (0 < p < p_n pp)%N -> (2 ^ b <= size (y p))%N) ->
  exists x' : nat -> seq F, [/\ x' 0%N = x 0%N,
    forall p, (p < p_n pp)%N -> size (x' p) = (2 ^ b)%N &
    forall p, (0 < p < p_n pp)%N ->
      fft1 pp (x' p) (d_gen dom) = Ok (zipmap (fun a b => a - b) (y p) (fm_in (masks p)))].
Proof. exact: c74_d_fft_inputs. Qed.
Print Assumptions C74_d_fft_inputs.

(** and if nothing is noticed the parties end with a transform of what [x'] interpolates to *)
Theorem C74_d_fft (F : fftField) dbg lam b pp dom (cF : codec F) mb rearrange masks
    (x : nat -> seq F) (r : rng F) w (y x' : nat -> seq F) :
  pss_new F dbg (2 ^ lam) = Ok pp -> domain_new F (2 ^ (b + lam)) = Some dom ->
  codec_ok cF mb -> (2 ^ b < 256 ^ 8)%N ->
  fft_masks dbg pp rearrange 1 (d_gen dom) (2 ^ (b + lam)) masks ->
  (forall p, (p < p_n pp)%N -> size (x p) = (2 ^ b)%N) ->
  (forall p, (0 < p < p_n pp)%N -> decode (vec_codec cF) (w p) = Ok (y p)) ->
  (forall p, (0 < p < p_n pp)%N -> (2 ^ b <= size (y p))%N) ->
  x' 0%N = x 0%N -> (forall p, (p < p_n pp)%N -> size (x' p) = (2 ^ b)%N) ->
  (forall p, (0 < p < p_n pp)%N ->
     fft1 pp (x' p) (d_gen dom) = Ok (zipmap (fun a b => a - b) (y p) (fm_in (masks p)))) ->
  (dbg -> forall e, (e < 2 ^ b)%N -> imbalance (T := Fm F) pp (entry (T := Fm F) x' e) = 0) ->
  exists (c : seq F) (out : nat -> seq F), [/\ size c = (2 ^ (b + lam))%N,
    forall e j, (e < 2 ^ b)%N -> (j < 2 ^ lam)%N -> strides (T := Fm F) b (b + lam) c e j =
      interpolated (T := Fm F) pp (entry (T := Fm F) x' e) j,
    vsharing (T := Fm F) pp (2 * 2 ^ lam) (2 ^ b) out (slots (T := Fm F) pp rearrange b (b + lam)
      (evals (T := Fm F) 1 (d_gen dom) (2 ^ (b + lam)) c)) &
    yields (p_n pp) true (fun ords p => sending w p
      (d_fft dbg pp (p_n pp) p (ords 0%N) cF (x p) (masks p) rearrange dom r)) out].
Proof. exact: c74_d_fft. Qed.
Print Assumptions C74_d_fft.

Theorem C74_d_fft_caught (F : fftField) lam b pp dom (cF : codec F) mb rearrange masks
    (x : nat -> seq F) (r : rng F) w (y x' : nat -> seq F) sid ord e :
  pss_new F true (2 ^ lam) = Ok pp -> domain_new F (2 ^ (b + lam)) = Some dom ->
  codec_ok cF mb -> (2 ^ b < 256 ^ 8)%N ->
  fft_masks true pp rearrange 1 (d_gen dom) (2 ^ (b + lam)) masks ->
  (forall p, (p < p_n pp)%N -> size (x p) = (2 ^ b)%N) ->
  (forall p, (0 < p < p_n pp)%N -> decode (vec_codec cF) (w p) = Ok (y p)) ->
  (forall p, (0 < p < p_n pp)%N -> (2 ^ b <= size (y p))%N) ->
  x' 0%N = x 0%N -> (forall p, (p < p_n pp)%N -> size (x' p) = (2 ^ b)%N) ->
  (forall p, (0 < p < p_n pp)%N ->
     fft1 pp (x' p) (d_gen dom) = Ok (zipmap (fun a b => a - b) (y p) (fm_in (masks p)))) ->
  (e < 2 ^ b)%N -> imbalance (T := Fm F) pp (entry (T := Fm F) x' e) != 0 ->
  king_dies (mkseq (fun p => pthread sid (sending w p
    (d_fft true pp (p_n pp) p ord cF (x p) (masks p) rearrange dom r))) (p_n pp)).
Proof. exact: c74_d_fft_caught. Qed.
Print Assumptions C74_d_fft_caught.

Theorem C74_d_ifft_garbled (F : fftField) dbg lam b pp dom (cF : codec F) rearrange g masks
    (x : nat -> seq F) (r : rng F) w sid ord p :
  pss_new F dbg (2 ^ lam) = Ok pp -> domain_new F (2 ^ (b + lam)) = Some dom ->
  fft_masks dbg pp rearrange g (d_gen_inv dom) (2 ^ (b + lam)) masks ->
  (forall p, (p < p_n pp)%N -> size (x p) = (2 ^ b)%N) ->
  (0 < p < p_n pp)%N -> decode (vec_codec cF) (w p) = Err Generic ->
  king_fails (mkseq (fun p => pthread sid (sending w p
    (d_ifft dbg pp (p_n pp) p ord cF (x p) (masks p) rearrange dom g r))) (p_n pp)) (Err Generic).
Proof. exact: c74_d_ifft_garbled. Qed.
Print Assumptions C74_d_ifft_garbled.

Theorem C74_d_ifft_short (F : fftField) dbg lam b pp dom (cF : codec F) mb rearrange g masks
    (x : nat -> seq F) (r : rng F) w y sid ord p :
  pss_new F dbg (2 ^ lam) = Ok pp -> domain_new F (2 ^ (b + lam)) = Some dom ->
  codec_ok cF mb -> (2 ^ b < 256 ^ 8)%N ->
  fft_masks dbg pp rearrange g (d_gen_inv dom) (2 ^ (b + lam)) masks ->
  (forall p, (p < p_n pp)%N -> size (x p) = (2 ^ b)%N) ->
  (forall p, (0 < p < p_n pp)%N -> decode (vec_codec cF) (w p) = Ok (y p)) ->
  (0 < p < p_n pp)%N -> (size (y p) < 2 ^ b)%N ->
  king_dies (mkseq (fun p => pthread sid (sending w p
    (d_ifft dbg pp (p_n pp) p ord cF (x p) (masks p) rearrange dom g r))) (p_n pp)).
Proof. exact: c74_d_ifft_short. Qed.
Print Assumptions C74_d_ifft_short.

(** the inputs [x'] that the bytes stand for exist *)
Theorem C74_d_ifft_inputs (F : fftField) dbg lam b pp dom rearrange g masks (x y : nat -> seq F) :
  pss_new F dbg (2 ^ lam) = Ok pp -> domain_new F (2 ^ (b + lam)) = Some dom -> (2 ^ b < 256 ^ 8)%N ->
  fft_masks dbg pp rearrange g (d_gen_inv dom) (2 ^ (b + lam)) masks ->
  (forall p, (p < p_n pp)%N -> size (x p) = (2 ^ b)%N) ->
  (forall p, (0 < p < p_n pp)%N -> (2 ^ b <= size (y p))%N) ->
  exists x' : nat -> seq F, [/\ x' 0%N = x 0%N,
    forall p, (p < p_n pp)%N -> size (x' p) = (2 ^ b)%N &
    forall p, (0 < p < p_n pp)%N ->
      fft1 pp [seq u * d_size_inv dom | u <- x' p] (d_gen_inv dom) = Ok (zipmap (fun a b => a - b) (y p) (fm_in (masks p)))].
Proof. exact: c74_d_ifft_inputs. Qed.
Print Assumptions C74_d_ifft_inputs.

(** and if nothing is noticed the parties end with a transform of what [x'] interpolates to *)
Theorem C74_d_ifft (F : fftField) dbg lam b pp dom (cF : codec F) mb rearrange g masks
    (x : nat -> seq F) (r : rng F) w (y x' : nat -> seq F) :
  pss_new F dbg (2 ^ lam) = Ok pp -> domain_new F (2 ^ (b + lam)) = Some dom ->
  codec_ok cF mb -> (2 ^ b < 256 ^ 8)%N ->
  fft_masks dbg pp rearrange g (d_gen_inv dom) (2 ^ (b + lam)) masks ->
  (forall p, (p < p_n pp)%N -> size (x p) = (2 ^ b)%N) ->
  (forall p, (0 < p < p_n pp)%N -> decode (vec_codec cF) (w p) = Ok (y p)) ->
  (forall p, (0 < p < p_n pp)%N -> (2 ^ b <= size (y p))%N) ->
  x' 0%N = x 0%N -> (forall p, (p < p_n pp)%N -> size (x' p) = (2 ^ b)%N) ->
  (forall p, (0 < p < p_n pp)%N ->
     fft1 pp [seq u * d_size_inv dom | u <- x' p] (d_gen_inv dom) = Ok (zipmap (fun a b => a - b) (y p) (fm_in (masks p)))) ->
  (dbg -> forall e, (e < 2 ^ b)%N -> imbalance (T := Fm F) pp (entry (T := Fm F) x' e) = 0) ->
  exists (c : seq F) (out : nat -> seq F), [/\ size c = (2 ^ (b + lam))%N,
    forall e j, (e < 2 ^ b)%N -> (j < 2 ^ lam)%N ->
      strides (T := Fm F) b (b + lam) (evals (T := Fm F) 1 (d_gen dom) (2 ^ (b + lam)) c) e j =
      interpolated (T := Fm F) pp (entry (T := Fm F) x' e) j,
    vsharing (T := Fm F) pp (2 * 2 ^ lam) (2 ^ b) out (slots (T := Fm F) pp rearrange b (b + lam)
      (coset_coeffs (T := Fm F) g c)) &
    yields (p_n pp) true (fun ords p => sending w p
      (d_ifft dbg pp (p_n pp) p (ords 0%N) cF (x p) (masks p) rearrange dom g r)) out].
Proof. exact: c74_d_ifft. Qed.
Print Assumptions C74_d_ifft.

Theorem C74_d_ifft_caught (F : fftField) lam b pp dom (cF : codec F) mb rearrange g masks
    (x : nat -> seq F) (r : rng F) w (y x' : nat -> seq F) sid ord e :
  pss_new F true (2 ^ lam) = Ok pp -> domain_new F (2 ^ (b + lam)) = Some dom ->
  codec_ok cF mb -> (2 ^ b < 256 ^ 8)%N ->
  fft_masks true pp rearrange g (d_gen_inv dom) (2 ^ (b + lam)) masks ->
  (forall p, (p < p_n pp)%N -> size (x p) = (2 ^ b)%N) ->
  (forall p, (0 < p < p_n pp)%N -> decode (vec_codec cF) (w p) = Ok (y p)) ->
  (forall p, (0 < p < p_n pp)%N -> (2 ^ b <= size (y p))%N) ->
  x' 0%N = x 0%N -> (forall p, (p < p_n pp)%N -> size (x' p) = (2 ^ b)%N) ->
  (forall p, (0 < p < p_n pp)%N ->
     fft1 pp [seq u * d_size_inv dom | u <- x' p] (d_gen_inv dom) = Ok (zipmap (fun a b => a - b) (y p) (fm_in (masks p)))) ->
  (e < 2 ^ b)%N -> imbalance (T := Fm F) pp (entry (T := Fm F) x' e) != 0 ->
  king_dies (mkseq (fun p => pthread sid (sending w p
    (d_ifft true pp (p_n pp) p ord cF (x p) (masks p) rearrange dom g r))) (p_n pp)).
Proof. exact: c74_d_ifft_caught. Qed.
Print Assumptions C74_d_ifft_caught.

(** C74: a king that answers arbitrary bytes.  No client notices: each ends with what its bytes
    decode to plus its output mask, whatever the lengths, also if one party crashes. *)
Theorem C74_king_deg_red (F : fftField) (T : lmodType F) dbg lam pp (gen : T) (cT : codec T) m
    masks x (r : rng T) w y a :
  pss_new F dbg (2 ^ lam) = Ok pp -> (0 < m)%N ->
  degred_masks dbg pp gen m masks -> (forall p, (p < p_n pp)%N -> size (x p) = m) ->
  (forall p, (0 < p < p_n pp)%N -> decode (vec_codec cT) (w p) = Ok (y p)) ->
  yields (p_n pp) false
    (fun ords p => dictating (p_n pp) w a p
       (deg_red dbg pp (p_n pp) p (ords 0%N) cT (x p) (masks p) r))
    (fun p => if p == 0%N then a else zipmap +%R (y p) (dr_out (masks p))).
Proof. exact: c74_king_deg_red. Qed.
Print Assumptions C74_king_deg_red.

Theorem C74_king_d_msm (F : fftField) (T : lmodType F) dbg lam pp (cT : codec T) m
    (masks : nat -> msm_mask T) (bases : nat -> seq T) (scalars : nat -> seq F) w y a :
  pss_new F dbg (2 ^ lam) = Ok pp ->
  (forall p, (p < p_n pp)%N -> size (bases p) = m) ->
  (forall p, (p < p_n pp)%N -> size (scalars p) = m) ->
  (forall p, (0 < p < p_n pp)%N -> decode cT (w p) = Ok (y p)) ->
  yields (p_n pp) false
    (fun ords p => dictating (p_n pp) w a p
       (d_msm dbg pp (p_n pp) p (ords 0%N) cT (bases p) (scalars p) (masks p)))
    (fun p => if p == 0%N then a else y p + mm_out (masks p)).
Proof. exact: c74_king_d_msm. Qed.
Print Assumptions C74_king_d_msm.

Theorem C74_king_d_fft (F : fftField) dbg lam b pp dom (cF : codec F) rearrange masks
    (x : nat -> seq F) (r : rng F) w y a :
  pss_new F dbg (2 ^ lam) = Ok pp -> domain_new F (2 ^ (b + lam)) = Some dom ->
  fft_masks dbg pp rearrange 1 (d_gen dom) (2 ^ (b + lam)) masks ->
  (forall p, (p < p_n pp)%N -> size (x p) = (2 ^ b)%N) ->
  (forall p, (0 < p < p_n pp)%N -> decode (vec_codec cF) (w p) = Ok (y p)) ->
  yields (p_n pp) false
    (fun ords p => dictating (p_n pp) w a p
       (d_fft dbg pp (p_n pp) p (ords 0%N) cF (x p) (masks p) rearrange dom r))
    (fun p => if p == 0%N then a else zipmap +%R (y p) (fm_out (masks p))).
Proof. exact: c74_king_d_fft. Qed.
Print Assumptions C74_king_d_fft.

Theorem C74_king_d_ifft (F : fftField) dbg lam b pp dom (cF : codec F) rearrange g masks
    (x : nat -> seq F) (r : rng F) w y a :
  pss_new F dbg (2 ^ lam) = Ok pp -> domain_new F (2 ^ (b + lam)) = Some dom ->
  fft_masks dbg pp rearrange g (d_gen_inv dom) (2 ^ (b + lam)) masks ->
  (forall p, (p < p_n pp)%N -> size (x p) = (2 ^ b)%N) ->
  (forall p, (0 < p < p_n pp)%N -> decode (vec_codec cF) (w p) = Ok (y p)) ->
  yields (p_n pp) false
    (fun ords p => dictating (p_n pp) w a p
       (d_ifft dbg pp (p_n pp) p (ords 0%N) cF (x p) (masks p) rearrange dom g r))
    (fun p => if p == 0%N then a else zipmap +%R (y p) (fm_out (masks p))).
Proof. exact: c74_king_d_ifft. Qed.
Print Assumptions C74_king_d_ifft.

