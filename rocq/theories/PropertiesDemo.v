(** Property theorems only; proofs are in DemoThm.v. *)
From mathcomp Require Import all_ssreflect all_algebra.
From mathcomp Require Import zify.
From Verif Require Import Base ModelField ModelUtils ModelPss ModelPack ModelFft ModelNet ModelProto.
From Verif Require Import ModelDemo Spec SpecNet SpecProto ExampleField ExamplesNet ExamplesProto.
From Verif Require Import KingProofs RoundProofs FieldProofs UtilsProofs PssProofs PackProofs FftProofs.
From Verif Require Import ProtoProofs DegProofs PpProofs FewProofs MaskProofs ViewProofs ProtoThm ViewThm.
Set Implicit Arguments.
Unset Strict Implicit.
Unset Printing Implicit Defensive.
Import GRing.Theory.
Local Open Scope ring_scope.
Local Notation Fm F := [lmodType F of F^o].
From Verif Require Import DemoThm.

(** C62: in every execution without a crash the assertion of [d_fft_test] holds, for every vector of
    coefficients; the king has compared with the values of the polynomial on the domain. *)
Theorem C62_d_fft_test (F : fftField) dbg lam b pp dom (cF : codec F) mb (x : seq F) (r0 r : rng F) :
  pss_new F dbg (2 ^ lam) = Ok pp -> domain_new F (2 ^ (b + lam)) = Some dom ->
  codec_ok cF mb -> (2 ^ b < 256 ^ 8)%N -> size x = (2 ^ (b + lam))%N ->
  yields (p_n pp) true
    (fun ords p => d_fft_test dbg pp (p_n pp) p (ords 0%N) (ords 1%N) cF dom x r0 r)
    (fun p => if p == 0%N then Some (evals (T := Fm F) 1 (d_gen dom) (2 ^ (b + lam)) x) else None).
Proof. exact: c62_d_fft_test. Qed.
Print Assumptions C62_d_fft_test.

(** C62: with the coefficients [0 .. N - 1] of the program *)
Theorem C62_d_fft_test_input (F : fftField) dbg lam b pp dom (cF : codec F) mb (r0 r : rng F) :
  pss_new F dbg (2 ^ lam) = Ok pp -> domain_new F (2 ^ (b + lam)) = Some dom ->
  codec_ok cF mb -> (2 ^ b < 256 ^ 8)%N ->
  yields (p_n pp) true
    (fun ords p => d_fft_test dbg pp (p_n pp) p (ords 0%N) (ords 1%N) cF dom (d_fft_input dom) r0 r)
    (fun p => if p == 0%N then
       Some (mkseq (fun k => \sum_(i < 2 ^ (b + lam)) d_gen dom ^+ (k * i) * i%:R) (2 ^ (b + lam))) else None).
Proof. exact: c62_d_fft_test_input. Qed.
Print Assumptions C62_d_fft_test_input.

(** C62: the same for [d_pp_test]; the numbers [1 .. N] that are divided have to be nonzero in the
    field. *)
Theorem C62_d_pp_test (F : fftField) dbg lam b pp dom (cF : codec F) mb (r0 r r' values r_in r_out : rng F) :
  pss_new F dbg (2 ^ lam) = Ok pp -> domain_new F (2 ^ (b + lam)) = Some dom ->
  codec_ok cF mb -> (2 * 2 ^ b < 256 ^ 8)%N ->
  (forall i, (0 < i <= 2 ^ (b + lam))%N -> i%:R != 0 :> F) ->
  exists px masks, d_pp_deal dbg pp dom r0 values r_in r_out = Ok (px, masks) /\
    yields (p_n pp) true
      (fun ords p => d_pp_test dbg pp (p_n pp) p (ords 0%N) (ords 1%N) (ords 2%N) cF dom
         (nth [::] px p) (nth (degred_mask_zero (Fm F) 0) masks p) r r')
      (fun p => if p == 0%N then Some (nseq (2 ^ (b + lam)) 1) else None).
Proof. exact: c62_d_pp_test. Qed.
Print Assumptions C62_d_pp_test.

(** C62: the assertion of [d_msm_test] holds even if one client crashes. *)
Theorem C62_d_msm_test (F : fftField) (T : lmodType F) dbg lam m pp (gen : T) (cT : codec T) mb
    (x_pub : seq T) (y_pub : seq F) (rx : rng T) (ry values : rng F) (rm : rng T) :
  pss_new F dbg (2 ^ lam) = Ok pp -> codec_ok cT mb -> (0 < m)%N ->
  size x_pub = (m * 2 ^ lam)%N -> size y_pub = (m * 2 ^ lam)%N ->
  exists xs ys masks,
    d_msm_deal dbg pp gen x_pub y_pub rx ry values rm = Ok (xs, ys, masks) /\
    yields (p_n pp) false
      (fun ords p => d_msm_test dbg pp (p_n pp) p (ords 0%N) (ords 1%N) cT x_pub y_pub
         (nth [::] xs p) (nth [::] ys p) (nth (msm_mask_zero T) masks p))
      (fun p => if p == 0%N then
         Some (nseq (2 ^ lam) (\sum_(i < m * 2 ^ lam) y_pub`_i *: x_pub`_i)) else None).
Proof. exact: c62_d_msm_test. Qed.
Print Assumptions C62_d_msm_test.

(** C62, refuted for crashes: [d_fft_test] reconstructs with [unpack], which takes the shares as they
    come; without the share of one client the assertion fails, although [d_fft] itself goes
    through. *)
Theorem C62_d_fft_test_crash_refuted : exists (F : fftField) dbg lam b pp dom (cF : codec F) mb (r0 r : rng F),
  [/\ pss_new F dbg (2 ^ lam) = Ok pp, domain_new F (2 ^ (b + lam)) = Some dom, codec_ok cF mb &
      forall out, ~ yields (p_n pp) false (fun ords p =>
        d_fft_test dbg pp (p_n pp) p (ords 0%N) (ords 1%N) cF dom (d_fft_input dom) r0 r) out].
Proof. exact: c62_d_fft_test_crash_refuted. Qed.
Print Assumptions C62_d_fft_test_crash_refuted.

