(** Property theorems only; proofs are in TestsThm.v. *)
From mathcomp Require Import all_ssreflect all_algebra.
From mathcomp Require Import zify.
From Verif Require Import Base ModelField ModelUtils ModelPss ModelPack ModelFft ModelNet ModelProto ModelQap.
From Verif Require Import ModelDemo ModelTests Spec SpecNet SpecProto.
From Verif Require Import KingProofs RoundProofs FieldProofs UtilsProofs PssProofs PackProofs FftProofs.
From Verif Require Import ProtoProofs DegProofs PpProofs FewProofs MaskProofs ProtoThm GrothThm DemoThm.
Set Implicit Arguments.
Unset Strict Implicit.
Unset Printing Implicit Defensive.
Import GRing.Theory.
Local Open Scope ring_scope.
Local Notation Fm F := [lmodType F of F^o].
From Verif Require Import TestsThm.

(** C67: [d_ifft_works], for any values on the domain. *)
Theorem C67_d_ifft_works (F : fftField) dbg lam b pp dom (cF : codec F) mb (v : seq F) (r0 : rng F)
    (r : nat -> rng F) (masks : nat -> seq (fft_mask F)) :
  pss_new F dbg (2 ^ lam) = Ok pp -> domain_new F (2 ^ (b + lam)) = Some dom ->
  codec_ok cF mb -> (2 ^ b < 256 ^ 8)%N -> size v = (2 ^ (b + lam))%N ->
  fft_masks dbg pp false 1 (d_gen_inv dom) (2 ^ (b + lam)) (fun p => nth (no_mask F) (masks p) 0) ->
  exists rows c out, [/\ strided_rows dbg pp v r0 = Ok rows,
    yields (p_n pp) false (fun ords p =>
      d_ifft_works_party dbg pp (p_n pp) p ords cF dom (masks p) r rows) out,
    size c = (2 ^ (b + lam))%N /\ v = evals (T := Fm F) 1 (d_gen dom) (2 ^ (b + lam)) c,
    unpack_rows pp (mkseq out (p_n pp)) = Ok c &
    d_ifft_works_check pp dom v (mkseq out (p_n pp)) = Ok tt].
Proof. exact: c67_d_ifft_works. Qed.
Print Assumptions C67_d_ifft_works.

(** C67: [d_fft_works], for any coefficients. *)
Theorem C67_d_fft_works (F : fftField) dbg lam b pp dom (cF : codec F) mb (c : seq F) (r0 : rng F)
    (r : nat -> rng F) (masks : nat -> seq (fft_mask F)) :
  pss_new F dbg (2 ^ lam) = Ok pp -> domain_new F (2 ^ (b + lam)) = Some dom ->
  codec_ok cF mb -> (2 ^ b < 256 ^ 8)%N -> size c = (2 ^ (b + lam))%N ->
  fft_masks dbg pp false 1 (d_gen dom) (2 ^ (b + lam)) (fun p => nth (no_mask F) (masks p) 0) ->
  exists rows out, [/\ strided_rows dbg pp c r0 = Ok rows,
    yields (p_n pp) false (fun ords p =>
      d_fft_works_party dbg pp (p_n pp) p ords cF dom (masks p) r rows) out,
    unpack_rows pp (mkseq out (p_n pp)) = Ok (evals (T := Fm F) 1 (d_gen dom) (2 ^ (b + lam)) c) &
    d_fft_works_check pp dom c (mkseq out (p_n pp)) = Ok tt].
Proof. exact: c67_d_fft_works. Qed.
Print Assumptions C67_d_fft_works.

(** C67: [d_ifftxd_fft_works]: the values come back. *)
Theorem C67_d_ifftxd_fft_works (F : fftField) dbg lam b pp dom (cF : codec F) mb (v : seq F) (r0 : rng F)
    (r : nat -> rng F) (masks : nat -> seq (fft_mask F)) :
  pss_new F dbg (2 ^ lam) = Ok pp -> domain_new F (2 ^ (b + lam)) = Some dom ->
  codec_ok cF mb -> (2 ^ b < 256 ^ 8)%N -> size v = (2 ^ (b + lam))%N ->
  fft_masks dbg pp true 1 (d_gen_inv dom) (2 ^ (b + lam)) (fun p => nth (no_mask F) (masks p) 0) ->
  fft_masks dbg pp false 1 (d_gen dom) (2 ^ (b + lam)) (fun p => nth (no_mask F) (masks p) 1) ->
  exists rows out, [/\ strided_rows dbg pp v r0 = Ok rows,
    yields (p_n pp) false (fun ords p =>
      d_ifftxd_fft_party dbg pp (p_n pp) p ords cF dom (masks p) r rows) out,
    unpack_rows pp (mkseq out (p_n pp)) = Ok v &
    round_trip_check pp v (mkseq out (p_n pp)) = Ok tt].
Proof. exact: c67_d_ifftxd_fft_works. Qed.
Print Assumptions C67_d_ifftxd_fft_works.

(** C67: [coset_d_ifftxd_fft_works]: the same through the coset. *)
Theorem C67_coset_d_ifftxd_fft_works (F : fftField) dbg lam b pp dom (cF : codec F) mb (v : seq F) (r0 : rng F)
    (r : nat -> rng F) (masks : nat -> seq (fft_mask F)) :
  pss_new F dbg (2 ^ lam) = Ok pp -> domain_new F (2 ^ (b + lam)) = Some dom ->
  codec_ok cF mb -> (2 ^ b < 256 ^ 8)%N -> size v = (2 ^ (b + lam))%N ->
  fft_masks dbg pp true (ff_generator F) (d_gen_inv dom) (2 ^ (b + lam)) (fun p => nth (no_mask F) (masks p) 0) ->
  fft_masks dbg pp true 1 (d_gen dom) (2 ^ (b + lam)) (fun p => nth (no_mask F) (masks p) 1) ->
  fft_masks dbg pp true (ff_generator F)^-1 (d_gen_inv dom) (2 ^ (b + lam)) (fun p => nth (no_mask F) (masks p) 2) ->
  fft_masks dbg pp false 1 (d_gen dom) (2 ^ (b + lam)) (fun p => nth (no_mask F) (masks p) 3) ->
  exists rows out, [/\ strided_rows dbg pp v r0 = Ok rows,
    yields (p_n pp) false (fun ords p =>
      coset_d_ifftxd_fft_party dbg pp (p_n pp) p ords cF dom (masks p) r rows) out,
    unpack_rows pp (mkseq out (p_n pp)) = Ok v &
    round_trip_check pp v (mkseq out (p_n pp)) = Ok tt].
Proof. exact: c67_coset_d_ifftxd_fft_works. Qed.
Print Assumptions C67_coset_d_ifftxd_fft_works.

