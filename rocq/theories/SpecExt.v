(** The masks of the two witness extensions. *)
From mathcomp Require Import all_ssreflect all_algebra.
From Verif Require Import Base ModelField ModelPss ModelFft.
Set Implicit Arguments.
Unset Strict Implicit.
Unset Printing Implicit Defensive.
Import GRing.Theory.
Local Open Scope ring_scope.

(** the mask for the [i]-th transform of [libsnark_h] with the randomness [v], [r], [r']: three inverse
    transforms to the coset of the generator, three transforms, one inverse transform back *)
Definition libsnark_mask (F : fftField) (dbg : bool) (pp : pss F) (dom : domain F) (N i : nat) (v r r' : rng F) :
    res (seq (fft_mask F)) :=
  if (i < 3)%N then fft_mask_sample dbg pp true (ff_generator F) (d_gen_inv dom) N v r r'
  else if (i < 6)%N then fft_mask_sample dbg pp true 1 (d_gen dom) N v r r'
  else fft_mask_sample dbg pp false (ff_generator F)^-1 (d_gen_inv dom) N v r r'.

(** the mask for the [i]-th transform of [circom_h], where [root] is the root of unity of twice the order *)
Definition circom_mask (F : fftField) (dbg : bool) (pp : pss F) (dom : domain F) (root : F) (N i : nat) (v r r' : rng F) :
    res (seq (fft_mask F)) :=
  if (i < 3)%N then fft_mask_sample dbg pp true root (d_gen_inv dom) N v r r'
  else fft_mask_sample dbg pp false 1 (d_gen dom) N v r r'.
