(** Property theorems only; proofs are in FftThm.v. *)
From mathcomp Require Import all_ssreflect all_algebra.
From mathcomp Require Import zify.
From Verif Require Import RingTac Base ModelField ModelUtils ModelPss ModelPack ModelFft Spec.
From Verif Require Import FieldProofs UtilsProofs PssProofs PackProofs FftProofs ExampleField.
Set Implicit Arguments.
Unset Strict Implicit.
Unset Printing Implicit Defensive.
Import GRing.Theory.
Local Open Scope ring_scope.
From Verif Require Import FftThm.

(** C20: element [i] goes to the position whose [k] bits are those of [i] in reverse order; doing it
    twice restores the vector. *)
Theorem C20_bit_reversal (A : Type) (x0 : A) (s : seq A) k : size s = (2 ^ k)%N ->
  exists r, [/\ fft_rearrange s = Ok r, size r = (2 ^ k)%N,
    (forall i j, (i < 2 ^ k)%N -> (j < 2 ^ k)%N ->
       (forall b, (b < k)%N -> Nat.testbit j b = Nat.testbit i (k - b.+1)) ->
       nth x0 r j = nth x0 s i) &
    fft_rearrange r = Ok s].
Proof. exact: c20_bit_reversal. Qed.
Print Assumptions C20_bit_reversal.

(** C20: the multiset of entries is preserved. *)
Theorem C20_permutation (A : eqType) (s : seq A) k r : size s = (2 ^ k)%N ->
  fft_rearrange s = Ok r -> perm_eq r s.
Proof. exact: c20_permutation. Qed.
Print Assumptions C20_permutation.

(** C21: rearrange, let slot [j] be the [j]-th block of the rearranged vector, apply the parties'
    stage to every slot and the king's stage to the interleaved result: this is the discrete
    Fourier transform at the successive powers of [gen]. *)
Theorem C21_split_dft (F : fftField) (pp : pss F) (gen : F) b lam (c : seq F) :
  p_l pp = (2 ^ lam)%N -> (2 ^ (b + lam))%N.-primitive_root gen -> size c = (2 ^ (b + lam))%N ->
  exists (d : seq F) (v : nat -> seq F),
  [/\ fft_rearrange c = Ok d,
    (forall j, (j < 2 ^ lam)%N -> fft1 pp (take (2 ^ b) (drop (j * 2 ^ b) d)) gen = Ok (v j)) &
    fft2 pp (mkseq (fun q => (v (q %% 2 ^ lam)%N)`_(q %/ 2 ^ lam)) (2 ^ (b + lam))) gen =
      Ok (mkseq (fun i => \sum_(e < 2 ^ (b + lam)) c`_e * gen ^+ (i * e)) (2 ^ (b + lam)))].
Proof. exact: c21_split_dft. Qed.
Print Assumptions C21_split_dft.

