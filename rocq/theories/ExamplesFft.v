(** Non-vacuity of C20 and C21: concrete runs over F_17 with l = 2. *)
From mathcomp Require Import all_ssreflect all_algebra.
From Verif Require Import Base ModelField ModelUtils ModelPss ModelPack ModelFft Spec ExampleField.
Set Implicit Arguments.
Unset Strict Implicit.
Unset Printing Implicit Defensive.
Import GRing.Theory.
Local Open Scope ring_scope.

Example rearrange_8 : fft_rearrange (iota 0 8) = Ok [:: 0; 4; 2; 6; 1; 5; 3; 7]%N.
Proof. by vm_compute. Qed.

(** other lengths: some other permutation *)
Example rearrange_6 : fft_rearrange (iota 0 6) = Ok [:: 0; 3; 2; 1; 4; 5]%N.
Proof. by vm_compute. Qed.

Example fft2_empty_panics : fft2 pp2 [::] 2%:R = Panic.
Proof. by vm_compute. Qed.

(** 8 coefficients, l = 2, the generator 2 of order 8 modulo 17; compared with the polynomial values *)
Definition c8 : seq F17 := [:: 3%:R; 1; 4%:R; 1; 5%:R; 9%:R; 2%:R; 6%:R].
Example split_8 :
  (let! d := fft_rearrange c8 in
   let! v0 := fft1 pp2 (take 4 d) 2%:R in
   let! v1 := fft1 pp2 (drop 4 d) 2%:R in
   fft2 pp2 (flatten (zipmap (fun x y => [:: x; y]) v0 v1)) 2%:R)
  = Ok [seq heval (2%:R ^+ i) (c8 : seq F17^o) | i <- iota 0 8].
Proof. by vm_compute. Qed.
