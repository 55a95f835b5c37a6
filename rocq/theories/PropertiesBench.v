(** Property theorems only; proofs are in BenchThm.v. *)
From mathcomp Require Import all_ssreflect all_algebra.
From mathcomp Require Import zify.
From Verif Require Import Base ModelField ModelUtils ModelPss ModelPack ModelFft ModelNet ModelProto.
From Verif Require Import ModelDemo Spec SpecGroth.
From Verif Require Import FieldProofs UtilsProofs PssProofs DegProofs ExtProofs.
Set Implicit Arguments.
Unset Strict Implicit.
Unset Printing Implicit Defensive.
Import GRing.Theory.
Local Open Scope ring_scope.
Local Notation Fm F := [lmodType F of F^o].
From Verif Require Import BenchThm.

(** C65: for a power of two the two domains of the constraint system exist exactly if the field has
    roots of unity of twice that order; then they have the sizes that the assertions ask for. *)
Theorem C65_constraint_domain (F : fftField) dbg k :
  if (k < ff_two_adicity F)%N then
    exists cd, [/\ constraint_domain_new F dbg (2 ^ k) = Ok cd, cd_m cd = (2 ^ k)%N,
      d_size (cd_constraint cd) = (2 ^ k)%N, d_size (cd_constraint2 cd) = (2 * 2 ^ k)%N &
      (2 ^ k)%N.-primitive_root (d_gen (cd_constraint cd)) /\
      (2 * 2 ^ k)%N.-primitive_root (d_gen (cd_constraint2 cd))]
  else constraint_domain_new F dbg (2 ^ k) = Panic.
Proof. exact: c65_constraint_domain. Qed.
Print Assumptions C65_constraint_domain.

(** C65: in a debug build no other size is accepted *)
Theorem C65_constraint_domain_pow2 (F : fftField) m cd :
  constraint_domain_new F true m = Ok cd -> exists k, m = (2 ^ k)%N.
Proof. exact: c65_constraint_domain_pow2. Qed.
Print Assumptions C65_constraint_domain_pow2.

(** C65: the single-machine prover of the benchmark.  Whatever the three vectors of values, it comes
    to an end; its multi-scalar multiplications fit; the coefficients it multiplies with the fifth
    vector of points are those of P * Q - W, none of which is lost. *)
Theorem C65_local_groth (F : fftField) (G1 G2 : lmodType F) dbg k cd (p q w : seq F)
    (gs gu gw gh : G1) (gv : G2) (a : F) :
  constraint_domain_new F dbg (2 ^ k) = Ok cd ->
  size p = (2 ^ k)%N -> size q = (2 ^ k)%N -> size w = (2 ^ k)%N ->
  exists P Q W : {poly F},
    [/\ interpolates (d_gen (cd_constraint cd)) (2 ^ k) p P,
        interpolates (d_gen (cd_constraint cd)) (2 ^ k) q Q,
        interpolates (d_gen (cd_constraint cd)) (2 ^ k) w W,
        local_groth_h cd p q w = Ok (mkseq (fun i => (P * Q - W)`_i) (2 * 2 ^ k)) /\
          (size (P * Q - W)%R <= 2 * 2 ^ k)%N &
        let A := a * (2 ^ (2 ^ k) - 1)%N%:R in
        local_groth cd p q w gs gu gw gh gv a =
          Ok (A *: gs, A *: gv, A *: gh + A *: gw + (P * Q - W).[2%:R] *: gu)].
Proof. exact: c65_local_groth. Qed.
Print Assumptions C65_local_groth.

(** C65: with the values [0 .. m - 1] that the program takes for all three vectors *)
Theorem C65_local_groth_input (F : fftField) (G1 G2 : lmodType F) dbg k cd (gs gu gw gh : G1) (gv : G2) (a : F) :
  constraint_domain_new F dbg (2 ^ k) = Ok cd ->
  let x := local_groth_input cd in
  exists P : {poly F},
    [/\ (size P <= 2 ^ k)%N,
        forall i, (i < 2 ^ k)%N -> P.[d_gen (cd_constraint cd) ^+ i] = i%:R,
        size x = (2 ^ k)%N &
        let A := a * (2 ^ (2 ^ k) - 1)%N%:R in
        local_groth cd x x x gs gu gw gh gv a =
          Ok (A *: gs, A *: gv, A *: gh + A *: gw + (P * P - P).[2%:R] *: gu)].
Proof. exact: c65_local_groth_input. Qed.
Print Assumptions C65_local_groth_input.

