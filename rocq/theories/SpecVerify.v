(** Specification vocabulary for the whole example: constraint systems and the Groth16 verifier. *)
From mathcomp Require Import all_ssreflect all_algebra.
From Verif Require Import Base ModelField ModelQap ModelMain SpecGroth.
Set Implicit Arguments.
Unset Strict Implicit.
Unset Printing Implicit Defensive.
Import GRing.Theory.
Local Open Scope ring_scope.

(** a pairing, with the target group written additively *)
Definition bilinear_map (F : fftField) (T1 T2 T3 : lmodType F) (e : T1 -> T2 -> T3) : Prop :=
  (forall k x x' y, e (k *: x + x') y = k *: e x y + e x' y) /\
  (forall k x y y', e x (k *: y + y') = k *: e x y + e x y').

(** The check of a Groth16 verifier (ark_groth16 verifier.rs [verify_proof], called at
    sha256.rs:390-398 and 410-418), on the proof (A, B, C). *)
Definition accepts (F : fftField) (T1 T2 T3 : lmodType F) (e : T1 -> T2 -> T3)
    (vk : verifying_key T1 T2) (public : seq F) (proof : T1 * T2 * T1) : Prop :=
  (size public + 1)%N = size (vk_gamma_abc_g1 vk) /\
  e proof.1.1 proof.1.2 =
    e (vk_alpha_g1 vk) (vk_beta_g2 vk) +
    e ((vk_gamma_abc_g1 vk)`_0 + \sum_(i < size public) public`_i *: (vk_gamma_abc_g1 vk)`_i.+1)
      (vk_gamma_g2 vk) +
    e proof.2 (vk_delta_g2 vk).

(** a constraint system with [nv] variables, of which the first is the constant one *)
Definition well_formed (F : fftField) (r : r1cs F) (nv : nat) : Prop :=
  let m := r1_matrices r in
  [/\ [/\ size (cm_a m) = cm_num_constraints m, size (cm_b m) = cm_num_constraints m &
          size (r1_c r) = cm_num_constraints m],
      (0 < num_instance_variables m <= nv)%N,
      all (row_below nv) (cm_a m), all (row_below nv) (cm_b m) & all (row_below nv) (r1_c r)].

(** by how much the assignment [z] misses the constraint [i] *)
Definition defect (F : fftField) (r : r1cs F) (z : seq F) (i : nat) : F :=
  row_value (nth [::] (cm_a (r1_matrices r)) i) z * row_value (nth [::] (cm_b (r1_matrices r)) i) z
  - row_value (nth [::] (r1_c r) i) z.

Definition satisfied (F : fftField) (r : r1cs F) (z : seq F) : Prop :=
  forall i, (i < cm_num_constraints (r1_matrices r))%N -> defect r z i = 0.

(** the values of the public variables that the verifier is given *)
Definition public_part (F : fftField) (r : r1cs F) (z : seq F) : seq F :=
  take (num_instance_variables (r1_matrices r) - 1) (drop 1 z).
