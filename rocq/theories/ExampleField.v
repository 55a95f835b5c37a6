(** The field with 17 elements used by the repository's own tests
    (secret-sharing/src/gao.rs:91-95: modulus 17, generator 3), as a concrete instance of the
    model's field interface. *)
From mathcomp Require Import all_ssreflect all_algebra.
From Verif Require Import RingTac Base ModelField ModelPss Spec FieldProofs PssProofs.
Set Implicit Arguments.
Unset Strict Implicit.
Unset Printing Implicit Defensive.
Import GRing.Theory.
Local Open Scope ring_scope.

Definition K17 : fieldType := [fieldType of 'F_17].

Lemma three_neq0 : (3%:R : K17) != 0.
Proof. by vm_compute. Qed.

Lemma three_root : (2 ^ 4)%N.-primitive_root (3%:R : K17).
Proof. by apply: prim2_root; [apply/eqP|]; vm_compute. Qed.

Definition F17 : fftField := FftField three_neq0 three_root.

(** The field with 97 elements (96 = 3 * 2^5, generator 5): large enough for sixteen share points
    that do not meet the secret points. *)
Definition K97 : fieldType := [fieldType of 'F_97].

Lemma five_neq0 : (5%:R : K97) != 0.
Proof. by vm_compute. Qed.

Lemma r28_root : (2 ^ 5)%N.-primitive_root (28%:R : K97).
Proof. by apply: prim2_root; [apply/eqP|]; vm_compute. Qed.

Definition F97 : fftField := FftField five_neq0 r28_root.
Definition T97 : lmodType F97 := [lmodType F97 of (F97 : fieldType)^o].

(** scalar shares: the field as a module over itself *)
Definition T17 : lmodType F17 := [lmodType F17 of (F17 : fieldType)^o].

(** parameters for packing factor 2: eight parties *)
Definition pp2 : pss F17 := if pss_new F17 true 2 is Ok pp then pp else
  Pss 0 0 0 (Domain 0 0 0 0 0 0) (Domain 0 0 0 0 0 0) (Domain 0 0 0 0 0 0).

Lemma pp2_new dbg : pss_new F17 dbg (2 ^ 1) = Ok pp2.
Proof. by case: dbg. Qed.

Lemma pp2_ok : pp_ok pp2.
Proof. exact: pss_new_ok (pp2_new true). Qed.

Example pp2_generator : (ff_generator F17 ^+ p_n pp2 != 1)%R.
Proof. by vm_compute. Qed.
