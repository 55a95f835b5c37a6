(** Runs of the unit tests, and instances of the theorems about them. *)
From mathcomp Require Import all_ssreflect all_algebra.
From Verif Require Import Base ModelField ModelUtils ModelPss ModelGao ModelPack ModelNet ModelProto ModelDemo ModelUnit.
From Verif Require Import Spec SpecNet SpecProto ExampleField ExamplesNet ExamplesProto.
From Verif Require Import PropertiesUnit.
Set Implicit Arguments.
Unset Strict Implicit.
Unset Printing Implicit Defensive.
Import GRing.Theory.
Local Open Scope ring_scope.

Example initialize_passes : test_initialize F17 true 2 = Ok tt.
Proof. by vm_compute. Qed.
(** for [L = 3] the assertions of [new] fail in debug builds and those of the test in release builds *)
Example initialize_three : (test_initialize F17 true 3, test_initialize F17 false 3) = (Panic, Panic).
Proof. by vm_compute. Qed.

Example packing_passes : test_packing true 2 (nums [:: 5; 16]%N) (rnd 3) = Ok tt.
Proof. by vm_compute. Qed.
(** with [L = 4] the same test panics in debug builds, and passes in release builds *)
Example packing_four : (test_packing true 4 (nums [:: 5; 16; 2; 9]%N) (rnd 3),
  test_packing false 4 (nums [:: 5; 16; 2; 9]%N) (rnd 3)) = (Panic, Ok tt).
Proof. by vm_compute. Qed.

Example det_packing_passes : test_det_packing true 2 (nums [:: 5; 16]%N) = Ok tt.
Proof. by vm_compute. Qed.
Example multiplication_passes : test_multiplication true 2 (nums [:: 5; 16]%N) (rnd 3) = Ok tt.
Proof. by vm_compute. Qed.

Example interpolate_passes : test_eval_interpolate (nums [:: 3; 0; 4]%N) = Ok tt.
Proof. by vm_compute. Qed.
Example interpolate_zero_end : test_eval_interpolate (nums [:: 3; 4; 0]%N) = Panic.
Proof. by vm_compute. Qed.
(** nine coefficients need 18 points, but modulo 17 the 17th is zero: the assertion of [syn_div] fails *)
Example interpolate_small_field : test_eval_interpolate (nums [:: 1; 1; 1; 1; 1; 1; 1; 1; 1]%N) = Panic.
Proof. by vm_compute. Qed.

(** the test of gao.rs: the message (1, 4), the error 1 at position 1; and one error too many *)
Example error_passes : test_error_correction true 2 (nums [:: 1; 4]%N) [:: (1%N, 1%R)] 8 4 = Ok tt.
Proof. by vm_compute. Qed.
Example two_errors : test_error_correction true 2 (nums [:: 1; 4]%N) [:: (1%N, 1%R); (6%N, 5%:R)] 8 4 = Ok tt.
Proof. by vm_compute. Qed.
Example three_errors :
  test_error_correction true 2 (nums [:: 1; 4]%N) [:: (1%N, 1%R); (6%N, 5%:R); (0%N, 2%:R)] 8 4 = Panic.
Proof. by vm_compute. Qed.

Example pack_unpack_passes : pack_unpack_test (T := T17) true 2 (nums [:: 5; 16]%N) (rnd 3) = Ok tt.
Proof. by vm_compute. Qed.
Example pack_unpack2_passes : pack_unpack2_test (T := T17) true 2 (nums [:: 5; 16; 2; 9]%N) (nums [:: 1; 1; 3; 1]%N)
  (rnd 3) (rnd 5) = Ok tt.
Proof. by vm_compute. Qed.
(** with one scalar less [msm(..).unwrap()] panics *)
Example pack_unpack2_lengths : pack_unpack2_test (T := T17) false 2 (nums [:: 5; 16; 2; 9]%N) (nums [:: 1; 1; 3]%N)
  (rnd 3) (rnd 5) = Panic.
Proof. by vm_compute. Qed.

Example c71_initialize_instance := @C71_initialize F17 true 1 isT.
Example c71_packing_instance := @C71_packing F17 true 2 (nums [:: 5; 16; 2; 9]%N) (rnd 3) isT erefl.
Example c71_pack_unpack_instance := @C71_pack_unpack F17 T17 true 1 (nums [:: 5; 16]%N) (nums [:: 5; 16]%N) (rnd 3) isT erefl erefl.
Example c71_multiplication_instance := @C71_multiplication F17 true 1 (nums [:: 5; 16]%N) (rnd 3) isT erefl.
Example c71_eval_interpolate_instance := @C71_eval_interpolate F17 (nums [:: 3; 0; 4]%N) isT isT isT.
Example c71_error_correction_instance := @C71_error_correction F17 true 1 (nums [:: 1; 4]%N) [:: (1%N, 1%R)] 4 isT isT isT isT.
Example c71_pack_unpack2_instance := @C71_pack_unpack2 F17 T17 true 1 2 (nums [:: 5; 16; 2; 9]%N) (nums [:: 1; 1; 3; 1]%N)
  (rnd 3) (rnd 5) isT isT erefl erefl.

(** the tests with fixed inputs: [test_transpose] (pack.rs:42-48) and [test_partial_xgcd] (gao.rs:98-123) *)
Example test_transpose : transpose [:: [:: 1; 2; 3]; [:: 4; 5; 6]; [:: 7; 8; 9]]%N =
  Ok [:: [:: 1; 4; 7]; [:: 2; 5; 8]; [:: 3; 6; 9]]%N.
Proof. by vm_compute. Qed.
Example test_partial_xgcd :
  (if partial_xgcd (nums [:: 8; 9; 5]%N) (nums [:: 5; 3; 10]%N) 16 10 is Ok (r, s)
   then (r == nums [:: 5; 3; 10]%N) && (s == nums [:: 1]%N) else false) = true.
Proof. by vm_compute. Qed.
