(** Concrete cases for C11-C14, C18, C19. *)
From mathcomp Require Import all_ssreflect all_algebra.
From Verif Require Import Base ModelField ModelUtils ModelPss ModelPack Spec ExampleField.
From Verif Require Import PropertiesUtils PropertiesPack.
Set Implicit Arguments.
Unset Strict Implicit.
Unset Printing Implicit Defensive.
Import GRing.Theory.
Local Open Scope ring_scope.

(* C11: 1 + 2x + 3x^2 at 2 *)
Example ex_C11 : @eval F17 [:: 1; 2%:R; 3%:R] 2%:R == 17%:R.
Proof. by vm_compute. Qed.

(* C12: (x^3 + x + 1) / (x^2 - 3) = x, and the other branch (x^2 - 1) / (x - 1) = x + 1 *)
Example ex_C12 : [/\ (0 < 2)%N, (2 < size [:: (1 : F17); 1; 0; 1]%R)%N, (3%:R : F17) != 0 &
  get_ok [::] (@syn_div F17 [:: 1; 1; 0; 1] 2 3%:R) == [:: 0; 1; 0; 0]].
Proof. by split; vm_compute. Qed.
Example ex_C12_1 : get_ok [::] (@syn_div F17 [:: -1; 0; 1] 1 1) == [:: 1; 1; 0].
Proof. by vm_compute. Qed.

(* C13: (x-1)(x-2) = x^2 - 3x + 2 *)
Example ex_C13 : get_ok [::] (@get_zero_roots F17 [:: 1; 2%:R]) == [:: 2%:R; - 3%:R; 1].
Proof. by vm_compute. Qed.

(* C14: the line through (1,5), (2,7), (3,9) *)
Example ex_C14 : [/\ uniq [:: (1 : F17); 2%:R; 3%:R], 0 \notin [:: (1 : F17); 2%:R; 3%:R] &
  get_ok [::] (@lagrange_interpolate F17 T17 [:: 1; 2%:R; 3%:R] [:: 5%:R; 7%:R; 9%:R])
    == [:: 3%:R; 2%:R]].
Proof. by split; vm_compute. Qed.

(* C18 *)
Example ex_C18 : transpose [:: [:: 1; 2; 3]; [:: 4; 5; 6]]%N =
  Ok [:: [:: 1; 4]; [:: 2; 5]; [:: 3; 6]]%N.
Proof. by vm_compute. Qed.
Example ex_C18_panic : transpose [:: [:: 1; 2; 3]; [:: 4; 5]]%N = Panic.
Proof. by vm_compute. Qed.

(* C19: five values with packing factor two *)
Definition ex_vec : seq T17 := [seq i%:R | i <- iota 1 5].
Definition ex_vrng : rng T17 := fun i => (7 + 3 * i)%:R.
Example ex_C19_release :
  [seq unpack pp2 s | s <- get_ok [::] (pack_vec false pp2 ex_vec ex_vrng)] ==
  [:: [:: 1; 2%:R]; [:: 3%:R; 4%:R]; [:: 5%:R; 19%:R]].
Proof. by vm_compute. Qed.
Example ex_C19_debug : is_ok (pack_vec true pp2 ex_vec ex_vrng) = false.
Proof. by vm_compute. Qed.
