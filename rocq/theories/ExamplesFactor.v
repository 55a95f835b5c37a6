(** The partial products with another factor than the 1 of dpp/mod.rs:26. *)
From mathcomp Require Import all_ssreflect all_algebra.
From Verif Require Import Base ModelField ModelPss ModelPack ModelFft ModelNet ModelProto.
From Verif Require Import Spec SpecNet SpecProto ExampleField ExamplesNet ExamplesProto.
From Verif Require Import PropertiesPpFactor.
Set Implicit Arguments.
Unset Strict Implicit.
Unset Printing Implicit Defensive.
Import GRing.Theory.
Local Open Scope ring_scope.

(** with the factor 2 the parties end with sharings of 14/2 = 7 and 6/2 = 3, see [pp_result] *)
Definition pp2_net : cfg (seq F17) :=
  init (mkseq (fun p => pthread 3 (d_pp_with 2%:R true pp2 8 p rev id cF17 [:: sh17 [:: 2; 3]%N 4 p]
    [:: sh17 [:: 5; 7]%N 6 p] (dmasks p) (rnd 11) (rnd 13))) 8).
Definition pp2_end := results_of (run (round 8 ++ round 8 ++ joins 8) pp2_net).
Example pp2_result : unpack (T := T17) pp2 (entry 0 pp2_end) = nums [:: 7; 3]%N.
Proof. by apply/eqP; vm_compute. Qed.

Example c70_instance := @C70_factor F17 true 1 pp2 cF17 1 1 3%:R dmasks 2%:R _ _
  (nums [:: 2; 3]%N) (nums [:: 5; 7]%N) 4 (rnd 11) (rnd 13)
  (pp2_new true) c17_ok isT small_2m isT dmasks_ok erefl erefl isT
  (@sh17_shared [:: 2; 3]%N 4 erefl) (@sh17_shared [:: 5; 7]%N 6 erefl) isT.
Example c70_only_one_instance := @C70_only_one F17 true 1 pp2 cF17 1 1 3%:R dmasks 2%:R _ _
  (nums [:: 2; 3]%N) (nums [:: 5; 7]%N) 4 (rnd 11) (rnd 13)
  (pp2_new true) c17_ok isT small_2m isT dmasks_ok erefl erefl isT
  (@sh17_shared [:: 2; 3]%N 4 erefl) (@sh17_shared [:: 5; 7]%N 6 erefl) isT isT isT.
(** the king receives the same from (2, 3)/(5, 7) with the factor 2 as from (4, 6)/(10, 14) with 1 *)
Example same_messages : all (fun p =>
  match d_pp_with 2%:R true pp2 8 p rev id cF17 [:: sh17 [:: 2; 3]%N 4 p] [:: sh17 [:: 5; 7]%N 6 p]
          (dmasks p) (rnd 11) (rnd 13),
        d_pp_with 1 true pp2 8 p rev id cF17 [:: sh17 [:: 2; 3]%N 4 p * 2%:R] [:: sh17 [:: 5; 7]%N 6 p * 2%:R]
          (dmasks p) (rnd 11) (rnd 13) with
  | CSend 0 m _, CSend 0 m' _ => m == m'
  | _, _ => false
  end) (iota 1 7).
Proof. by vm_compute. Qed.
