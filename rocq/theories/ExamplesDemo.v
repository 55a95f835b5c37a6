(** Executions of the example programs, and instances of the theorems about them. *)
From mathcomp Require Import all_ssreflect all_algebra.
From mathcomp Require Import zify.
From Verif Require Import Base ModelField ModelPss ModelPack ModelFft ModelNet ModelProto ModelDemo.
From Verif Require Import Spec SpecNet SpecProto ExampleField ExamplesNet ExamplesProto.
From Verif Require Import PropertiesDemo PropertiesAdd PropertiesLocal PropertiesBench.
Set Implicit Arguments.
Unset Strict Implicit.
Unset Printing Implicit Defensive.
Import GRing.Theory.
Local Open Scope ring_scope.

(** ** d_fft_test *)
Definition fft_test_net : cfg (option (seq F17)) := init (mkseq (fun p => pthread 3
  (d_fft_test true pp2 8 p id rev cF17 dom4 (d_fft_input dom4) (rnd 5) (rnd 11))) 8).
Definition collect_round n : seq action :=
  [seq party p | p <- iota 1 n.-1] ++ [seq king (KArrive p) | p <- iota 1 n.-1] ++ [:: king KGathered].
(** the king has all the values of the transform, the clients nothing *)
Example fft_test_runs :
  results_of (run (round 8 ++ collect_round 8 ++ joins 8) fft_test_net)
    = Some (Some (fft dom4 (d_fft_input dom4 : seq T17))) :: nseq 7 (Some None).
Proof. by apply/eqP; vm_compute. Qed.
Example fft_test_yields := C62_d_fft_test (dbg := true) (x := d_fft_input dom4) (rnd 5) (rnd 11)
  (erefl : pss_new F17 true (2 ^ 1) = Ok pp2) (erefl : domain_new F17 (2 ^ (1 + 1)) = Some dom4) c17_ok.
Example fft_test_input_yields := C62_d_fft_test_input (dbg := true) (rnd 5) (rnd 11)
  (erefl : pss_new F17 true (2 ^ 1) = Ok pp2) (erefl : domain_new F17 (2 ^ (1 + 1)) = Some dom4) c17_ok.

(** ** d_pp_test: the numbers 1, ..., 4 are invertible modulo 17 *)
Example pp_test_nonzero : forall i, (0 < i <= 2 ^ (1 + 1))%N -> i%:R != 0 :> F17.
Proof. by move=> [|[|[|[|[|i]]]]]. Qed.
Example pp_test_deals :
  (if d_pp_deal true pp2 dom4 (rnd 2) (rnd 3) (rnd 4) (rnd 5) is Ok (px, masks)
   then (size px, size masks) == (8, 8)%N else false) = true.
Proof. by vm_compute. Qed.

(** ** d_msm_test *)
Example msm_test_deals :
  (if d_msm_deal true pp2 (1 : T17) (nums [:: 1; 2; 3; 4]%N) (nums [:: 5; 6; 7; 8]%N) (rnd 2) (rnd 3) (rnd 4)
     (rnd 5) is Ok (xs, ys, masks) then (size xs, size ys, size masks) == (8, 8, 8)%N else false) = true.
Proof. by vm_compute. Qed.

(** ** add_ids *)
Local Open Scope nat_scope.
Lemma small_ids : \sum_(i < 4) i < 256 ^ 4.
Proof. by rewrite !big_ord_recr big_ord0 /= (@leq_trans (256 ^ 1)) // leq_exp2l. Qed.
(** party 2 of four is silent: the others get 0 + 1 + 3 *)
Example add_ids_yields : every_schedule (with_silent 4 7 (pred1 2) (fun p => add_ids_sum true 4 p rev
  (fun s => CRet (Ok s)))) (predC (pred1 2)) (fun _ => (\sum_(i < 4 | i != 2 :> nat) i) %% 256 ^ 4).
Proof.
have ids : 0 < 4 <= 256 ^ 4.
  apply/andP; split; first by [].
  by apply: (@leq_trans (256 ^ 1)); [|rewrite leq_exp2l].
have rev_ok : hash_ok rev by move=> s; rewrite perm_rev.
exact: (C63_add_ids_sum 7 ids rev_ok (dead := pred1 2) isT (fun _ => small_ids)).
Qed.
Definition add_net : cfg nat :=
  init (with_silent 4 7 (pred1 2) (fun p => add_ids_sum true 4 p rev (fun s => CRet (Ok s)))).
Definition add_run : seq action :=
  [seq party p | p <- [:: 1; 3]] ++ [seq king (KArrive p) | p <- [:: 1; 3]] ++ [:: king KGathered]
  ++ nseq 3 (king KOp) ++ [seq party p | p <- [:: 1; 3]] ++ [seq (p, LJoin) | p <- [:: 0; 1; 3]].
Example add_runs : results_of (run add_run add_net) = [:: Some 4; Some 4; None; Some 4].
Proof. by vm_compute. Qed.

(** ** local_dfft_test *)
Local Open Scope ring_scope.
Example local_dfft_runs : (if local_dfft_test pp2 dom4 (nums [:: 0; 1; 2; 3]%N) is Ok v
  then v == fft dom4 (nums [:: 0; 1; 2; 3]%N : seq T17) else false) = true.
Proof. by vm_compute. Qed.

(** ** local_groth_bench *)
Example constraint_ok : exists cd, constraint_domain_new F17 true (2 ^ 3) = Ok cd.
Proof. by eexists. Qed.
Example constraint_too_big : constraint_domain_new F17 true (2 ^ 4) = Panic.
Proof. by []. Qed.
Example constraint_odd : constraint_domain_new F17 true 3 = Panic.
Proof. by []. Qed.
Definition cd4 : constraint_domain F17 := get_ok (ConstraintDomain 0 dom4 dom4) (constraint_domain_new F17 true (2 ^ 2)).
Example local_groth_runs :
  (if local_groth (G1 := T17) (G2 := T17) cd4 (local_groth_input cd4) (local_groth_input cd4)
       (local_groth_input cd4) 2%:R 3%:R 4%:R 5%:R 6%:R 7%:R is Ok v
   then v.1.1 == (7 * 15 * 2)%:R else false) = true.
Proof. by vm_compute. Qed.
Example local_groth_input_instance := C65_local_groth_input (F := F17) (G1 := T17) (G2 := T17) (dbg := true)
  2%:R 3%:R 4%:R 5%:R 6%:R 7%:R (erefl : constraint_domain_new F17 true (2 ^ 2) = Ok cd4).
