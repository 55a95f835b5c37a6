(** An instance of C58: the circuit x * x = y over the field of 17 elements, two witnesses. *)
From mathcomp Require Import all_ssreflect all_algebra.
From mathcomp Require Import zify.
From Verif Require Import Base ModelField ModelPss ModelPack ModelFft ModelNet ModelProto ModelQap.
From Verif Require Import ModelProve ModelMain Spec SpecNet SpecView SpecProto SpecGroth SpecVerify.
From Verif Require Import ExampleField PssProofs ProtoProofs DegProofs ExamplesNet ExamplesProto.
From Verif Require Import ExamplesGroth ExamplesMain ExamplesView PropertiesMainView.
Set Implicit Arguments.
Unset Strict Implicit.
Unset Printing Implicit Defensive.
Import GRing.Theory.
Local Open Scope ring_scope.

(** the other square root of 9 *)
Definition other : seq F17 := nums [:: 1; 9; 14]%N.
Example other_sat : satisfied square other.
Proof. by case=> // _; rewrite /defect /row_value !big_seq1; apply/eqP; vm_compute. Qed.
Lemma gen3_all (x : T17) : exists c : F17, x = c *: (3%:R : T17).
Proof. by exists ((x : F17) / 3%:R); apply: gen3. Qed.

Lemma keys_a : size (a_query keys.1) = 3%N. Proof. by vm_compute. Qed.
Lemma keys_b1 : size (b_g1_query keys.1) = 3%N. Proof. by vm_compute. Qed.
Lemma keys_b2 : size (b_g2_query keys.1) = 3%N. Proof. by vm_compute. Qed.
Lemma keys_l : size (l_query keys.1) = (3 - 2)%N. Proof. by vm_compute. Qed.
Lemma keys_h : (2 ^ (1 + 1) - 2 ^ 1 < size (h_query keys.1) <= 2 ^ (1 + 1))%N. Proof. by vm_compute. Qed.

(** neither party 5 nor party 2 can tell the two square roots apart *)
Example c58_instance := @C58_hiding F17 T17 T17 1 1 pp2 dom4 d8 cF17 cF17 cF17 1 1 1
  square good other keys.1 3%:R 3%:R (n17 6) (n17 7) (fun i => rnd (i + 2)) coalition in0
  (pp2_new false) dom4_new d8_new c17_ok c17_ok c17_ok small_b (@square_wf good erefl) erefl square_domain
  keys_a keys_b1 keys_b2 keys_l keys_h gen3_all gen3_all pp2_generator isT isT isT.

(** the views are not empty: twelve threads, of which every client receives one message each *)
Definition main_views (z : seq F17) := results_of (run prover_schedule (init (mkseq (fun p =>
  plog (run_party (T1 := T17) (T2 := T17) false pp2 cF17 cF17 cF17 (nth in0 (dealt z) p) (fun=> rev)
            (fun i => rnd (i + 2)) p) [::]) 8))).
Example views_sizes : [seq (if v is Some w then [seq size x | x <- w.2] else [::]) | v <- main_views good] =
  nseq 12 0%N :: nseq 7 (nseq 12 1%N).
Proof. by vm_compute. Qed.
(** with the same randomness for both witnesses the shares and the answers do differ *)
Example views_differ : [seq omap (fun w => w.2) (nth None (main_views good) p) | p <- coalition] !=
  [seq omap (fun w => w.2) (nth None (main_views other) p) | p <- coalition].
Proof. by vm_compute. Qed.
