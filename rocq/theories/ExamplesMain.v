(** The whole example on a small circuit over the field of 17 elements: the hypotheses of C57 can be
    met, and a run ends with a proof that is accepted. *)
From mathcomp Require Import all_ssreflect all_algebra.
From mathcomp Require Import zify.
From Verif Require Import Base ModelField ModelPss ModelPack ModelFft ModelNet ModelProto ModelQap.
From Verif Require Import ModelProve ModelMain Spec SpecNet SpecProto SpecGroth SpecVerify.
From Verif Require Import ExampleField PssProofs ProtoProofs DegProofs ExamplesNet ExamplesProto.
From Verif Require Import ExamplesGroth PropertiesMain.
Set Implicit Arguments.
Unset Strict Implicit.
Unset Printing Implicit Defensive.
Import GRing.Theory.
Local Open Scope ring_scope.

(** x * x = y; the public variables are 1 and y, the private one is x *)
Definition square : r1cs F17 := R1cs
  (Matrices 2 1 [:: [:: (n17 1, 2%N)]] [:: [:: (n17 1, 2%N)]]) [:: [:: (n17 1, 1%N)]].
Definition good : seq F17 := nums [:: 1; 9; 3]%N.
Definition bad : seq F17 := nums [:: 1; 9; 4]%N.

Lemma square_wf (z : seq F17) : size z = 3%N -> well_formed square (size z). Proof. by move=> ->. Qed.
Lemma square_domain : least_pow2 (1 + 2)%N (2 ^ (1 + 1))%N.
Proof. by exists 2%N; split=> // -[|[|k]]. Qed.
Lemma good_sat : satisfied square good.
Proof. by case=> // _; rewrite /defect /row_value !big_seq1; apply/eqP; vm_compute. Qed.
Lemma bad_unsat : ~ satisfied square bad.
Proof.
move=> /(_ 0%N isT); rewrite /defect /row_value !big_seq1 => /eqP.
by vm_compute.
Qed.

(** the pairing is the multiplication of the field *)
Definition mul17 (x y : T17) : T17 := (x : F17) * (y : F17).
Lemma mul17_bilinear : bilinear_map mul17.
Proof.
by split=> k x y z; rewrite /mul17 /GRing.scale /=; [rewrite mulrDl mulrA|rewrite mulrDr mulrCA].
Qed.

Definition in0 : inputs T17 T17 := Inputs (F := F17) (T1 := T17) (T2 := T17) key0
  (Qap 0 0 [::] [::] [::] dom4) [::] [::] 0 0 [::] (degred_mask_zero T17 0) [::] (msm_mask_zero T17).

Example c57_accepted_instance := @C57_accepted F17 T17 T17 T17 mul17 1 1 pp2 dom4 d8 cF17 cF17 cF17 1 1 1
  square good (n17 2) (n17 3) (n17 5) (n17 7) (n17 11) (n17 1) (n17 1) (fun i => rnd (i + 1))
  (fun i => rnd (i + 2)) (fun i => rnd (i + 3)) (n17 3) (n17 3) (rnd 4) (n17 6) (n17 7)
  (fun i => rnd (i + 2)) in0 mul17_bilinear (pp2_new false) isT dom4_new d8_new c17_ok c17_ok c17_ok
  small_b (@square_wf good erefl) erefl square_domain isT isT good_sat.

Lemma points_uniq : uniq (nums [:: 2; 3; 5; 7]%N : seq F17). Proof. by vm_compute. Qed.
Lemma pair_one : mul17 (n17 1) (n17 1) != 0. Proof. by vm_compute. Qed.
Example c57_rejected_instance := @C57_rejected F17 T17 T17 T17 mul17 1 1 pp2 dom4 d8 cF17 cF17 cF17 1 1 1
  square bad (n17 2) (n17 3) (n17 5) (n17 7) (n17 1) (n17 1) (fun i => rnd (i + 1))
  (fun i => rnd (i + 2)) (fun i => rnd (i + 3)) (n17 3) (n17 3) (rnd 4) (n17 6) (n17 7)
  (fun i => rnd (i + 2)) in0 mul17_bilinear (pp2_new false) isT dom4_new d8_new c17_ok c17_ok c17_ok
  small_b (@square_wf bad erefl) erefl square_domain isT isT bad_unsat pair_one _ points_uniq isT.

(** ** A run *)
Definition keys := get_ok
  (ProvingKey (F := F17) (T1 := T17) (T2 := T17) [::] [::] [::] [::] [::] 0 0 0 0 0,
   VerifyingKey (F := F17) (T1 := T17) (T2 := T17) 0 0 0 0 [::])
  (setup (T1 := T17) (T2 := T17) square 3 (n17 2) (n17 3) (n17 5) (n17 7) (n17 11) (n17 1) (n17 1)).
Definition dealt (z : seq F17) := get_ok [::]
  (deal_inputs (T1 := T17) (T2 := T17) false pp2 (fun i => rnd (i + 1)) (fun i => rnd (i + 2))
    (fun i => rnd (i + 3)) (n17 3) (n17 3) (rnd 4) keys.1 (r1_matrices square) z (n17 6) (n17 7)).
Definition main_end (z : seq F17) := results_of (run prover_schedule (init (mkseq (fun p =>
  run_party (T1 := T17) (T2 := T17) false pp2 cF17 cF17 cF17 (nth in0 (dealt z) p) (fun=> rev)
            (fun i => rnd (i + 2)) p) 8))).
Definition main_proof (z : seq F17) : F17 * F17 * F17 := get_ok (0, 0, 0)
  (collect_proof (T1 := T17) (T2 := T17) false pp2 [seq odflt (0, 0, 0) v | v <- main_end z]).
(** the check of the verifier, computed *)
Definition check (z : seq F17) : bool :=
  let: (a, b, c) := main_proof z in
  let vk := keys.2 in
  a * b == vk_alpha_g1 vk * vk_beta_g2 vk
           + (nth 0 (vk_gamma_abc_g1 vk) 0 + nth 0 z 1 * nth 0 (vk_gamma_abc_g1 vk) 1) * vk_gamma_g2 vk
           + c * vk_delta_g2 vk :> F17.

Example main_all_end : all isSome (main_end good). Proof. by vm_compute. Qed.
Example main_accepted : check good. Proof. by vm_compute. Qed.
Example main_rejected : all isSome (main_end bad) /\ check bad = false. Proof. by split; vm_compute. Qed.
Example main_debug : deal_inputs (T1 := T17) (T2 := T17) true pp2 (fun i => rnd (i + 1)) (fun i => rnd (i + 2))
    (fun i => rnd (i + 3)) (n17 3) (n17 3) (rnd 4) keys.1 (r1_matrices square) good (n17 6) (n17 7) = Panic.
Proof. by []. Qed.
