(** Instances of C60 over the field of 17 elements with n = 8, l = t = 2. *)
From mathcomp Require Import all_ssreflect all_algebra.
From mathcomp Require Import zify.
From Verif Require Import Base ModelField ModelPss ModelPack ModelFft ModelNet ModelProto ModelQap.
From Verif Require Import ModelProve ModelMain Spec SpecNet SpecView SpecProto SpecGroth SpecVerify SpecExt.
From Verif Require Import ExampleField PssProofs ProtoProofs DegProofs ExamplesNet ExamplesProto.
From Verif Require Import ExamplesGroth PropertiesGroth ExamplesView PropertiesExtView.
Set Implicit Arguments.
Unset Strict Implicit.
Unset Printing Implicit Defensive.
Import GRing.Theory.
Local Open Scope ring_scope.

(** the shares of another QAP of the same dimensions *)
Definition qap_b_shares := get_ok [::] (qap_pss true pp2 qap_b (rnd 3)).
Definition q9 (p : nat) : qap_t F17 := nth qap_b qap_b_shares p.
Lemma q9_shared :
  [/\ vsharing (T := T17) pp2 (2 * 2 ^ 1) (2 ^ 1) (fun p => q_a (q9 p)) (strides (T := T17) 1 (1 + 1) (q_a qap_b)),
      vsharing (T := T17) pp2 (2 * 2 ^ 1) (2 ^ 1) (fun p => q_b (q9 p)) (strides (T := T17) 1 (1 + 1) (q_b qap_b)) &
      vsharing (T := T17) pp2 (2 * 2 ^ 1) (2 ^ 1) (fun p => q_c (q9 p)) (strides (T := T17) 1 (1 + 1) (q_c qap_b))].
Proof.
have [xa [xb [xc [E Ha Hb Hc]]]] := @C35_qap_pss F17 true 1 1 pp2 qap_b (rnd 3) (pp2_new true) erefl erefl erefl.
have Eq p : (p < p_n pp2)%N -> q9 p = Qap (num_inputs qap_b) (num_constraints qap_b) (xa p) (xb p) (xc p) (q_domain qap_b).
  by move=> lt_p; rewrite /q9 /qap_b_shares E /= -[LHS]/(nth _ (mkseq _ (p_n pp2)) p) nth_mkseq.
split.
- by apply: (vsharing_ext _ _ Ha) => [p lt_p|e j _ _]; [rewrite (Eq p lt_p)|].
- by apply: (vsharing_ext _ _ Hb) => [p lt_p|e j _ _]; [rewrite (Eq p lt_p)|].
- by apply: (vsharing_ext _ _ Hc) => [p lt_p|e j _ _]; [rewrite (Eq p lt_p)|].
Qed.
Lemma q9_domain p : (p < p_n pp2)%N -> q_domain (q9 p) = dom4.
Proof. by do 8 (case: p => [|p]; first by []). Qed.

Definition c60_libsnark_instance :=
  let: And3 Ha Hb Hc := q8_shared in let: And3 Ha' Hb' Hc' := q9_shared in
  @C60_libsnark_h F17 true 1 1 pp2 dom4 cF17 1 q8 q9 _ _ _ _ _ _ (2 * 2 ^ 1) coalition
    (fun i => rnd (i + 2)) (pp2_new true) dom4_new c17_ok small1 isT gen17_4 pp2_generator isT isT isT
    q8_domain q9_domain Ha Hb Hc Ha' Hb' Hc'.
Definition c60_circom_instance :=
  let: And3 Ha Hb Hc := q8_shared in let: And3 Ha' Hb' Hc' := q9_shared in
  @C60_circom_h F17 true 1 1 pp2 dom4 d8 cF17 1 q8 q9 _ _ _ _ _ _ (2 * 2 ^ 1) coalition
    (fun i => rnd (i + 2)) (pp2_new true) dom4_new d8_new c17_ok small1 isT pp2_generator isT isT isT
    q8_domain q9_domain Ha Hb Hc Ha' Hb' Hc'.

(** a run with the messages received: one from the king in each of the seven threads of a client *)
Definition lib_log_end (q : nat -> qap_t F17) := results_of (run lib_schedule (init (mkseq (fun p =>
  plog (libsnark_h true pp2 8 p (fun=> rev) cF17 (q p) (fl3 p) (fun i => rnd (i + 2))) [::]) 8))).
Example lib_log_sizes : [seq (if v is Some w then [seq size m | m <- w.2] else [::]) | v <- lib_log_end q8]
  = nseq 7 0%N :: nseq 7 (nseq 7 1%N).
Proof. by vm_compute. Qed.
(** with the same masks the messages do depend on the QAP: the translation of the masks is needed *)
Example lib_log_differ : [seq omap snd v | v <- lib_log_end q8] != [seq omap snd v | v <- lib_log_end q9].
Proof. by vm_compute. Qed.
