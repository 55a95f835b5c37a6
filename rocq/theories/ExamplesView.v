(** Instances of C55 and C56 over the field of 17 elements with n = 8, l = t = 2. *)
From mathcomp Require Import all_ssreflect all_algebra.
From mathcomp Require Import zify.
From Verif Require Import Base ModelField ModelPss ModelPack ModelFft ModelNet ModelProto ModelQap.
From Verif Require Import ModelProve ModelMain Spec SpecNet SpecView SpecProto SpecGroth SpecVerify.
From Verif Require Import ExampleField PssProofs ProtoProofs DegProofs ExamplesNet ExamplesProto.
From Verif Require Import ExamplesGroth PropertiesView.
Set Implicit Arguments.
Unset Strict Implicit.
Unset Printing Implicit Defensive.
Import GRing.Theory.
Local Open Scope ring_scope.

(** another QAP of the same dimensions *)
Definition qap_b : qap_t F17 := Qap (num_inputs qap3) (num_constraints qap3)
  (nums [:: 1; 2; 3; 4]%N) (nums [:: 5; 6; 7; 8]%N) (nums [:: 9; 10; 11; 12]%N) (q_domain qap3).
Definition coalition : seq nat := [:: 5; 2]%N.

(** with a known generator the two parties tell the QAPs apart *)
Example c55_differ :
  [seq q_a (nth qap3 (get_ok [::] (qap_pss true pp2 qap3 (rnd 3))) p) | p <- coalition] !=
  [seq q_a (nth qap3 (get_ok [::] (qap_pss true pp2 qap_b (rnd 3))) p) | p <- coalition].
Proof. by vm_compute. Qed.
Example c55_instance shares shares' :=
  @C55_hiding_refuted F17 true 1 1 pp2 coalition qap3 qap_b qap3 (rnd 3) shares shares'
    (pp2_new true) pp2_generator isT isT erefl erefl erefl erefl erefl erefl erefl.

Example c56_qap_instance := @C56_qap F17 true 1 1 pp2 coalition qap3 qap_b qap3
    (pp2_new true) pp2_generator isT isT isT erefl erefl erefl erefl erefl erefl erefl erefl erefl.
Example c56_witness_instance := @C56_witness F17 true 1 pp2 coalition wit (nums [:: 1; 5; 8]%N)
    (pp2_new true) pp2_generator isT isT isT erefl.

(** a run of the transform with the messages received: the result of party 2 is the message of the
    king minus the mask; the king receives nothing in its own thread *)
Definition log_net : cfg (seq F17 * seq bytes) :=
  init (mkseq (fun p => pthread 3 (clog (d_fft true pp2 8 p rev cF17 (x4 p) (masks4 p) false dom4 (rnd 11)) [::])) 8).
Definition log_end := results_of (run (round 8 ++ joins 8) log_net).
Example log_all_end : all isSome log_end. Proof. by vm_compute. Qed.
Example log_results : [seq omap fst v | v <- log_end] = fft_end. Proof. by apply/eqP; vm_compute. Qed.
Example log_sizes : [seq (if v is Some w then size w.2 else 9%N) | v <- log_end] = [:: 0; 1; 1; 1; 1; 1; 1; 1]%N.
Proof. by vm_compute. Qed.

(** another polynomial, with the same masks *)
Definition x5 (p : nat) : seq F17 :=
  nth [::] (s_res [::] (share_out true pp2 true (nums [:: 7; 0; 0; 1]%N) (rnd 8))) p.
Lemma x5_shared : vsharing (T := T17) pp2 (2 * p_l pp2) (2 ^ 1) x5
   (strides (T := T17) 1 (1 + 1) (nums [:: 7; 0; 0; 1]%N)).
Proof.
have El : p_l pp2 = (2 ^ 1)%N by [].
have [out [E H]] := @share_out_deal F17 pp2 pp2_ok 1 1 El true true (nums [:: 7; 0; 0; 1]%N) (rnd 8) erefl.
apply: vsharing_ext H => // p lt_p; rewrite /x5 /s_res E /=; exact/esym/nth_mkseq.
Qed.

Example c56_d_fft_instance := @C56_d_fft F17 true 1 1 pp2 dom4 cF17 1 false masks4 masks4 x4 x5 _ _ 4
  coalition (pp2_new true) dom4_new c17_ok small1 isT pp2_generator isT isT isT masks4_ok masks4_ok
  (fun _ _ => erefl) x4_shared x5_shared.
Example c56_d_fft_masks_instance := @C56_d_fft_masks F17 true 1 1 pp2 dom4 cF17 1 true x4 x5 _ _ 4
  coalition (rnd 11) (FftMask [::] [::]) (pp2_new true) dom4_new c17_ok small1 isT pp2_generator isT isT isT
  x4_shared x5_shared.
Example c56_d_ifft_masks_instance := @C56_d_ifft_masks F17 true 1 1 pp2 dom4 cF17 1 true 3%:R x4 x5 _ _ 4
  coalition (rnd 11) (FftMask [::] [::]) (pp2_new true) dom4_new c17_ok small1 isT pp2_generator isT isT isT
  x4_shared x5_shared.

(** 3 generates the additive group *)
Lemma gen3 (x : F17) : x = (x / 3%:R) * 3%:R.
Proof. by rewrite divfK. Qed.
Example c56_deg_red_instance := @C56_deg_red F17 T17 true 1 pp2 3%:R 3%:R cF17 1 1 dmasks dmasks _ _ _ _ 4
  coalition (pp2_new true) c17_ok small_m isT pp2_generator isT isT isT dmasks_ok dmasks_ok (fun _ _ => erefl)
  (@sh17_shared [:: 2; 3]%N 4 erefl) (@sh17_shared [:: 5; 7]%N 6 erefl).
Example c56_deg_red_masks_instance := @C56_deg_red_masks F17 T17 true 1 pp2 3%:R cF17 1 1 _ _ _ _ _ 4
  coalition (rnd 11) (degred_mask_zero T17 0) (pp2_new true) c17_ok small_m isT pp2_generator isT isT isT
  (@sh17_shared [:: 2; 3]%N 4 erefl) (@sh17_shared [:: 5; 7]%N 6 erefl) (fun _ _ => gen3 _).
Example c56_d_msm_masks_instance := @C56_d_msm_masks F17 T17 true 1 pp2 3%:R cF17 1 1 _ _ _ _ _ _ _ _ _
  coalition (msm_mask_zero T17) (pp2_new true) c17_ok pp2_generator isT isT isT
  (@sh17_shared [:: 2; 3]%N 4 erefl) (@sh17_shared [:: 5; 7]%N 6 erefl)
  (@sh17_shared [:: 4; 3]%N 4 erefl) (@sh17_shared [:: 5; 9]%N 6 erefl) (gen3 _).
