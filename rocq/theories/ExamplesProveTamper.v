(** Instances of C78 over the field of 17 elements with n = 8, l = t = 2, and runs of the prover in
    which party 3 uses wrong witness shares or returns a wrong share of the proof. *)
From mathcomp Require Import all_ssreflect all_algebra.
From mathcomp Require Import zify.
From Verif Require Import Base ModelField ModelPss ModelPack ModelFft ModelNet ModelProto ModelQap.
From Verif Require Import ModelProve ModelMain Spec SpecNet SpecProto SpecGroth SpecVerify SpecTamper.
From Verif Require Import ExampleField PssProofs ProtoProofs DegProofs ExamplesNet ExamplesProto.
From Verif Require Import ExamplesGroth ExamplesMain ExamplesTamper PropertiesProveTamper ModelNet.
Set Implicit Arguments.
Unset Strict Implicit.
Unset Printing Implicit Defensive.
Import GRing.Theory.
Local Open Scope ring_scope.

(** ** wrong shares of the proof, the example of C57 *)
Definition main_out (p : nat) : F17 * F17 * F17 := nth (0, 0, 0)
  [seq (n17 v.1.1, n17 v.1.2, n17 v.2) | v <- [:: (14, 4, 15); (15, 9, 15); (10, 2, 14); (4, 0, 3);
     (15, 15, 9); (7, 8, 10); (6, 6, 7); (2, 10, 0)]%N] p.
(** this is how the run ends *)
Example main_out_run : main_end good = mkseq (fun p => Some (main_out p)) 8.
Proof. by apply/eqP; vm_compute. Qed.
Definition wrong3 (x y z : nat) : F17 * F17 * F17 :=
  ((main_out 3).1.1 + n17 x, (main_out 3).1.2 + n17 y, (main_out 3).2 + n17 z).
Definition proof_of (out : nat -> F17 * F17 * F17) : F17 * F17 * F17 :=
  get_ok (0, 0, 0) (collect_proof (T1 := T17) (T2 := T17) false pp2 (mkseq out 8)).
(** the check of the verifier, computed *)
Definition check_proof (proof : F17 * F17 * F17) : bool :=
  let: (a, b, c) := proof in
  a * b == n17 2 * n17 3 + (n17 6 + n17 9 * n17 16) * n17 5 + c * n17 7 :> F17.
Example verifying_key : let vk := keys.2 in
  [&& vk_alpha_g1 vk == n17 2 :> F17, vk_beta_g2 vk == n17 3 :> F17, vk_gamma_g2 vk == n17 5 :> F17,
      vk_delta_g2 vk == n17 7 :> F17 & vk_gamma_abc_g1 vk == nums [:: 6; 16]%N :> seq F17].
Proof. by vm_compute. Qed.
Example honest_accepted : check_proof (proof_of main_out). Proof. by vm_compute. Qed.
(** release: the errors times the weight *)
Example wrong_shares : proof_of (replaced main_out 3 (wrong3 1 2 5)) =
  ((proof_of main_out).1.1 + wt 3 0 * n17 1, (proof_of main_out).1.2 + wt 3 0 * n17 2,
   (proof_of main_out).2 + wt 3 0 * n17 5).
Proof. by apply/eqP; vm_compute. Qed.
(** every wrong share of C is rejected *)
Example wrong_C_rejected : all (fun z => ~~ check_proof (proof_of (replaced main_out 3 (wrong3 0 0 z)))) (iota 1 16).
Proof. by vm_compute. Qed.
(** together with a wrong A it may be accepted, exactly as the equation of C78_verdict says *)
Example wrong_AC_accepted : all (fun x => all (fun z =>
    let: (a, b, c) := proof_of main_out in
    check_proof (proof_of (replaced main_out 3 (wrong3 x 0 z))) ==
    (wt 3 0 * n17 x * b == wt 3 0 * n17 z * n17 7 :> F17)) (iota 0 17)) (iota 0 17).
Proof. by vm_compute. Qed.
Example wrong_AC_some : has (fun x => has (fun z =>
    check_proof (proof_of (replaced main_out 3 (wrong3 x 0 z)))) (iota 1 16)) (iota 1 16).
Proof. by vm_compute. Qed.
(** debug: the client panics *)
Example wrong_debug : is_ok (collect_proof (T1 := T17) (T2 := T17) true pp2 (mkseq main_out 8)) /\
  collect_proof (T1 := T17) (T2 := T17) true pp2 (mkseq (replaced main_out 3 (wrong3 0 0 5)) 8) = Panic.
Proof. by split; vm_compute. Qed.

Lemma mul17_ndg (x : T17) : mul17 x (n17 1) = 0 -> x = 0.
Proof. by rewrite /mul17 /n17 mulr1. Qed.
Lemma gen17_8 : ff_generator F17 ^+ p_n pp2 != 1. Proof. by vm_compute. Qed.
Example c78_denial_instance := @C78_denial F17 T17 T17 T17 mul17 1 1 pp2 dom4 d8 cF17 cF17 cF17 1 1 1
  square good (n17 2) (n17 3) (n17 5) (n17 7) (n17 11) (n17 1) (n17 1) (fun i => rnd (i + 1))
  (fun i => rnd (i + 2)) (fun i => rnd (i + 3)) (n17 3) (n17 3) (rnd 4) (n17 6) (n17 7)
  (fun i => rnd (i + 2)) in0 mul17_bilinear mul17_ndg (pp2_new false) gen17_8 isT dom4_new d8_new
  c17_ok c17_ok c17_ok small_b (@square_wf good erefl) erefl square_domain isT isT good_sat.

Lemma main_out_proof dbg : collect_proof (T1 := T17) (T2 := T17) dbg pp2 (mkseq main_out (p_n pp2)) =
  Ok (get_ok (0, 0, 0) (collect_proof (T1 := T17) (T2 := T17) dbg pp2 (mkseq main_out 8))).
Proof. by apply: get_okP; case: dbg; vm_compute. Qed.
Example c78_client_instance := @C78_client F17 T17 T17 1 pp2 main_out _ 3 (wrong3 1 2 5)
  (pp2_new false) isT (main_out_proof false).
Lemma wrong3_differs : wrong3 1 2 5 != main_out 3. Proof. by vm_compute. Qed.
Example c78_client_debug_instance := @C78_client_debug F17 T17 T17 1 pp2 main_out _ 3 (wrong3 1 2 5)
  (pp2_new true) isT (main_out_proof true) wrong3_differs.

(** ** wrong witness shares *)
Definition crsR := get_ok [::] (pack_key false pp2 pk3).
Lemma crsR_ok : pack_key false pp2 pk3 = Ok crsR. Proof. by apply: get_okP; vm_compute. Qed.
Definition aR := get_ok [::] (pack_from_witness false pp2 (drop 1 wit) (rnd 2)).
Definition axR := get_ok [::] (pack_from_witness false pp2 (drop 1 wit) (rnd 4)).
Lemma aR_ok : pack_from_witness false pp2 (drop 1 wit) (rnd 2) = Ok aR.
Proof. by apply: get_okP; vm_compute. Qed.
Lemma axR_ok : pack_from_witness false pp2 (drop 1 wit) (rnd 4) = Ok axR.
Proof. by apply: get_okP; vm_compute. Qed.
Definition qapR := get_ok [::] (qap_pss false pp2 qap3 (rnd 3)).
Lemma qapR_ok : qap_pss false pp2 qap3 (rnd 3) = Ok qapR.
Proof. by apply: get_okP; vm_compute. Qed.

(** no masks *)
Definition fm0 (p : nat) : seq (fft_mask F17) := nseq 6 (fft_mask_zero F17 2).
Definition dm0 (p : nat) : degred_mask T17 := degred_mask_zero T17 2.
Definition g1m0 (p : nat) : seq (msm_mask T17) := nseq 4 (msm_mask_zero T17).
Definition g2m0 (p : nat) : msm_mask T17 := msm_mask_zero T17.
Lemma fm0_in i : (i < 3)%N -> fft_masks false pp2 true (d_gen d8) (d_gen_inv dom4) (2 ^ (1 + 1))
  (fun p => nth (no_mask F17) (fm0 p) i).
Proof. by move=> lt_i; left=> p _; case: i lt_i => [|[|[|]]]. Qed.
Lemma fm0_out i : (3 <= i < 6)%N -> fft_masks false pp2 false 1 (d_gen dom4) (2 ^ (1 + 1))
  (fun p => nth (no_mask F17) (fm0 p) i).
Proof. by move=> lt_i; left=> p _; case: i lt_i => [|[|[|[|[|[|]]]]]]. Qed.
Lemma dm0_ok : degred_masks (T := T17) false pp2 3%:R 2 dm0. Proof. by left. Qed.
Lemma g1m0_ok i : (i < 4)%N -> msm_masks (T := T17) false pp2 3%:R
  (fun p => nth (msm_mask_zero T17) (g1m0 p) i).
Proof. by move=> lt_i; left=> p _; case: i lt_i => [|[|[|[|]]]]. Qed.
Lemma g2m0_ok : msm_masks (T := T17) false pp2 3%:R g2m0. Proof. by left. Qed.

(** party 3 adds 5 to its share of the first block *)
Definition va3 : seq F17 := [:: (nth [::] aR 3)`_0 + n17 5].
Definition vax3 : seq F17 := [:: (nth [::] axR 3)`_0 + n17 8].
Example c78_one_party_instance := @C78_one_party F17 T17 T17 1 1 pp2 dom4 d8 cF17 cF17 cF17 1 1 1 pk3 wit 1 qap3
  (rnd 2) (rnd 4) (rnd 3) key0 crsR aR axR qapR fm0 3%:R dm0 3%:R g1m0 3%:R g2m0 r3 s3 (n17 6) (n17 7)
  (fun i => rnd (i + 2)) 3 va3 vax3 (pp2_new false) dom4_new d8_new c17_ok c17_ok c17_ok small_b isT erefl
  erefl erefl erefl isT erefl erefl erefl erefl crsR_ok aR_ok axR_ok qapR_ok fm0_in fm0_out dm0_ok
  g1m0_ok g2m0_ok (regular_pack 6 1) (regular_pack 7 2) (or_intror r3_nonzero) isT erefl erefl.

Definition proverR (a ax : nat -> seq F17) (p : nat) : pproc (F17 * F17 * F17) :=
  dsha256 (F := F17) (T1 := T17) (T2 := T17) false pp2 8 p cF17 cF17 cF17 (nth key0 crsR p)
    (nth qap3 qapR p) (a p) (ax p) r3`_p s3`_p (fm0 p) (dm0 p) (g1m0 p)
    (g2m0 p) (fun=> rev) (fun i => rnd (i + 2)).
Definition endR a ax := results_of (run prover_schedule (init (mkseq (proverR a ax) 8))).
Definition proofR a ax : F17 * F17 * F17 :=
  proof_of (fun p => odflt (0, 0, 0) (nth None (endR a ax) p)).
Definition honestR := proofR (nth [::] aR) (nth [::] axR).
Definition tamperedR := proofR (replaced (nth [::] aR) 3 va3) (replaced (nth [::] axR) 3 vax3).
Definition w3 : F17 := wt 3 0 + wt 3 1.
Example tampered_ends : all isSome (endR (replaced (nth [::] aR) 3 va3) (replaced (nth [::] axR) 3 vax3)).
Proof. by vm_compute. Qed.
Example honestR_A : honestR.1.1 = n17 71. Proof. by apply/eqP; vm_compute. Qed.
Example tampered_proof :
  let k := nth key0 crsR 3 in
  let dA := w3 * (n17 5 * nth 0 (k_s k) 0) in let dB1 := w3 * (n17 5 * nth 0 (k_h k) 0) in
  let dB := w3 * (n17 5 * nth 0 (k_v k) 0) in let dW := w3 * (n17 8 * nth 0 (k_w k) 0) in
  tamperedR = (honestR.1.1 + dA, honestR.1.2 + dB, honestR.2 + (n17 7 * dA + n17 6 * dB1 + dW)).
Proof. by apply/eqP; vm_compute. Qed.
Example tampered_differs : tamperedR.2 != honestR.2. Proof. by vm_compute. Qed.
