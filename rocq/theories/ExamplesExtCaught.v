(** Instances of the debug-build theorems of C79 over the field of 17 elements with n = 8,
    l = t = 2, and runs. *)
From mathcomp Require Import all_ssreflect all_algebra.
From Verif Require Import Base ModelField ModelPss ModelPack ModelFft ModelNet ModelProto ModelQap.
From Verif Require Import ModelProve ModelMain Spec SpecNet SpecProto SpecTamper SpecExtCaught.
From Verif Require Import ExampleField ExamplesNet ExamplesProto ExamplesGroth ExamplesMain ExamplesTamper.
From Verif Require Import ExamplesProveTamper ExamplesExtTamper ExamplesFew PropertiesExtCaught.
Set Implicit Arguments.
Unset Strict Implicit.
Unset Printing Implicit Defensive.
Import GRing.Theory.
Local Open Scope ring_scope.

(** party 3 uses a wrong first share of a, as in the examples for release builds *)
Lemma qT_unbalanced : exists2 e, (e < 2 ^ 1)%N &
  [\/ imbalance (T := T17) pp2 (SpecTamper.entry (T := T17) (fun p => q_a (qT p)) e) != 0,
      imbalance (T := T17) pp2 (SpecTamper.entry (T := T17) (fun p => q_b (qT p)) e) != 0 |
      imbalance (T := T17) pp2 (SpecTamper.entry (T := T17) (fun p => q_c (qT p)) e) != 0].
Proof.
by exists 0%N => //; apply: Or31; rewrite /imbalance !big_ord_recl big_ord0; vm_compute.
Qed.
Example c79_one_party_unbalanced_instance := let: And3 Ha Hb Hc := q8_shared in
  @C79_one_party_unbalanced F17 1 1 pp2 (2 * 2 ^ 1) q8 _ _ _ 3 (qT 3) (pp2_new true) isT isT Ha Hb Hc
    erefl erefl erefl isT.
Lemma fmT_in i : (i < 3)%N ->
  fft_masks true pp2 true (d_gen d8) (d_gen_inv dom4) (2 ^ (1 + 1))
  (fun p => nth (no_mask F17) (fm0 p) i).
Proof. by move=> lt_i; left=> p _; case: i lt_i => [|[|[|]]]. Qed.
Lemma flT_in i : (i < 3)%N ->
  fft_masks true pp2 true (ff_generator F17) (d_gen_inv dom4) (2 ^ (1 + 1))
  (fun p => nth (no_mask F17) (fl0 p) i).
Proof. by move=> lt_i; left=> p _; case: i lt_i => [|[|[|]]]. Qed.
Example c79_circom_caught_instance := @C79_circom_caught F17 1 1 pp2 dom4 d8 cF17 1 qT fm0 dm0
  (fun i => rnd (i + 2)) (fun=> rev) (pp2_new true) dom4_new d8_new c17_ok small_b fmT_in qT_domain
  qT_sizes qT_unbalanced (fun=> rev_hash).
Example c79_libsnark_caught_instance := @C79_libsnark_caught F17 1 1 pp2 dom4 cF17 1 qT fl0
  (fun i => rnd (i + 2)) (fun=> rev) (pp2_new true) dom4_new c17_ok small_b flT_in qT_domain
  qT_sizes qT_unbalanced (fun=> rev_hash).
(** the prover: wrong shares of the QAP, and wrong shares of the private part of the witness only *)
Lemma fmT_out i : (3 <= i < 6)%N -> fft_masks true pp2 false 1 (d_gen dom4) (2 ^ (1 + 1))
  (fun p => nth (no_mask F17) (fm0 p) i).
Proof. by move=> lt_i; left=> p _; case: i lt_i => [|[|[|[|[|[|]]]]]]. Qed.
Lemma dmT_ok : degred_masks (T := T17) true pp2 3%:R 2 dm0. Proof. by left. Qed.
Lemma g1mT_ok i : (i < 4)%N -> msm_masks (T := T17) true pp2 3%:R
  (fun p => nth (msm_mask_zero T17) (g1m0 p) i).
Proof. by move=> lt_i; left=> p _; case: i lt_i => [|[|[|[|]]]]. Qed.
Lemma g2mT_ok : msm_masks (T := T17) true pp2 3%:R g2m0. Proof. by left. Qed.
Definition axT : nat -> seq F17 := replaced (nth [::] axR) 3 vax3.
Lemma key_sizes p : (p < p_n pp2)%N -> let k := nth key0 crsR p in
  [/\ size (k_s k) = 1, size (k_h k) = 1, size (k_v k) = 1 & size (nth [::] aR p) = 1]%N.
Proof. by do 8 (case: p => [|p]; first by vm_compute). Qed.
Lemma priv_sizes p : (p < p_n pp2)%N ->
  size (k_w (nth key0 crsR p)) = 1%N /\ size (axT p) = 1%N.
Proof. by do 8 (case: p => [|p]; first by vm_compute). Qed.
Lemma axT_unbalanced : imbalance (T := T17) pp2
  (products (T := T17) (fun p => k_w (nth key0 crsR p)) axT 1) != 0.
Proof. by rewrite /imbalance /products !big_ord_recl !big_ord0; vm_compute. Qed.
Lemma q8_domain' p : (p < p_n pp2)%N -> q_domain (q8 p) = dom4.
Proof. by do 8 (case: p => [|p]; first by []). Qed.
Lemma q8_sizes p : (p < p_n pp2)%N ->
  [/\ size (q_a (q8 p)) = 2 ^ 1, size (q_b (q8 p)) = 2 ^ 1 & size (q_c (q8 p)) = 2 ^ 1]%N.
Proof. by do 8 (case: p => [|p]; first by []). Qed.
Example c79_prover_caught_instance := @C79_prover_caught F17 T17 T17 1 1 pp2 dom4 d8 cF17 cF17 cF17 1 1 1
  qT (nth key0 crsR) (nth [::] aR) axT fm0 3%:R dm0 3%:R g1m0 3%:R g2m0 (nth 0 r3) (nth 0 s3)
  (fun i => rnd (i + 2)) (fun=> rev) 1 1 (pp2_new true) dom4_new d8_new c17_ok c17_ok c17_ok small_b
  fmT_in fmT_out dmT_ok g1mT_ok g2mT_ok qT_domain qT_sizes key_sizes priv_sizes (or_intror r3_nonzero)
  (Or41 _ _ _ qT_unbalanced) (fun=> rev_hash).
Example c79_prover_caught_witness := @C79_prover_caught F17 T17 T17 1 1 pp2 dom4 d8 cF17 cF17 cF17 1 1 1
  q8 (nth key0 crsR) (nth [::] aR) axT fm0 3%:R dm0 3%:R g1m0 3%:R g2m0 (nth 0 r3) (nth 0 s3)
  (fun i => rnd (i + 2)) (fun=> rev) 1 1 (pp2_new true) dom4_new d8_new c17_ok c17_ok c17_ok small_b
  fmT_in fmT_out dmT_ok g1mT_ok g2mT_ok q8_domain' q8_sizes key_sizes priv_sizes (or_intror r3_nonzero)
  (Or44 _ _ _ (or_intror axT_unbalanced)) (fun=> rev_hash).

(** a debug build of the circom extension: with the dealt shares all parties finish, with the wrong
    share the transforms of b and c end but the king's thread for a panics *)
Definition circomD (q : nat -> qap_t F17) (p : nat) : pproc (seq F17) :=
  circom_h true pp2 8 p (fun=> rev) cF17 (q p) (fm0 p) (dm0 p) (fun i => rnd (i + 2)).
Example circom_debug_honest :
  all isSome (results_of (run lib_schedule (init (mkseq (circomD q8) 8)))).
Proof. by vm_compute. Qed.
Example circom_debug_stuck : run lib_schedule (init (mkseq (circomD qT) 8)) = None.
Proof. by vm_compute. Qed.
Definition heard (j : nat) : seq action :=
  [seq (p, LThread j KOp) | p <- iota 1 7] ++ [seq (0%N, LThread j (KArrive p)) | p <- iota 1 7]
  ++ [:: (0%N, LThread j KGathered)].
Definition king_end (A : Type) (o : option (cfg A)) : option (res A) :=
  if o is Some c then if nth PHalt (procs c) 0 is PRet r then Some r else None else None.
Example circom_debug_dies : king_end (run
    (rcons (flatten [seq heard j | j <- [:: 2; 1; 0]%N]) (0%N, LAbort 0))
    (init (mkseq (circomD qT) 8))) = Some Panic.
Proof. by vm_compute. Qed.
Example circom_debug_lives : run
    (rcons (flatten [seq heard j | j <- [:: 2; 1; 0]%N]) (0%N, LAbort 0))
    (init (mkseq (circomD q8) 8)) = None.
Proof. by vm_compute. Qed.

(** a debug build of the prover with wrong shares of the private witness only: everything goes well
    until the king unpacks the product with the l-query *)
Definition proverD (ax : nat -> seq F17) (p : nat) : pproc (F17 * F17 * F17) :=
  dsha256 (F := F17) (T1 := T17) (T2 := T17) true pp2 8 p cF17 cF17 cF17 (nth key0 crsR p)
    (q8 p) (nth [::] aR p) (ax p) r3`_p s3`_p (fm0 p) (dm0 p) (g1m0 p)
    (g2m0 p) (fun=> rev) (fun i => rnd (i + 2)).
Definition until_C : seq action :=
  round_of 2 ++ round_of 0 ++ round_of 1 ++ joins 8 ++ round_of 1 ++ round_of 2 ++ round_of 0 ++ joins 8
  ++ flatten (nseq 4 (round_of 0 ++ joins 8)) ++ heard 1 ++ rcons (heard 0) (0%N, LAbort 0).
Example prover_debug_dies : king_end (run until_C (init (mkseq (proverD axT) 8))) = Some Panic.
Proof. by vm_compute. Qed.
Example prover_debug_lives : run until_C (init (mkseq (proverD (nth [::] axR)) 8)) = None.
Proof. by vm_compute. Qed.
Example prover_debug_honest :
  all isSome (results_of (run prover_schedule (init (mkseq (proverD (nth [::] axR)) 8)))).
Proof. by vm_compute. Qed.
