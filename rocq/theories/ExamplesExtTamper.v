(** Instances of C79 over the field of 17 elements with n = 8, l = t = 2, and runs in which party 3
    uses wrong shares of the QAP. *)
From mathcomp Require Import all_ssreflect all_algebra.
From mathcomp Require Import zify.
From Verif Require Import Base ModelField ModelPss ModelPack ModelFft ModelNet ModelProto ModelQap.
From Verif Require Import ModelProve ModelMain Spec SpecNet SpecProto SpecGroth SpecVerify SpecTamper.
From Verif Require Import SpecExtTamper ExampleField PssProofs ProtoProofs DegProofs TamperProofs TamperThm ExamplesNet.
From Verif Require Import ExamplesProto ExamplesGroth ExamplesMain ExamplesTamper ExamplesProveTamper.
From Verif Require Import PropertiesExtTamper ModelNet.
Set Implicit Arguments.
Unset Strict Implicit.
Unset Printing Implicit Defensive.
Import GRing.Theory.
Local Open Scope ring_scope.

(** party 3 adds 5 to its first share of a *)
Definition a3' : seq F17 := let x := q_a (q8 3) in [:: x`_0 + n17 5; x`_1].
Definition qT (p : nat) : qap_t F17 :=
  if p == 3%N then Qap (num_inputs qap3) (num_constraints qap3) a3' (q_b (q8 3)) (q_c (q8 3)) dom4 else q8 p.
(** what the shares of a interpolate to: entries 0 and 1 of a (slots 0 and 1 of the first share)
    are wrong by 5 times the weights *)
Definition vaT : seq F17 :=
  [:: (q_a qap3)`_0 + wt 3 0 * n17 5; (q_a qap3)`_1 + wt 3 1 * n17 5; (q_a qap3)`_2; (q_a qap3)`_3].

Lemma qT_domain p : (p < p_n pp2)%N -> q_domain (qT p) = dom4.
Proof. by do 8 (case: p => [|p]; first by []). Qed.
Lemma qT_sizes p : (p < p_n pp2)%N ->
  [/\ size (q_a (qT p)) = 2 ^ 1, size (q_b (qT p)) = 2 ^ 1 & size (q_c (qT p)) = 2 ^ 1]%N.
Proof. by do 8 (case: p => [|p]; first by []). Qed.
Lemma shared_guessed (x : nat -> seq F17) v : size v = 4%N ->
  vsharing (T := T17) pp2 (2 * 2 ^ 1) (2 ^ 1) x (strides (T := T17) 1 (1 + 1) v) ->
  guessed_strides pp2 1 1 x v.
Proof.
move=> sv /vsharingP[_ H]; split=> // e j le lj.
by rewrite (interpolated_shared (T := T17) pp2_ok _ (H e le) lj).
Qed.
Lemma q8_c_guessed : guessed_strides pp2 1 1 (fun p => q_c (qT p)) (q_c qap3).
Proof.
have [_ _ H] := q8_shared; apply: shared_guessed => //; apply: (vsharing_ext _ _ H) => // p _.
by rewrite /qT; case: eqP => // ->.
Qed.
Lemma q8_b_guessed : guessed_strides pp2 1 1 (fun p => q_b (qT p)) (q_b qap3).
Proof.
have [_ H _] := q8_shared; apply: shared_guessed => //; apply: (vsharing_ext _ _ H) => // p _.
by rewrite /qT; case: eqP => // ->.
Qed.
Lemma q8_a_guessed : guessed_strides pp2 1 1 (fun p => q_a (qT p)) vaT.
Proof.
have [/vsharingP[_ H] _ _] := q8_shared; split=> // e j le lj.
rewrite (TamperProofs.eq_interpolated (F := F17) (T := T17)
  (y' := replaced (SpecTamper.entry (T := T17) (fun p => q_a (q8 p)) e) 3 a3'`_e)); last first.
  by move=> p _; rewrite /SpecTamper.entry /qT /replaced; case: eqP.
rewrite (TamperThm.interpolated_replaced (T := T17)) //.
rewrite (interpolated_shared (T := T17) pp2_ok _ (H e le) lj) // weight_wt.
by case: e le {H} => [|[|]] // _; case: j lj => [|[|]] // _; apply/eqP; vm_compute.
Qed.

Example c79_circom_h_instance := @C79_circom_h F17 false 1 1 pp2 dom4 d8 cF17 1 3%:R qT fm0 dm0
  (fun i => rnd (i + 2)) vaT (q_b qap3) (q_c qap3) (pp2_new false) dom4_new d8_new c17_ok small_b
  fm0_in fm0_out dm0_ok qT_domain qT_sizes (fun no : false => False_ind _ (notF no))
  q8_a_guessed q8_b_guessed q8_c_guessed.

Definition fl0 (p : nat) : seq (fft_mask F17) := nseq 7 (fft_mask_zero F17 2).
Lemma fl0_in i : (i < 3)%N ->
  fft_masks false pp2 true (ff_generator F17) (d_gen_inv dom4) (2 ^ (1 + 1))
  (fun p => nth (no_mask F17) (fl0 p) i).
Proof. by move=> lt_i; left=> p _; case: i lt_i => [|[|[|]]]. Qed.
Lemma fl0_out i : (3 <= i < 6)%N -> fft_masks false pp2 true 1 (d_gen dom4) (2 ^ (1 + 1))
  (fun p => nth (no_mask F17) (fl0 p) i).
Proof. by move=> lt_i; left=> p _; case: i lt_i => [|[|[|[|[|[|]]]]]]. Qed.
Lemma fl0_last : fft_masks false pp2 false (ff_generator F17)^-1 (d_gen_inv dom4) (2 ^ (1 + 1))
  (fun p => nth (no_mask F17) (fl0 p) 6).
Proof. by left. Qed.
Example c79_libsnark_h_instance := @C79_libsnark_h F17 false 1 1 pp2 dom4 cF17 1 qT fl0
  (fun i => rnd (i + 2)) vaT (q_b qap3) (q_c qap3) (pp2_new false) dom4_new c17_ok small_b
  gen17_4 fl0_in fl0_out fl0_last qT_domain qT_sizes (fun no : false => False_ind _ (notF no))
  q8_a_guessed q8_b_guessed q8_c_guessed.
Example c79_guessed_instance := @C79_guessed F17 false 1 1 pp2 (fun p => q_a (qT p)) (pp2_new false) small_b.

Lemma aR_sizes u (v : seq F17) (x : seq (seq F17)) p : (p < p_n pp2)%N ->
  size v = 1%N -> map size x = nseq 8 1%N -> size (replaced (nth [::] x) u v p) = 1%N.
Proof.
move=> lp sv sx; rewrite /replaced; case: eqP => // _.
have lx : (p < size x)%N by rewrite -(size_map size) sx size_nseq.
by rewrite -(nth_map [::] 0%N) // sx nth_nseq lp.
Qed.
(** wrong shares of the QAP and of the witness together *)
Example c79_prover_instance := @C79_prover F17 T17 T17 false 1 1 pp2 dom4 d8 cF17 cF17 cF17 1 1 1 pk3
  3 1 qT key0 crsR (replaced (nth [::] aR) 3 va3) (replaced (nth [::] axR) 3 vax3) fm0 3%:R dm0 3%:R
  g1m0 3%:R g2m0 r3 s3 (n17 6) (n17 7) (fun i => rnd (i + 2)) vaT (q_b qap3) (q_c qap3)
  (pp2_new false) dom4_new d8_new c17_ok c17_ok c17_ok small_b isT erefl erefl erefl erefl isT crsR_ok
  fm0_in fm0_out dm0_ok g1m0_ok g2m0_ok (regular_pack 6 1) (regular_pack 7 2) (or_intror r3_nonzero)
  qT_domain qT_sizes (fun no : false => False_ind _ (notF no)) q8_a_guessed q8_b_guessed q8_c_guessed
  (fun p lp => aR_sizes 3 (v := va3) (x := aR) lp erefl erefl)
  (fun p lp => aR_sizes 3 (v := vax3) (x := axR) lp erefl erefl)
  (fun no : false => False_ind _ (notF no)).
Lemma qT_replaced : guessed_strides pp2 1 1 (replaced (fun p => q_a (q8 p)) 3 a3') vaT.
Proof.
have [sv Ev] := q8_a_guessed; split=> // e j le lj; rewrite (Ev e j le lj).
by apply: (eq_interpolated (T := T17)) => p _; rewrite /SpecTamper.entry /qT /replaced; case: eqP.
Qed.
Example c79_one_party_instance := @C79_one_party F17 false 1 1 pp2 (2 * 2 ^ 1) (fun p => q_a (q8 p))
  (q_a qap3) vaT 3 a3' (pp2_new false) isT isT (let: And3 H _ _ := q8_shared in H) qT_replaced.

(** runs of the circom extension in a release build; the client unpacks the values of the
    quotient part.  With the wrong shares of party 3 they are what the parties get if everybody has
    correct shares of the wrong vector *)
Definition circomT (q : nat -> qap_t F17) (p : nat) : pproc (seq F17) :=
  circom_h false pp2 8 p (fun=> rev) cF17 (q p) (fm0 p) (dm0 p) (fun i => rnd (i + 2)).
Definition circom_end q := results_of (run lib_schedule (init (mkseq (circomT q) 8))).
Definition h_of (ends : seq (option (seq F17))) : seq F17 :=
  flatten [seq unpack (T := T17) pp2 [seq (odflt [::] v)`_i | v <- ends] | i <- [:: 0; 1]%N].
Definition q_wrong : nat -> qap_t F17 := nth qap3 (get_ok [::] (qap_pss false pp2
  (Qap (num_inputs qap3) (num_constraints qap3) vaT (q_b qap3) (q_c qap3) dom4) (rnd 11))).
Example circom_all_end : all isSome (circom_end qT). Proof. by vm_compute. Qed.
Example circom_honest : h_of (circom_end q8) = nums [:: 3; 12; 11; 14]%N.
Proof. by apply/eqP; vm_compute. Qed.
Example circom_tampered :
  (h_of (circom_end qT) == h_of (circom_end q_wrong)) && (h_of (circom_end qT) != h_of (circom_end q8)).
Proof. by vm_compute. Qed.
