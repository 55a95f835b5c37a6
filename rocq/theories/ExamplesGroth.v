(** The hypotheses of the Groth16 theorems can be met: a small circuit over the field of 17
    elements, proved by eight parties. *)
From mathcomp Require Import all_ssreflect all_algebra.
From Verif Require Import Base ModelField ModelPss ModelPack ModelFft ModelNet ModelProto ModelQap.
From Verif Require Import ModelProve Spec SpecNet SpecProto SpecGroth ExampleField PropertiesProto.
From Verif Require Import PssProofs ProtoProofs DegProofs ExamplesNet ExamplesProto.
From Verif Require Import ProveThm PropertiesGroth PropertiesProve.
Set Implicit Arguments.
Unset Strict Implicit.
Unset Printing Implicit Defensive.
Import GRing.Theory.
Local Open Scope ring_scope.

(** x * x = y, (x + y) * 1 = ..., y * (x + 2) = ... with x = 3, y = 9 *)
Definition n17 (i : nat) : F17 := i%:R.
Definition circuit : matrices F17 := Matrices 1 3
  [:: [:: (n17 1, 1%N)]; [:: (n17 1, 1%N); (n17 1, 2%N)]; [:: (n17 1, 2%N)]]
  [:: [:: (n17 1, 1%N)]; [:: (n17 1, 0%N)]; [:: (n17 1, 1%N); (n17 2, 0%N)]].
Definition wit : seq F17 := nums [:: 1; 3; 9]%N.
Definition qap3 : qap_t F17 := get_ok (Qap 0 0 [::] [::] [::] dom4) (qap circuit wit).

Example qap3_ok : qap circuit wit = Ok qap3. Proof. by apply: get_okP; vm_compute. Qed.
Example qap3_a : q_a qap3 = nums [:: 3; 12; 9; 1]%N. Proof. by apply/eqP; vm_compute. Qed.
Example qap3_b : q_b qap3 = nums [:: 3; 1; 5; 0]%N. Proof. by apply/eqP; vm_compute. Qed.
Example qap3_c : q_c qap3 = nums [:: 9; 12; 11; 0]%N. Proof. by apply/eqP; vm_compute. Qed.
Lemma dom4_new' : domain_new F17 (3 + 1) = Some dom4. Proof. by []. Qed.
Example c34_instance := @C34_qap F17 circuit wit dom4 dom4_new' erefl erefl isT isT isT.
Example c34_short : qap circuit (nums [:: 1; 3]%N) = Panic.
Proof. by apply: (@C34_short_assignment F17 circuit _ dom4 dom4_new' erefl erefl). Qed.
Example c34_large : qap (Matrices 17 0 [::] [::]) (nseq 17 (1 : F17)) = Err Generic.
Proof. by apply: C34_no_domain. Qed.

(** the dealer *)
Definition qap_shares := get_ok [::] (qap_pss true pp2 qap3 (rnd 3)).
Definition q8 (p : nat) : qap_t F17 := nth qap3 qap_shares p.
Example c35_instance := @C35_qap_pss F17 true 1 1 pp2 qap3 (rnd 3) (pp2_new true) erefl erefl erefl.
Example c35_dropped : qap_pss true pp2 (Qap 0 0 [:: n17 5] [:: n17 6] [:: n17 7] dom4) (rnd 3)
  = Ok (nseq 8 (Qap 0 0 [::] [::] [::] dom4)).
Proof. exact: (@C35_small_domain F17 true 1 0 pp2 _ _ (pp2_new true)). Qed.

Definition pk3 : proving_key T17 T17 := ProvingKey (F := F17) (T1 := T17) (T2 := T17)
  (nums [:: 5; 11; 2]%N) (nums [:: 7; 3; 14]%N) (nums [:: 4; 8; 1]%N)
  (nums [:: 6; 10; 13; 12]%N) (nums [:: 9; 15]%N) (n17 2) (n17 16) (n17 3) (n17 8) (n17 5).
Definition key0 : key_share T17 T17 := KeyShare (F := F17) (T1 := T17) (T2 := T17)
  [::] [::] [::] [::] [::] 0 0 0 0 0 0 0 0.
Definition crs3 := get_ok [::] (pack_key true pp2 pk3).
Lemma crs3_ok : pack_key true pp2 pk3 = Ok crs3. Proof. by apply: get_okP; vm_compute. Qed.
Example c38_instance := @C38_pack_key F17 T17 T17 true 1 pp2 pk3 (pp2_new true) isT isT isT (fun=> isT).
Definition pk_odd : proving_key T17 T17 := ProvingKey (F := F17) (T1 := T17) (T2 := T17)
  (nums [:: 5; 11; 2]%N) (nums [:: 7; 3; 14]%N) (nums [:: 4; 8; 1]%N)
  (nums [:: 6; 10; 13]%N) (nums [:: 9; 15]%N) (n17 2) (n17 16) (n17 3) (n17 8) (n17 5).
Example c38_odd : pack_key true pp2 pk_odd = Panic.
Proof. exact: (@C38_debug_panic F17 T17 T17 1 pp2 pk_odd (pp2_new true)). Qed.

Definition a3 := get_ok [::] (pack_from_witness true pp2 (drop 1 wit) (rnd 2)).
Definition ax3 := get_ok [::] (pack_from_witness true pp2 (drop 1 wit) (rnd 4)).
Definition r3 : seq F17 := get_ok [::] (pack (T := T17) true pp2 (nums [:: 6; 6]%N) (rnd 1)).
Definition s3 : seq F17 := get_ok [::] (pack (T := T17) true pp2 (nums [:: 7; 7]%N) (rnd 2)).
Example r3_none_zero : all (fun x => x != 0) r3. Proof. by vm_compute. Qed.

Definition d8 : domain F17 := odflt (Domain 0 0 0 0 0 0) (domain_new F17 (2 * 2 ^ (1 + 1))).
Lemma d8_new : domain_new F17 (2 * 2 ^ (1 + 1)) = Some d8. Proof. by []. Qed.
Definition fm_in (k : nat) := get_ok [::]
  (fft_mask_sample true pp2 true (d_gen d8) (d_gen_inv dom4) 4 (rnd k) (rnd 7) (rnd 9)).
Definition fm_out (k : nat) := get_ok [::]
  (fft_mask_sample true pp2 false 1 (d_gen dom4) 4 (rnd k) (rnd 7) (rnd 9)).
Definition fm3 (p : nat) : seq (fft_mask F17) :=
  [seq nth (no_mask F17) m p | m <- [:: fm_in 1; fm_in 2; fm_in 3; fm_out 4; fm_out 5; fm_out 6]].
Definition dm_list := get_ok [::] (degred_mask_sample (T := T17) true pp2 3%:R 2 (rnd 2) (rnd 7) (rnd 9)).
Definition dm3 (p : nat) : degred_mask T17 := nth (degred_mask_zero T17 0) dm_list p.
Definition mm (k : nat) := get_ok [::] (msm_mask_sample (T := T17) true pp2 3%:R (rnd k) (rnd 7)).
Definition g1m3 (p : nat) : seq (msm_mask T17) :=
  [seq nth (msm_mask_zero T17) m p | m <- [:: mm 1; mm 2; mm 3; mm 4]].
Definition g2m3 (p : nat) : msm_mask T17 := nth (msm_mask_zero T17) (mm 5) p.

Definition prover (p : nat) : pproc (F17 * F17 * F17) :=
  dsha256 (F := F17) (T1 := T17) (T2 := T17) true pp2 8 p cF17 cF17 cF17 (nth key0 crs3 p)
    (nth qap3 qap_shares p) (nth [::] a3 p) (nth [::] ax3 p) r3`_p s3`_p (fm3 p) (dm3 p) (g1m3 p)
    (g2m3 p) (fun=> rev) (fun i => rnd (i + 2)).

(** a round of thread [j] *)
Definition round_of (j : nat) : seq action :=
  [seq (p, LThread j KOp) | p <- iota 1 7] ++ [seq (0%N, LThread j (KArrive p)) | p <- iota 1 7]
  ++ [:: (0%N, LThread j KGathered)] ++ nseq 7 (0%N, LThread j KOp)
  ++ [seq (p, LThread j KOp) | p <- iota 1 7].
Definition prover_schedule : seq action :=
  round_of 2 ++ round_of 0 ++ round_of 1 ++ joins 8      (* inverse transforms *)
  ++ round_of 1 ++ round_of 2 ++ round_of 0 ++ joins 8   (* transforms *)
  ++ round_of 0 ++ joins 8                               (* degree reduction *)
  ++ round_of 0 ++ joins 8 ++ round_of 0 ++ joins 8 ++ round_of 0 ++ joins 8
  ++ round_of 1 ++ round_of 0 ++ joins 8.                (* C *)
Definition prover_end := results_of (run prover_schedule (init (mkseq prover 8))).
Definition client (f : F17 * F17 * F17 -> F17) : res F17 :=
  reconstruct (T := T17) true pp2 [seq f (odflt (0, 0, 0) v) | v <- prover_end].

Lemma ok_val (x : res F17) v : is_ok x && (get_ok 0 x == v) -> x = Ok v.
Proof. by case: x => //= y /eqP ->. Qed.

(** A = 3 + 5 + 3 * 11 + 9 * 2 + 6 * 2, B = 5 + 4 + 3 * 8 + 9 * 1 + 7 * 16 *)
Example prover_all_end : all isSome prover_end. Proof. by vm_compute. Qed.
Example client_A : client (fun v => v.1.1) = Ok (n17 71). Proof. by apply: ok_val; vm_compute. Qed.
Example client_B : client (fun v => v.1.2) = Ok (n17 154). Proof. by apply: ok_val; vm_compute. Qed.
(** B1 = 8 + 7 + 3 * 3 + 9 * 14 + 7 * 2 = 164; the values of the quotient part are 3, 12, 11, 14;
    C = 7 A + 6 B1 - 84 + 3 * 9 + 9 * 15 + 449, which is 2 mod 17 *)
Example client_C : client (fun v => v.2) = Ok (n17 2). Proof. by apply: ok_val; vm_compute. Qed.

(** the theorems at this instance *)
Lemma fm3_in i : (i < 3)%N -> fft_masks true pp2 true (d_gen d8) (d_gen_inv dom4) (2 ^ (1 + 1))
  (fun p => nth (no_mask F17) (fm3 p) i).
Proof.
move=> lt_i; right; exists (rnd i.+1), (rnd 7), (rnd 9), (fm_in i.+1); split.
  by case: i lt_i => [|[|[|]]] // _; apply: get_okP; vm_compute.
by move=> p _; case: i lt_i => [|[|[|]]].
Qed.
Lemma fm3_out i : (3 <= i < 6)%N -> fft_masks true pp2 false 1 (d_gen dom4) (2 ^ (1 + 1))
  (fun p => nth (no_mask F17) (fm3 p) i).
Proof.
move=> lt_i; right; exists (rnd i.+1), (rnd 7), (rnd 9), (fm_out i.+1); split.
  by case: i lt_i => [|[|[|[|[|[|]]]]]] // _; apply: get_okP; vm_compute.
by move=> p _; case: i lt_i => [|[|[|[|[|[|]]]]]].
Qed.
Lemma dm3_ok : degred_masks (T := T17) true pp2 3%:R 2 dm3.
Proof.
right; exists (rnd 2), (rnd 7), (rnd 9), dm_list.
by split=> //; apply: get_okP; vm_compute.
Qed.
Lemma g1m3_ok i : (i < 4)%N -> msm_masks (T := T17) true pp2 3%:R
  (fun p => nth (msm_mask_zero T17) (g1m3 p) i).
Proof.
move=> lt_i; right; exists (rnd i.+1), (rnd 7), (mm i.+1); split.
  by case: i lt_i => [|[|[|[|]]]] // _; apply: get_okP; vm_compute.
by move=> p _; case: i lt_i => [|[|[|[|]]]].
Qed.
Lemma g2m3_ok : msm_masks (T := T17) true pp2 3%:R g2m3.
Proof.
by right; exists (rnd 5), (rnd 7), (mm 5); split=> //; apply: get_okP; vm_compute.
Qed.
Lemma regular_pack x k : sharing (T := T17) pp2 (2 * 2 ^ 1)
  (get_ok [::] (pack (T := T17) true pp2 (nums [:: x; x]) (rnd k))) (nseq (2 ^ 1) (n17 x)).
Proof.
have [//|sh [E _ H]] := pack_sharing (T := T17) pp2_ok true (rnd k) (secrets := nums [:: x; x]).
by rewrite E.
Qed.
Lemma a3_ok : pack_from_witness true pp2 (drop 1 wit) (rnd 2) = Ok a3.
Proof. by apply: get_okP; vm_compute. Qed.
Lemma ax3_ok : pack_from_witness true pp2 (drop 1 wit) (rnd 4) = Ok ax3.
Proof. by apply: get_okP; vm_compute. Qed.
Lemma qap_shares_ok : qap_pss true pp2 qap3 (rnd 3) = Ok qap_shares.
Proof. by apply: get_okP; vm_compute. Qed.
Lemma r3_nonzero : forall p, (p < p_n pp2)%N -> r3`_p != 0.
Proof. by move=> p lt_p; have /allP := r3_none_zero; apply; apply: mem_nth. Qed.
Lemma small_b : (2 ^ 1 < 256 ^ 8)%N. Proof. exact: small1. Qed.
Example c39_instance := @C39_prover F17 T17 T17 true 1 1 pp2 dom4 d8 cF17 cF17 cF17 1 1 1 pk3 wit 1 qap3
  (rnd 2) (rnd 4) (rnd 3) key0 crs3 a3 ax3 qap_shares fm3 3%:R dm3 3%:R g1m3 3%:R g2m3 r3 s3 (n17 6) (n17 7)
  (fun i => rnd (i + 2)) (pp2_new true) dom4_new d8_new c17_ok c17_ok c17_ok small_b isT erefl erefl
  erefl erefl isT erefl erefl erefl erefl crs3_ok a3_ok ax3_ok qap_shares_ok fm3_in fm3_out dm3_ok
  g1m3_ok g2m3_ok (regular_pack 6 1) (regular_pack 7 2) (or_intror r3_nonzero).

(** the shares of the QAP meet the hypotheses of C36 and C37 *)
Lemma q8_shared :
  [/\ vsharing (T := T17) pp2 (2 * 2 ^ 1) (2 ^ 1) (fun p => q_a (q8 p)) (strides (T := T17) 1 (1 + 1) (q_a qap3)),
      vsharing (T := T17) pp2 (2 * 2 ^ 1) (2 ^ 1) (fun p => q_b (q8 p)) (strides (T := T17) 1 (1 + 1) (q_b qap3)) &
      vsharing (T := T17) pp2 (2 * 2 ^ 1) (2 ^ 1) (fun p => q_c (q8 p)) (strides (T := T17) 1 (1 + 1) (q_c qap3))].
Proof.
have [xa [xb [xc [E Ha Hb Hc]]]] := c35_instance.
have Eq p : (p < p_n pp2)%N -> q8 p = Qap (num_inputs qap3) (num_constraints qap3) (xa p) (xb p) (xc p) (q_domain qap3).
  by move=> lt_p; rewrite /q8 /qap_shares E /= -[LHS]/(nth _ (mkseq _ (p_n pp2)) p) nth_mkseq.
split.
- by apply: (vsharing_ext _ _ Ha) => [p lt_p|e j _ _]; [rewrite (Eq p lt_p)|].
- by apply: (vsharing_ext _ _ Hb) => [p lt_p|e j _ _]; [rewrite (Eq p lt_p)|].
- by apply: (vsharing_ext _ _ Hc) => [p lt_p|e j _ _]; [rewrite (Eq p lt_p)|].
Qed.
Lemma q8_domain p : (p < p_n pp2)%N -> q_domain (q8 p) = dom4.
Proof. by do 8 (case: p => [|p]; first by []). Qed.
Lemma qap3_sat i : (q_a qap3)`_i * (q_b qap3)`_i = (q_c qap3)`_i.
Proof.
rewrite qap3_a qap3_b qap3_c.
by do 4 (case: i => [|i]; first by apply/eqP; vm_compute); rewrite !nth_default ?mulr0.
Qed.

Definition c37_instance :=
  let: And3 Ha Hb Hc := q8_shared in
  @C37_circom_h F17 true 1 1 pp2 dom4 d8 cF17 1 3%:R q8 fm3 dm3 (q_a qap3) (q_b qap3) (q_c qap3) (2 * 2 ^ 1)
    (fun i => rnd (i + 2)) (pp2_new true) dom4_new d8_new c17_ok small1 isT fm3_in fm3_out dm3_ok
    erefl erefl erefl q8_domain Ha Hb Hc.

Definition fl_in (k : nat) := get_ok [::]
  (fft_mask_sample true pp2 true (ff_generator F17) (d_gen_inv dom4) 4 (rnd k) (rnd 7) (rnd 9)).
Definition fl_out (k : nat) := get_ok [::]
  (fft_mask_sample true pp2 true 1 (d_gen dom4) 4 (rnd k) (rnd 7) (rnd 9)).
Definition fl_last := get_ok [::]
  (fft_mask_sample true pp2 false (ff_generator F17)^-1 (d_gen_inv dom4) 4 (rnd 8) (rnd 7) (rnd 9)).
Definition fl3 (p : nat) : seq (fft_mask F17) :=
  [seq nth (no_mask F17) m p
  | m <- [:: fl_in 1; fl_in 2; fl_in 3; fl_out 4; fl_out 5; fl_out 6; fl_last]].
Lemma fl3_in i : (i < 3)%N -> fft_masks true pp2 true (ff_generator F17) (d_gen_inv dom4) (2 ^ (1 + 1))
  (fun p => nth (no_mask F17) (fl3 p) i).
Proof.
move=> lt_i; right; exists (rnd i.+1), (rnd 7), (rnd 9), (fl_in i.+1); split.
  by case: i lt_i => [|[|[|]]] // _; apply: get_okP; vm_compute.
by move=> p _; case: i lt_i => [|[|[|]]].
Qed.
Lemma fl3_out i : (3 <= i < 6)%N -> fft_masks true pp2 true 1 (d_gen dom4) (2 ^ (1 + 1))
  (fun p => nth (no_mask F17) (fl3 p) i).
Proof.
move=> lt_i; right; exists (rnd i.+1), (rnd 7), (rnd 9), (fl_out i.+1); split.
  by case: i lt_i => [|[|[|[|[|[|]]]]]] // _; apply: get_okP; vm_compute.
by move=> p _; case: i lt_i => [|[|[|[|[|[|]]]]]].
Qed.
Lemma fl3_last : fft_masks true pp2 false (ff_generator F17)^-1 (d_gen_inv dom4) (2 ^ (1 + 1))
  (fun p => nth (no_mask F17) (fl3 p) 6).
Proof.
by right; exists (rnd 8), (rnd 7), (rnd 9), fl_last; split=> //; apply: get_okP; vm_compute.
Qed.
Lemma gen17_4 : ff_generator F17 ^+ (2 ^ (1 + 1)) != 1. Proof. by vm_compute. Qed.
Definition c36_instance :=
  let: And3 Ha Hb Hc := q8_shared in
  @C36_libsnark_h F17 true 1 1 pp2 dom4 cF17 1 q8 fl3 (q_a qap3) (q_b qap3) (q_c qap3) (2 * 2 ^ 1)
    (fun i => rnd (i + 2)) (pp2_new true) dom4_new c17_ok small1 isT gen17_4 fl3_in fl3_out fl3_last
    erefl erefl erefl qap3_sat q8_domain Ha Hb Hc.

(** a run of the libsnark extension; the client unpacks the coefficients of the quotient *)
Definition lib_prover (p : nat) : pproc (seq F17) :=
  libsnark_h true pp2 8 p (fun=> rev) cF17 (q8 p) (fl3 p) (fun i => rnd (i + 2)).
Definition lib_schedule : seq action :=
  round_of 1 ++ round_of 0 ++ round_of 2 ++ joins 8 ++ round_of 2 ++ round_of 0 ++ round_of 1 ++ joins 8
  ++ round_of 0 ++ joins 8.
Definition lib_end := results_of (run lib_schedule (init (mkseq lib_prover 8))).
Definition lib_h (i : nat) : seq F17 :=
  unpack (T := T17) pp2 [seq (odflt [::] v)`_i | v <- lib_end].
Example lib_all_end : all isSome lib_end. Proof. by vm_compute. Qed.
(** (A B - C) = (12 + 4 X + 6 X^2) (X^4 - 1) *)
Example lib_h01 : lib_h 0 = nums [:: 12; 4]%N. Proof. by apply/eqP; vm_compute. Qed.
Example lib_h23 : lib_h 1 = nums [:: 6; 0]%N. Proof. by apply/eqP; vm_compute. Qed.

(** the program of C40 is right when no share of r is zero *)
Example c40_control :
  let r := deal17 [:: 5; 5]%N [:: 1; 1]%N in
  let rnd_ := [seq party p | p <- iota 1 7] ++ [seq king (KArrive p) | p <- iota 1 7]
    ++ [:: king KGathered] ++ nseq 7 (king KOp) ++ [seq party p | p <- iota 1 7]
    ++ [seq (p, LJoin) | p <- iota 0 8] in
  all (fun x => x != 0) r /\
  omap (fun d => omap (reconstruct (T := T17) false pp2) (second_results (procs d)))
    (run (rnd_ ++ rnd_) (init (mkseq (b1_b2 r (deal17 [:: 3; 3]%N [:: 1; 4]%N)) 8)))
  = Some (Some (Ok (7%:R + 2%:R + (5%:R * 4%:R + 7%:R * 9%:R) + 3%:R * 6%:R : F17))).
Proof.
move=> r rnd_; split; first by vm_compute.
have E : if omap (fun d => omap (reconstruct (T := T17) false pp2) (second_results (procs d)))
    (run (rnd_ ++ rnd_) (init (mkseq (b1_b2 r (deal17 [:: 3; 3]%N [:: 1; 4]%N)) 8)))
  is Some (Some (Ok v)) then v == 7%:R + 2%:R + (5%:R * 4%:R + 7%:R * 9%:R) + 3%:R * 6%:R else false
  by vm_compute.
by case: (omap _ _) E => // -[] // -[] // v /eqP ->.
Qed.
