(** Executions of the test programs, and instances of the theorems about them and about what few
    parties see of [d_pp]. *)
From mathcomp Require Import all_ssreflect all_algebra.
From Verif Require Import Base ModelField ModelPss ModelPack ModelFft ModelNet ModelProto ModelQap ModelTests.
From Verif Require Import Spec SpecNet SpecProto SpecGroth SpecView ExampleField ExamplesNet ExamplesProto ExamplesGroth.
From Verif Require Import PropertiesPpView PropertiesTests PropertiesRef.
Set Implicit Arguments.
Unset Strict Implicit.
Unset Printing Implicit Defensive.
Import GRing.Theory.
Local Open Scope ring_scope.

(** ** d_pp seen by the parties 2 and 5, for the vectors (2, 3)/(5, 7) and (1, 1)/(4, 9) *)
Example c66_instance := @C66_d_pp F17 true 1 pp2 cF17 1 1 3%:R 3%:R dmasks dmasks _ _ _ _
  (nums [:: 2; 3]%N) (nums [:: 5; 7]%N) (nums [:: 1; 1]%N) (nums [:: 4; 9]%N) 4 [:: 2; 5]%N
  (pp2_new true) c17_ok isT small_2m isT isT isT isT isT dmasks_ok dmasks_ok (fun _ _ => erefl)
  erefl erefl isT erefl erefl isT
  (@sh17_shared [:: 2; 3]%N 4 erefl) (@sh17_shared [:: 5; 7]%N 6 erefl)
  (@sh17_shared [:: 1; 1]%N 4 erefl) (@sh17_shared [:: 4; 9]%N 6 erefl).
Example c66_known_instance := @C66_d_pp_known_randomness F17 true 1 pp2 cF17 1 1 3%:R 3%:R dmasks dmasks _ _ _ _
  (nums [:: 2; 3]%N) (nums [:: 5; 7]%N) (nums [:: 1; 1]%N) (nums [:: 4; 9]%N) 4 [:: 2; 5]%N
  (rnd 11) (rnd 13) (rnd 5) (pp2_new true) c17_ok isT small_2m isT isT isT isT erefl dmasks_ok dmasks_ok
  erefl erefl isT erefl erefl isT
  (@sh17_shared [:: 2; 3]%N 4 erefl) (@sh17_shared [:: 5; 7]%N 6 erefl)
  (@sh17_shared [:: 1; 1]%N 4 erefl) (@sh17_shared [:: 4; 9]%N 6 erefl).
(** the two first products, 2/5 = 14 and 1/4 = 13, differ *)
Example c66_differ : (nums [:: 2; 3]%N)`_0 / (nums [:: 5; 7]%N)`_0 != (nums [:: 1; 1]%N)`_0 / (nums [:: 4; 9]%N)`_0.
Proof. by vm_compute. Qed.

(** ** the tests of the transforms *)
Definition vals4 : seq F17 := nums [:: 4; 8; 15; 16]%N.
Definition test_rows := get_ok [::] (strided_rows true pp2 vals4 (rnd 5)).
Definition mk rearr g w k p : fft_mask F17 :=
  nth (FftMask [::] [::]) (get_ok [::] (fft_mask_sample true pp2 rearr g w 4 (rnd k) (rnd 7) (rnd 9))) p.
Definition g17 := ff_generator F17.
Definition coset_masks (p : nat) : seq (fft_mask F17) :=
  [:: mk true g17 (d_gen_inv dom4) 2 p; mk true 1 (d_gen dom4) 3 p; mk true g17^-1 (d_gen_inv dom4) 4 p;
      mk false 1 (d_gen dom4) 5 p].
Definition coset_net : cfg (seq F17) := init (mkseq (fun p => pthread 3
  (coset_d_ifftxd_fft_party true pp2 8 p (fun=> rev) cF17 dom4 (coset_masks p) rnd test_rows)) 8).
Definition coset_end := [seq odflt [::] v | v <- results_of
  (run (round 8 ++ round 8 ++ round 8 ++ round 8 ++ joins 8) coset_net)].
Example coset_comes_back : (if unpack_rows pp2 coset_end is Ok v then v == vals4 else false) = true.
Proof. by vm_compute. Qed.
Example coset_check_passes : round_trip_check pp2 vals4 coset_end = Ok tt.
Proof. by vm_compute. Qed.
(** the check can fail *)
Example coset_check_fails : round_trip_check pp2 (nums [:: 4; 8; 15; 1]%N) coset_end = Panic.
Proof. by vm_compute. Qed.

Definition ifft_net : cfg (seq F17) := init (mkseq (fun p => pthread 3
  (d_ifft_works_party true pp2 8 p (fun=> rev) cF17 dom4 [:: mk false 1 (d_gen_inv dom4) 2 p] rnd test_rows)) 8).
Definition ifft_end := [seq odflt [::] v | v <- results_of (run (round 8 ++ joins 8) ifft_net)].
Example ifft_check_passes : d_ifft_works_check pp2 dom4 vals4 ifft_end = Ok tt.
Proof. by vm_compute. Qed.
Example ifft_check_fails : d_ifft_works_check pp2 dom4 (nums [:: 4; 8; 15; 1]%N) ifft_end = Panic.
Proof. by vm_compute. Qed.

Lemma mk_ok rearr g w k : is_ok (fft_mask_sample true pp2 rearr g w 4 (rnd k) (rnd 7) (rnd 9)) ->
  fft_masks true pp2 rearr g w (2 ^ (1 + 1)) (mk rearr g w k).
Proof.
move=> H; right; exists (rnd k), (rnd 7), (rnd 9).
exists (get_ok [::] (fft_mask_sample true pp2 rearr g w 4 (rnd k) (rnd 7) (rnd 9))).
by split=> //; apply: get_okP.
Qed.
Lemma m1_ok : fft_masks true pp2 true g17 (d_gen_inv dom4) (2 ^ (1 + 1)) (mk true g17 (d_gen_inv dom4) 2).
Proof. by apply: mk_ok; vm_compute. Qed.
Lemma m2_ok : fft_masks true pp2 true 1 (d_gen dom4) (2 ^ (1 + 1)) (mk true 1 (d_gen dom4) 3).
Proof. by apply: mk_ok; vm_compute. Qed.
Lemma m3_ok : fft_masks true pp2 true g17^-1 (d_gen_inv dom4) (2 ^ (1 + 1)) (mk true g17^-1 (d_gen_inv dom4) 4).
Proof. by apply: mk_ok; vm_compute. Qed.
Lemma m4_ok : fft_masks true pp2 false 1 (d_gen dom4) (2 ^ (1 + 1)) (mk false 1 (d_gen dom4) 5).
Proof. by apply: mk_ok; vm_compute. Qed.
Lemma m5_ok : fft_masks true pp2 false 1 (d_gen_inv dom4) (2 ^ (1 + 1)) (mk false 1 (d_gen_inv dom4) 2).
Proof. by apply: mk_ok; vm_compute. Qed.
Lemma m6_ok : fft_masks true pp2 true 1 (d_gen_inv dom4) (2 ^ (1 + 1)) (mk true 1 (d_gen_inv dom4) 2).
Proof. by apply: mk_ok; vm_compute. Qed.
Lemma m7_ok : fft_masks true pp2 false g17^-1 (d_gen_inv dom4) (2 ^ (1 + 1)) (mk false g17^-1 (d_gen_inv dom4) 4).
Proof. by apply: mk_ok; vm_compute. Qed.

Example c67_coset_instance := @C67_coset_d_ifftxd_fft_works F17 true 1 1 pp2 dom4 cF17 1 vals4 (rnd 5) rnd
  coset_masks (pp2_new true) dom4_new c17_ok small1 erefl m1_ok m2_ok m3_ok m4_ok.
Example c67_chain_instance := @C67_d_ifftxd_fft_works F17 true 1 1 pp2 dom4 cF17 1 vals4 (rnd 5) rnd
  (fun p => [:: mk true 1 (d_gen_inv dom4) 2 p; mk false 1 (d_gen dom4) 5 p])
  (pp2_new true) dom4_new c17_ok small1 erefl m6_ok m4_ok.
Example c67_ifft_instance := @C67_d_ifft_works F17 true 1 1 pp2 dom4 cF17 1 vals4 (rnd 5) rnd
  (fun p => [:: mk false 1 (d_gen_inv dom4) 2 p]) (pp2_new true) dom4_new c17_ok small1 erefl m5_ok.
Example c67_fft_instance := @C67_d_fft_works F17 true 1 1 pp2 dom4 cF17 1 vals4 (rnd 5) rnd
  (fun p => [:: mk false 1 (d_gen dom4) 5 p]) (pp2_new true) dom4_new c17_ok small1 erefl m4_ok.

(** ** the reference functions: a satisfied QAP, and vectors that are not *)
Definition vb4 : seq F17 := nums [:: 3; 1; 5; 0]%N.
Definition vc4 : seq F17 := nums [:: 9; 12; 11; 0]%N.
Example ref_satisfied :
  (if libsnark_ref dom4 (q_a qap3) (q_b qap3) (q_c qap3) is Ok h then (size h == 4%N) && (h`_3 == 0) else false) = true.
Proof. by vm_compute. Qed.
Example ref_unsatisfied :
  (if libsnark_ref dom4 vals4 vb4 vc4 is Ok h then (size h == 4%N) && (h`_3 != 0) else false) = true.
Proof. by vm_compute. Qed.
Example c68_ref_instance := @C68_libsnark_ref F17 1 1 dom4 vals4 vb4 vc4 dom4_new erefl erefl erefl isT.
Example c68_circom_ref_instance := @C68_circom_ref F17 1 1 dom4 d8 vals4 vb4 vc4 dom4_new d8_new erefl erefl erefl.

(** the two tests with vectors that do not satisfy the QAP *)
Definition any_qap : qap_t F17 := Qap 0 0 vals4 vb4 vc4 dom4.
Definition any_shares := get_ok [::] (qap_pss true pp2 any_qap (rnd 3)).
Definition lib_masks (p : nat) : seq (fft_mask F17) :=
  [:: mk true g17 (d_gen_inv dom4) 2 p; mk true g17 (d_gen_inv dom4) 2 p; mk true g17 (d_gen_inv dom4) 2 p;
      mk true 1 (d_gen dom4) 3 p; mk true 1 (d_gen dom4) 3 p; mk true 1 (d_gen dom4) 3 p;
      mk false g17^-1 (d_gen_inv dom4) 4 p].
Definition ext_run : seq action :=
  round_of 0 ++ round_of 1 ++ round_of 2 ++ joins 8 ++ round_of 0 ++ round_of 1 ++ round_of 2 ++ joins 8
  ++ round_of 0 ++ joins 8.
Definition lib_end := [seq odflt [::] v | v <- results_of (run ext_run (init (mkseq (fun p =>
  libsnark_test_party true pp2 8 p (fun=> rev) cF17 (lib_masks p) rnd any_shares) 8)))].
Example lib_check_passes : libsnark_check true pp2 dom4 vals4 vb4 vc4 lib_end = Ok tt.
Proof. by vm_compute. Qed.
Example lib_check_fails : libsnark_check true pp2 dom4 vals4 vb4 vb4 lib_end = Panic.
Proof. by vm_compute. Qed.
Definition cir_end := [seq odflt [::] v | v <- results_of (run ext_run (init (mkseq (fun p =>
  circom_test_party true pp2 8 p (fun=> rev) cF17 (fm3 p) rnd any_shares (dm3 p)) 8)))].
Example cir_check_passes : circom_check true pp2 dom4 vals4 vb4 vc4 cir_end = Ok tt.
Proof. by vm_compute. Qed.

Lemma lib_first i : (i < 3)%N -> fft_masks true pp2 true g17 (d_gen_inv dom4) (2 ^ (1 + 1))
  (fun p => nth (no_mask F17) (lib_masks p) i).
Proof. by case: i => [|[|[|//]]] _; apply: m1_ok. Qed.
Lemma lib_second i : (3 <= i < 6)%N -> fft_masks true pp2 true 1 (d_gen dom4) (2 ^ (1 + 1))
  (fun p => nth (no_mask F17) (lib_masks p) i).
Proof. by case: i => [|[|[|[|[|[|//]]]]]] // _; apply: m2_ok. Qed.
Example c68_libsnark_instance := @C68_libsnark_test F17 true 1 1 pp2 dom4 cF17 1 any_qap lib_masks (rnd 3) rnd
  (pp2_new true) dom4_new c17_ok small1 isT lib_first lib_second m7_ok erefl erefl erefl erefl.
Example c68_circom_instance := @C68_circom_test F17 true 1 1 pp2 dom4 d8 cF17 1 3%:R any_qap fm3 dm3 (rnd 3) rnd
  (pp2_new true) dom4_new d8_new c17_ok small1 fm3_in fm3_out dm3_ok erefl erefl erefl erefl.

(** ** the test of the degree reduction: 2 * 2 = 4 and 6 * 6 = 2 modulo 17 *)
Definition sq_shares := get_ok [::] (deg_red_shares true pp2 (nums [:: 2; 6]%N) (rnd 4)).
Definition sq_end := [seq odflt [::] v | v <- results_of (run (round 8 ++ joins 8) (init (mkseq (fun p =>
  pthread 3 (deg_red_party true pp2 8 p (fun=> rev) cF17 rnd sq_shares (dmasks p))) 8)))].
Example sq_check_passes : deg_red_check true pp2 (nums [:: 2; 6]%N) (Received (take 7 sq_end) (iota 0 7)) = Ok tt.
Proof. by vm_compute. Qed.
Example sq_check_fails : deg_red_check true pp2 (nums [:: 2; 7]%N) (Received (take 7 sq_end) (iota 0 7)) = Panic.
Proof. by vm_compute. Qed.
(** the squares of the shares alone, without the reduction, do not pass with all eight parties *)
Example sq_needed : deg_red_check true pp2 (nums [:: 2; 6]%N)
  (Received [seq [:: x] | x <- sq_shares] (iota 0 8)) = Panic.
Proof. by vm_compute. Qed.
Example c69_instance := @C69_deg_red_test F17 true 1 pp2 3%:R cF17 1 (nums [:: 2; 6]%N) dmasks (rnd 4) rnd
  (pp2_new true) c17_ok erefl dmasks_ok.
