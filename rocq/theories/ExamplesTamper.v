(** Instances of C73 over the field of 17 elements with n = 8, l = t = 2, and runs in which parties
    send wrong shares. *)
From mathcomp Require Import all_ssreflect all_algebra.
From mathcomp Require Import zify.
From Verif Require Import Base ModelField ModelPss ModelPack ModelFft ModelNet ModelProto.
From Verif Require Import Spec SpecNet SpecProto SpecTamper ExampleField PssProofs ProtoProofs DegProofs.
From Verif Require Import ExamplesNet ExamplesProto ExamplesKingView PropertiesTamper.
Set Implicit Arguments.
Unset Strict Implicit.
Unset Printing Implicit Defensive.
Import GRing.Theory.
Local Open Scope ring_scope.

(** the weights computed, and what they predict *)
Definition wt (p j : nat) : F17 := 8%:R^-1 * hv (secret_pt pp2 j / share_pt pp2 p) (nseq 8 1).
Lemma weight_wt p j : weight pp2 p j = wt p j.
Proof.
rewrite /wt -pval_hv /weight /pval size_nseq; congr (_ * _).
by apply: eq_bigr => k _; rewrite nth_nseq ltn_ord /GRing.scale /= mulr1.
Qed.
Definition wt_without (d p j : nat) : F17 := wt p j - wt d j * (share_pt pp2 p / share_pt pp2 d).
Lemma weight_without_wt d p j : weight_without pp2 d p j = wt_without d p j.
Proof. by rewrite /weight_without !weight_wt. Qed.
Example wt_all_nonzero : all (fun p => all (fun j => wt p j != 0) (iota 0 2)) (iota 0 8).
Proof. by vm_compute. Qed.
(** the weights of a missing party are zero and those of the others are not *)
Example wt_without_nonzero : all (fun p => all (fun j => (wt_without 6 p j != 0) == (p != 6%N)) (iota 0 2)) (iota 0 8).
Proof. by vm_compute. Qed.

(** degree reduction of one entry: party 5 adds 3 to its share *)
Definition honest : nat -> seq F17 := sh_poly prod1.
Definition one_wrong : nat -> seq F17 := replaced honest 5 [:: (honest 5)`_0 + 3%:R].
(** parties 5 and 2 together *)
Definition two_wrong : nat -> seq F17 :=
  replaced (replaced honest 5 [:: (honest 5)`_0 + share_pt pp2 2 * 3%:R])
    2 [:: (honest 2)`_0 - share_pt pp2 5 * 3%:R].
Definition tamper_net dbg (x : nat -> seq F17) : cfg (seq F17) :=
  init (mkseq (fun p => pthread 3 (deg_red (T := T17) dbg pp2 8 p rev cF17 (x p) (dmasks p) (rnd 11))) 8).
Definition tamper_end dbg x := ExamplesProto.entry 0 (results_of (run (round 8 ++ joins 8) (tamper_net dbg x))).
Definition got dbg x : seq F17 := unpack (T := T17) pp2 (tamper_end dbg x).
Definition off (x y : seq F17) : seq F17 := zipmap (fun a b => a - b) x y.

Example honest_result : got true honest = mkseq (sec_poly prod1 0) 2. Proof. by apply/eqP; vm_compute. Qed.
(** in a release build both secrets are wrong, by the predicted amounts *)
Example one_wrong_release : off (got false one_wrong) (got false honest) = mkseq (fun j => wt 5 j * 3%:R) 2.
Proof. by apply/eqP; vm_compute. Qed.
Example one_wrong_release_numbers : off (got false one_wrong) (got false honest) = nums [:: 8; 2]%N.
Proof. by apply/eqP; vm_compute. Qed.
(** in a debug build the king panics, and the run cannot go on *)
Example one_wrong_debug : omap (fun c => nth PHalt (procs c) 0)
  (run ([seq party p | p <- iota 1 7] ++ [seq king (KArrive p) | p <- iota 1 7]
        ++ [:: king KGathered; (0%N, LAbort 0)]) (tamper_net true one_wrong)) = Some (PRet Panic).
Proof. by vm_compute. Qed.
Example one_wrong_debug_stuck : run (round 8) (tamper_net true one_wrong) = None.
Proof. by vm_compute. Qed.
(** two parties are not noticed, and both secrets are wrong *)
Example two_wrong_debug : off (got true two_wrong) (got true honest) =
  mkseq (fun j => share_pt pp2 2 * wt_without 2 5 j * 3%:R) 2.
Proof. by apply/eqP; vm_compute. Qed.
Example two_wrong_debug_nonzero : all (fun a : F17 => a != 0) (off (got true two_wrong) (got true honest)).
Proof. by vm_compute. Qed.
(** neither is one party while another one is silent *)
Definition tamper_net6 (x : nat -> seq F17) : cfg (seq F17) := init (crashing 8 6 0 (fun=> 0%N) (fun p =>
  pthread 3 (deg_red (T := T17) true pp2 8 p rev cF17 (x p) (dmasks p) (rnd 11)))).
Definition tamper_end6 x := results_of (run
  ([seq party p | p <- others] ++ [seq king (KArrive p) | p <- others] ++ [:: king KGathered]
   ++ nseq 7 (king KOp) ++ [seq party p | p <- others] ++ [seq (p, LJoin) | p <- 0%N :: others])
  (tamper_net6 x)).
Definition got6 x : seq F17 :=
  get_ok [::] (unpack_missing_shares (T := T17) true pp2 [seq (odflt [::] (nth None (tamper_end6 x) p))`_0 | p <- 0%N :: others] (0%N :: others)).
Example one_wrong_missing : off (got6 one_wrong) (got6 honest) = mkseq (fun j => wt_without 6 5 j * 3%:R) 2.
Proof. by apply/eqP; vm_compute. Qed.
Example one_wrong_missing_nonzero : all (fun a : F17 => a != 0) (off (got6 one_wrong) (got6 honest)).
Proof. by vm_compute. Qed.

(** instances of the theorems *)
Lemma dmasks_ok' dbg : degred_masks (T := T17) dbg pp2 3%:R 1 dmasks.
Proof.
case: dbg; first exact: dmasks_ok.
right; exists (rnd 2), (rnd 7), (rnd 9).
exists (s_res [::] (degred_mask_sample (T := T17) true pp2 3%:R 1 (rnd 2) (rnd 7) (rnd 9))).
by split=> //; apply: get_okP; vm_compute.
Qed.
Example wrong5 : [:: (honest 5)`_0 + 3%:R] != honest 5. Proof. by vm_compute. Qed.
Example c73_one_party_debug_instance := @C73_one_party_debug F17 T17 1 pp2 3%:R cF17 1 1 dmasks honest _ 7 (rnd 11)
  3 id 5 [:: (honest 5)`_0 + 3%:R] (pp2_new true) c17_ok small_m (dmasks_ok' true) isT
  (@poly_shared 7 prod1 isT) id_hash isT erefl wrong5.
Example c73_one_party_release_instance := @C73_one_party_release F17 T17 1 pp2 3%:R cF17 1 1 dmasks honest _ 7 (rnd 11)
  5 [:: (honest 5)`_0 + 3%:R] (pp2_new false) c17_ok small_m (dmasks_ok' false) isT
  (@poly_shared 7 prod1 isT) pp2_generator isT erefl.
Example c73_two_parties_instance dbg := @C73_two_parties F17 T17 dbg 1 pp2 3%:R cF17 1 1 dmasks honest _ 7 (rnd 11)
  5 2 [:: 3%:R] (pp2_new dbg) c17_ok small_m (dmasks_ok' dbg) isT
  (@poly_shared 7 prod1 isT) pp2_generator isT isT isT erefl.
Example c73_one_party_missing_instance dbg := @C73_one_party_missing F17 T17 dbg 1 pp2 3%:R cF17 1 1 dmasks honest _ 7
  (rnd 11) 6 5 [:: (honest 5)`_0 + 3%:R] (pp2_new dbg) c17_ok small_m (dmasks_ok' dbg) isT
  (@poly_shared 7 prod1 isT) pp2_generator isT isT isT erefl.
Example c73_d_fft_instance := @C73_d_fft_one_party_debug F17 1 1 pp2 dom4 cF17 1 false masks4 x4 _ 4 (rnd 11) 3 id 5
  (nseq 2 0) (pp2_new true) dom4_new c17_ok small1 isT masks4_ok x4_shared id_hash isT erefl.
(** multi-scalar multiplication: a base of party 5 changed by 3; the result 14 moves by the
    predicted amount *)
Definition bases_wrong : nat -> seq F17 :=
  replaced (fun p => [:: sh17 [:: 2; 3]%N 4 p]) 5 [:: sh17 [:: 2; 3]%N 4 5 + 3%:R].
Definition msm_wrong_net dbg : cfg F17 :=
  init (mkseq (fun p => pthread 3 (d_msm (T := T17) dbg pp2 8 p rev cF17
    (bases_wrong p) [:: sh17 [:: 5; 7]%N 6 p] (mmasks p))) 8).
Example msm_wrong : unpack (T := T17) pp2
    [seq odflt 0 v | v <- results_of (run (round 8 ++ joins 8) (msm_wrong_net false))] =
  nseq 2 (14%:R + (wt 5 0 + wt 5 1) * (sh17 [:: 5; 7]%N 6 5 * 3%:R)).
Proof. by apply/eqP; vm_compute. Qed.
Example msm_wrong_debug : run (round 8) (msm_wrong_net true) = None.
Proof. by vm_compute. Qed.
