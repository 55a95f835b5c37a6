(** Complete executions of the protocols with eight parties over the field of 17 elements, and
    instances of the theorems. *)
From mathcomp Require Import all_ssreflect all_algebra.
From Verif Require Import Base ModelField ModelPss ModelPack ModelFft ModelNet ModelProto.
From Verif Require Import Spec SpecNet SpecProto ExampleField PropertiesProto PropertiesHide ExamplesNet.
From Verif Require Import PssProofs ProtoProofs DegProofs.
Set Implicit Arguments.
Unset Strict Implicit.
Unset Printing Implicit Defensive.
Import GRing.Theory.
Local Open Scope ring_scope.

Definition nums (s : seq nat) : seq F17 := [seq i%:R | i <- s].
Definition dom4 : domain F17 := odflt (Domain 0 0 0 0 0 0) (domain_new F17 (2 ^ (1 + 1))).
Definition rnd (s : nat) : rng F17 := fun i => (s * i + 3 * s + 1)%:R.
Lemma dom4_new : domain_new F17 (2 ^ (1 + 1)) = Some dom4. Proof. by []. Qed.
Definition cF17 : codec F17 := c17.
Definition s_res A (x0 : A) (x : res A) := get_ok x0 x.

(** the clients send, the king collects in decreasing order and answers, the clients receive *)
Definition round (n : nat) : seq action :=
  [seq party p | p <- iota 1 n.-1] ++ [seq king (KArrive p) | p <- rev (iota 1 n.-1)]
  ++ [:: king KGathered] ++ nseq n.-1 (king KOp) ++ [seq party p | p <- iota 1 n.-1].
Definition joins (n : nat) : seq action := [seq (p, LJoin) | p <- iota 0 n].

Definition results_of A (o : option (cfg A)) : seq (option A) :=
  if o is Some c then [seq (if p is PRet (Ok v) then Some v else None) | p <- procs c] else [::].

(** entry [e] of all vectors *)
Definition entry (e : nat) (vs : seq (option (seq F17))) : seq F17 :=
  [seq (odflt [::] v)`_e | v <- vs].

(** the polynomial 1 + 2x + 3x^2 + 4x^3, shared for the transform *)
Definition x4 (p : nat) : seq F17 :=
  nth [::] (s_res [::] (share_out true pp2 true (nums [:: 1; 2; 3; 4]%N) (rnd 5))) p.
Definition masks4 (p : nat) : fft_mask F17 :=
  nth (FftMask [::] [::])
    (s_res [::] (fft_mask_sample true pp2 false 1 (d_gen dom4) 4 (rnd 2) (rnd 7) (rnd 9))) p.
Definition fft_net : cfg (seq F17) :=
  init (mkseq (fun p => pthread 3 (d_fft true pp2 8 p rev cF17 (x4 p) (masks4 p) false dom4 (rnd 11))) 8).
Definition fft_end := results_of (run (round 8 ++ joins 8) fft_net).

Example dom4_gen : d_gen dom4 = 13%:R. Proof. by apply/eqP; vm_compute. Qed.
(** the values at 1, 13, 16 and 4 *)
Example fft_slot0 : unpack (T := T17) pp2 (entry 0 fft_end) = nums [:: 10; 6]%N.
Proof. by apply/eqP; vm_compute. Qed.
Example fft_slot1 : unpack (T := T17) pp2 (entry 1 fft_end) = nums [:: 15; 7]%N.
Proof. by apply/eqP; vm_compute. Qed.

(** one silent client: the king ends the collection without it *)
Definition fft_net6 : cfg (seq F17) :=
  init (crashing 8 6 0 (fun=> 0%N) (fun p =>
    pthread 3 (d_fft true pp2 8 p rev cF17 (x4 p) (masks4 p) false dom4 (rnd 11)))).
Definition others := [:: 1; 2; 3; 4; 5; 7]%N.
Definition fft_end6 := results_of (run
  ([seq party p | p <- others] ++ [seq king (KArrive p) | p <- others] ++ [:: king KGathered]
   ++ nseq 7 (king KOp) ++ [seq party p | p <- others] ++ [seq (p, LJoin) | p <- 0%N :: others]) fft_net6).
Example fft_crash : [seq nth None fft_end6 p | p <- 0%N :: others] =
                    [seq nth None fft_end p | p <- 0%N :: others].
Proof. by apply/eqP; vm_compute. Qed.
Example fft_crash_lost : nth None fft_end6 6 = None.
Proof. by vm_compute. Qed.

Lemma x4_shared : vsharing (T := T17) pp2 (2 * p_l pp2) (2 ^ 1) x4
   (strides (T := T17) 1 (1 + 1) (nums [:: 1; 2; 3; 4]%N)).
Proof.
have El : p_l pp2 = (2 ^ 1)%N by [].
have [out [E H]] := @share_out_deal F17 pp2 pp2_ok 1 1 El true true (nums [:: 1; 2; 3; 4]%N) (rnd 5) erefl.
apply: vsharing_ext H => // p lt_p; rewrite /x4 /s_res E /=; exact/esym/nth_mkseq.
Qed.

Lemma masks4_ok : fft_masks true pp2 false 1 (d_gen dom4) (2 ^ (1 + 1)) masks4.
Proof.
right; exists (rnd 2), (rnd 7), (rnd 9).
exists (s_res [::] (fft_mask_sample true pp2 false 1 (d_gen dom4) 4 (rnd 2) (rnd 7) (rnd 9))).
by split=> //; apply: get_okP; vm_compute.
Qed.

Lemma small1 : (2 ^ 1 < 256 ^ 8)%N.
Proof. by rewrite (@leq_trans (256 ^ 1)%N) // leq_exp2l. Qed.

(** the theorem about the transform at this instance *)
Example c22_instance : exists out, _ /\ yields 8 false _ out :=
  @C22_d_fft F17 true 1 1 pp2 dom4 cF17 1 false masks4 x4 (nums [:: 1; 2; 3; 4]%N) 4 (rnd 11)
    (pp2_new true) dom4_new c17_ok small1 isT masks4_ok erefl x4_shared.

(** degree reduction of the products of shares of (2, 3) and (5, 7) *)
Definition sh17 (s : seq nat) (r : nat) (p : nat) : F17 :=
  (s_res [::] (pack (T := T17) true pp2 (nums s) (rnd r)))`_p.
Definition dmasks (p : nat) : degred_mask T17 :=
  nth (degred_mask_zero T17 0) (s_res [::] (degred_mask_sample (T := T17) true pp2 3%:R 1 (rnd 2) (rnd 7) (rnd 9))) p.
Definition deg_net : cfg (seq F17) :=
  init (mkseq (fun p => pthread 3 (deg_red (T := T17) true pp2 8 p rev cF17
    [:: sh17 [:: 2; 3]%N 4 p * sh17 [:: 5; 7]%N 6 p] (dmasks p) (rnd 11))) 8).
Definition deg_end := results_of (run (round 8 ++ joins 8) deg_net).
Example deg_reduced : unpack (T := T17) pp2 (entry 0 deg_end) = nums [:: 10; 4]%N.
Proof. by apply/eqP; vm_compute. Qed.
(** the products themselves are not of low degree *)
Example deg_needed : unpack (T := T17) pp2
  (mkseq (fun p => sh17 [:: 2; 3]%N 4 p * sh17 [:: 5; 7]%N 6 p) 8) != nums [:: 10; 4]%N.
Proof. by vm_compute. Qed.

(** 2 * 5 + 3 * 7 = 14 *)
Definition mmasks (p : nat) : msm_mask T17 :=
  nth (msm_mask_zero T17) (s_res [::] (msm_mask_sample (T := T17) true pp2 3%:R (rnd 2) (rnd 7))) p.
Definition msm_net : cfg F17 :=
  init (mkseq (fun p => pthread 3 (d_msm (T := T17) true pp2 8 p rev cF17
    [:: sh17 [:: 2; 3]%N 4 p] [:: sh17 [:: 5; 7]%N 6 p] (mmasks p))) 8).
Definition msm_end := results_of (run (round 8 ++ joins 8) msm_net).
Example msm_result : unpack (T := T17) pp2 [seq odflt 0 v | v <- msm_end] = nums [:: 14; 14]%N.
Proof. by apply/eqP; vm_compute. Qed.

(** 2/5 = 14 and 2/5 * 3/7 = 6 *)
Definition pp_net (den : seq nat) : cfg (seq F17) :=
  init (mkseq (fun p => pthread 3 (d_pp true pp2 8 p rev id cF17 [:: sh17 [:: 2; 3]%N 4 p]
    [:: sh17 den 6 p] (dmasks p) (rnd 11) (rnd 13))) 8).
Definition pp_end := results_of (run (round 8 ++ round 8 ++ joins 8) (pp_net [:: 5; 7]%N)).
Example pp_result : unpack (T := T17) pp2 (entry 0 pp_end) = nums [:: 14; 6]%N.
Proof. by apply/eqP; vm_compute. Qed.

(** with a zero denominator the king panics after the collection *)
Example pp_zero : omap (fun c => nth PHalt (procs c) 0)
  (run ([seq party p | p <- iota 1 7] ++ [seq king (KArrive p) | p <- iota 1 7]
        ++ [:: king KGathered; (0%N, LAbort 0)]) (pp_net [:: 5; 0]%N)) = Some (PRet Panic).
Proof. by vm_compute. Qed.

(** instances of the theorems *)
Lemma sh17_shared s r : size s = 2%N ->
  vsharing (T := T17) pp2 (2 * 2 ^ 1) 1 (fun p => [:: sh17 s r p]) (blocks (T := T17) pp2 (nums s)).
Proof.
move=> ss; apply/vsharingP; split=> // -[|//] _.
have sn : size (nums s) = p_l pp2 by rewrite size_map ss.
have [sh [E _ H]] := pack_sharing (T := T17) pp2_ok true (rnd r) sn.
apply: shared_ext (sharing_shared H) => // p lt_p; by rewrite /= /sh17 /s_res E.
Qed.

Lemma dmasks_ok : degred_masks (T := T17) true pp2 3%:R 1 dmasks.
Proof.
right; exists (rnd 2), (rnd 7), (rnd 9).
exists (s_res [::] (degred_mask_sample (T := T17) true pp2 3%:R 1 (rnd 2) (rnd 7) (rnd 9))).
by split=> //; apply: get_okP; vm_compute.
Qed.

Lemma mmasks_ok : msm_masks (T := T17) true pp2 3%:R mmasks.
Proof.
right; exists (rnd 2), (rnd 7), (s_res [::] (msm_mask_sample (T := T17) true pp2 3%:R (rnd 2) (rnd 7))).
by split=> //; apply: get_okP; vm_compute.
Qed.

Lemma small_m : (0 < 1 < 256 ^ 8)%N.
Proof. apply/andP; split=> //; exact: leq_trans small1. Qed.
Lemma small_2m : (2 * 1 < 256 ^ 8)%N.
Proof. exact: small1. Qed.

Example c27_instance := @C27_products F17 T17 true 1 pp2 3%:R cF17 1 1 dmasks _ _ _ _ (rnd 11)
  (pp2_new true) c17_ok small_m dmasks_ok (@sh17_shared [:: 2; 3]%N 4 erefl) (@sh17_shared [:: 5; 7]%N 6 erefl).
Example c29_instance := @C29_d_msm F17 T17 true 1 pp2 3%:R cF17 1 1 mmasks _ _ _ _
  (pp2_new true) c17_ok mmasks_ok (@sh17_shared [:: 2; 3]%N 4 erefl) (@sh17_shared [:: 5; 7]%N 6 erefl).
Example c31_instance := @C31_d_pp F17 true 1 pp2 cF17 1 1 3%:R dmasks _ _ (nums [:: 2; 3]%N) (nums [:: 5; 7]%N) 4 (rnd 11) (rnd 13)
  (pp2_new true) c17_ok isT small_2m isT dmasks_ok erefl erefl isT
  (@sh17_shared [:: 2; 3]%N 4 erefl) (@sh17_shared [:: 5; 7]%N 6 erefl).
Example c32_instance := @C32_zero_denominator F17 true 1 pp2 cF17 1 1 dmasks _ _ (nums [:: 2; 3]%N) (nums [:: 5; 0]%N) 4 (rnd 11) (rnd 13)
  id id 3 (pp2_new true) c17_ok isT small_2m isT erefl erefl isT
  (@sh17_shared [:: 2; 3]%N 4 erefl) (@sh17_shared [:: 5; 0]%N 6 erefl) id_hash.
Definition masklist := s_res [::] (fft_mask_sample true pp2 false 1 (d_gen dom4) 4 (rnd 2) (rnd 7) (rnd 9)).
Lemma masklist_ok : fft_mask_sample true pp2 false 1 (d_gen dom4) (2 ^ (1 + 1)) (rnd 2) (rnd 7) (rnd 9) = Ok masklist.
Proof. by apply: get_okP; vm_compute. Qed.
Example c26_instance := @C26_d_fft F17 true 1 1 pp2 dom4 cF17 1 false id x4 _ (fun=> nseq 2 0) _
  (rnd 2) (rnd 7) (rnd 9) masklist (rnd 11) (pp2_new true) dom4_new c17_ok small1 x4_shared
  (vsharing0 T17 pp2 (2 * 2 ^ 1) 2) masklist_ok.
Example c28_instance := @C28_hiding_refuted true cF17 1 id (rnd 1) c17_ok.
