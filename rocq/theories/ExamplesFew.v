(** Executions in which most parties are silent, and instances of the theorems about them. *)
From mathcomp Require Import all_ssreflect all_algebra.
From Verif Require Import Base ModelField ModelPss ModelPack ModelFft ModelNet ModelProto.
From Verif Require Import Spec SpecNet SpecProto ExampleField PropertiesProto PropertiesFew ExamplesNet ExamplesProto.
From Verif Require Import PssProofs ProtoProofs DegProofs.
Set Implicit Arguments.
Unset Strict Implicit.
Unset Printing Implicit Defensive.
Import GRing.Theory.
Local Open Scope ring_scope.

(** only the first [k] parties take part *)
Definition from (k : nat) : pred nat := fun p => (k <= p)%N.

Example live_3 : live_count 8 (from 3) = 3%N. Proof. by []. Qed.
Example bounds : (p_t pp2, 2 * (p_t pp2 + p_l pp2 - 1))%N = (2, 6)%N. Proof. by []. Qed.

Definition few_fft dbg k : cfg (seq F17) := init (with_silent 8 3 (from k) (fun p =>
  d_fft dbg pp2 8 p rev cF17 (x4 p) (masks4 p) false dom4 (rnd 11))).
Definition few_round k : seq action :=
  [seq party p | p <- iota 1 k.-1] ++ [seq king (KArrive p) | p <- iota 1 k.-1] ++ [:: king KGathered]
  ++ nseq 7 (king KOp) ++ [seq party p | p <- iota 1 k.-1] ++ [seq (p, LJoin) | p <- iota 0 k].

(** the king alone: an error *)
Example alone : omap (fun c => nth PHalt (procs c) 0) (run [:: king KGathered; (0%N, LAbort 0)] (few_fft false 1))
  = Some (PRet (Err (Protocol 0))).
Proof. by vm_compute. Qed.

(** six parties: a panic in debug builds *)
Definition collect6 : seq action :=
  [seq party p | p <- iota 1 5] ++ [seq king (KArrive p) | p <- iota 1 5] ++ [:: king KGathered; (0%N, LAbort 0)].
Example six_debug : omap (fun c => nth PHalt (procs c) 0) (run collect6 (few_fft true 6)) = Some (PRet Panic).
Proof. by vm_compute. Qed.

(** four parties are enough in release builds: they end with the same shares as in [fft_end] *)
Definition four_end := results_of (run (few_round 4) (few_fft false 4)).
Example four_release : take 4 four_end = take 4 fft_end /\ all (fun v => v == None) (drop 4 four_end).
Proof. by split; [apply/eqP|]; vm_compute. Qed.

(** three parties are not *)
Definition three_end := results_of (run (few_round 3) (few_fft false 3)).
Example three_release : (all isSome (take 3 three_end) && (take 3 three_end != take 3 fft_end)).
Proof. by vm_compute. Qed.

Lemma rev_hash : hash_ok rev.
Proof. by move=> s; rewrite perm_sym -(perm_rev s). Qed.

Lemma x4_sizes p : (p < p_n pp2)%N -> size (x4 p) = (2 ^ 1)%N /\ size (fm_in (masks4 p)) = (2 ^ 1)%N.
Proof. by do 8 (case: p => [|p]; first by split; vm_compute). Qed.

Lemma masks4_release : fft_masks false pp2 false 1 (d_gen dom4) (2 ^ (1 + 1)) (fun=> fft_mask_zero F17 2).
Proof. by left. Qed.

Example c59_fft_alone := (@C59_d_fft F17 false 1 1 pp2 dom4 cF17 1 false masks4 x4 (rnd 11) 3 rev (from 1)
  (pp2_new _) dom4_new c17_ok small1 rev_hash isT x4_sizes).1 isT.
Example c59_fft_six := (@C59_d_fft F17 true 1 1 pp2 dom4 cF17 1 false masks4 x4 (rnd 11) 3 rev (from 6)
  (pp2_new _) dom4_new c17_ok small1 rev_hash isT x4_sizes).2 isT isT.
Example c59_refuted_instance := @C59_release_refuted cF17 1 c17_ok.
Example c59_release_instance : exists out, _ /\ forall ord dead sid, _ -> _ -> _ -> every_schedule _ _ out :=
  @C59_release_d_fft F17 1 1 pp2 dom4 cF17 1 false _ x4 (nums [:: 1; 2; 3; 4]%N) 4 (rnd 11)
    (pp2_new false) dom4_new c17_ok small1 isT masks4_release erefl x4_shared.
(** four live parties meet the condition *)
Example c59_release_four : (maxn 4 (2 * 2 ^ 1) <= live_count (p_n pp2) (from 4))%N. Proof. by []. Qed.
