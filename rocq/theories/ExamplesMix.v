(** Instances of C75 over the field of 17 elements with n = 8, l = t = 2: party 5 sends three bytes
    that do not decode, and some other party is silent. *)
From mathcomp Require Import all_ssreflect all_algebra.
From mathcomp Require Import zify.
From Verif Require Import Base ModelField ModelPss ModelPack ModelFft ModelNet ModelProto.
From Verif Require Import Spec SpecNet SpecProto SpecTamper SpecBytes ExampleField PssProofs ProtoProofs DegProofs.
From Verif Require Import ExamplesNet ExamplesProto ExamplesKingView ExamplesTamper ExamplesFew ExamplesBytes PropertiesMix.
From Verif Require Import ModelNet.
Set Implicit Arguments.
Unset Strict Implicit.
Unset Printing Implicit Defensive.
Import GRing.Theory.
Local Open Scope ring_scope.

(** shares of degree less than 6, such as those of a product; with seven coefficients the six
    remaining shares would not be enough *)
Definition prod6 : seq (seq F17) := [:: nums [:: 1; 2; 3; 4; 5; 6]%N].
Definition sent6 : nat -> seq F17 := sh_poly prod6.
Definition mix_prog dbg (p : nat) := deg_red (T := T17) dbg pp2 8 p rev cF17 (sent6 p) (dmasks p) (rnd 11).
Definition mix_net dbg dead : cfg (seq F17) := init (with_garbled 8 3 dead (pred1 5%N) garbled (mix_prog dbg)).
(** the clients that take part when those in [ds] are silent *)
Definition takers (ds : seq nat) : seq nat := [seq p <- iota 1 7 | p \notin ds].
Definition mix_round ds : seq action :=
  [seq party p | p <- takers ds] ++ [seq king (KArrive p) | p <- takers ds] ++ [:: king KGathered]
  ++ nseq 7 (king KOp) ++ [seq party p | p <- takers ds] ++ [seq (p, LJoin) | p <- 0%N :: takers ds].
Definition mix_stops dbg ds := omap (fun c => nth PHalt (procs c) 0)
  (run ([seq party p | p <- takers ds] ++ [seq king (KArrive p) | p <- takers ds]
        ++ [:: king KGathered; (0%N, LAbort 0)]) (mix_net dbg (mem ds))).

(** everybody takes part: the king stops with an error *)
Example complete_release : mix_stops false [::] = Some (PRet (Err Generic)). Proof. by vm_compute. Qed.
(** party 7 is silent as well: in release builds the seven others get the shares of the complete
    honest round *)
Definition rescued_end := results_of (run (mix_round [:: 7%N]) (mix_net false (mem [:: 7%N]))).
Definition complete_end := results_of (run (round 8 ++ joins 8) (init (with_silent 8 3 pred0 (mix_prog false)))).
Example rescued : (take 7 rescued_end == take 7 complete_end) && (nth None rescued_end 7 == None).
Proof. by vm_compute. Qed.
Example rescued_all : all isSome (take 7 rescued_end). Proof. by vm_compute. Qed.
(** debug builds panic *)
Example rescued_debug : mix_stops true [:: 7%N] = Some (PRet Panic). Proof. by vm_compute. Qed.
(** only the king is left *)
Example mix_alone : mix_stops false [:: 1; 2; 3; 4; 6; 7]%N = Some (PRet (Err (Protocol 0))). Proof. by vm_compute. Qed.

(** instances of the theorems *)
Lemma garbled_bad (p : nat) : (p < p_n pp2)%N -> pred1 5%N p -> decode vF17 (garbled p) = Err Generic.
Proof. by move=> _ /eqP ->; apply: garbled_decode. Qed.
Lemma mix_sizes p : (p < p_n pp2)%N ->
  [/\ size (sent6 p) = 1, size (dr_in (dmasks p)) = 1 & size (dr_out (dmasks p)) = 1]%N.
Proof. by do 8 (case: p => [|p]; first by split; vm_compute). Qed.
Example c75_deg_red_alone := (@C75_deg_red F17 T17 false 1 pp2 cF17 1 3 rev (fun p => (0 < p)%N && (p != 5)%N) (pred1 5%N)
  garbled 1 sent6 dmasks (rnd 11) (pp2_new false) c17_ok rev_hash isT isT garbled_bad small_m mix_sizes).1 isT.
Example c75_deg_red_panic := (@C75_deg_red F17 T17 true 1 pp2 cF17 1 3 rev (pred1 7%N) (pred1 5%N)
  garbled 1 sent6 dmasks (rnd 11) (pp2_new true) c17_ok rev_hash isT isT garbled_bad small_m mix_sizes).2 isT isT.
Example c75_fft_panic := (@C75_d_fft F17 true 1 1 pp2 dom4 cF17 1 false masks4 x4 (rnd 11) 3 rev (pred1 7%N) (pred1 5%N)
  garbled (pp2_new true) dom4_new c17_ok small1 rev_hash isT isT garbled_bad ExamplesFew.x4_sizes).2 isT isT.
Example c75_rescued_instance := @C75_deg_red_rescued F17 T17 1 pp2 3%:R cF17 1 1 dmasks sent6 _ 6 (rnd 11)
  garbled 5 (pp2_new false) c17_ok small_m isT (dmasks_ok' false) (@poly_shared 6 prod6 isT) isT garbled_decode.
Example c75_release_instance := @C75_release_d_fft F17 1 1 pp2 dom4 cF17 1 false _ x4 (nums [:: 1; 2; 3; 4]%N) 4 (rnd 11)
  (pp2_new false) dom4_new c17_ok small1 isT masks4_release erefl x4_shared.
(** four of the eight parties may be silent or send garbage *)
Example c75_release_four :
  (maxn 4 (2 * 2 ^ 1) <= live_count (p_n pp2) (fun p => (6 <= p) || (p \in [:: 3; 5])))%N.
Proof. by []. Qed.
