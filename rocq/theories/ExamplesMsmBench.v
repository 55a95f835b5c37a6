(** Instances of C76 over the field of 17 elements (n = 8, l = t = 2) and runs of the benchmark with
    two rounds of 2 and 4 elements. *)
From mathcomp Require Import all_ssreflect all_algebra.
From Verif Require Import Base ModelField ModelPss ModelPack ModelFft ModelNet ModelProto ModelQap ModelProve.
From Verif Require Import ModelMsmBench Spec SpecNet SpecProto SpecTamper ExampleField PssProofs.
From Verif Require Import ExamplesNet ExamplesProto ExamplesKingView ExamplesFew PropertiesMsmBench ModelNet.
Set Implicit Arguments.
Unset Strict Implicit.
Unset Printing Implicit Defensive.
Import GRing.Theory.
Local Open Scope ring_scope.

Definition two_rounds : seq nat := [:: 1; 2]%N.
Lemma two_rounds_doms i : i \in two_rounds -> isSome (domain_new F17 (2 ^ i)).
Proof. by rewrite !inE => /orP[] /eqP ->. Qed.

(** everybody draws the same values *)
Definition same_x (k : nat) : rng T17 := fun i => ((3 * k + 5 * i + 1)%N%:R : F17).
Definition same_y (k : nat) : rng F17 := fun i => ((7 * k + 2 * i + 3)%N%:R : F17).
Definition bench_net dbg (rx : nat -> nat -> rng T17) (ry : nat -> nat -> rng F17) : cfg (seq F17) :=
  init (mkseq (fun p => pthread 1 (bench_rounds (T := T17) dbg pp2 8 p (fun=> rev) cF17
    (fun k => rx k p) (fun k => ry k p) two_rounds)) 8).
Definition two_sched : seq action := round 8 ++ round 8 ++ joins 8.
(** the products are 3 * 1 + 5 * 6 = 33 and 10 * 4 + 12 * 9 + 14 * 14 + 16 * 2 = 376 modulo 17, that
    is 16 and 2; the results are their doubles *)
Example same_result dbg : results_of (run two_sched (bench_net dbg (fun k _ => same_x k) (fun k _ => same_y k)))
  = nseq 8 (Some (nums [:: 15; 4]%N)).
Proof. by case: dbg; apply/eqP; vm_compute. Qed.

(** party 5 draws another point: debug builds panic, release builds end with other values *)
Definition odd_x (k p : nat) : rng T17 := fun i => same_x k i + ((p == 5%N) : nat)%:R.
Definition bench_stops dbg rx ry := omap (fun c => nth PHalt (procs c) 0)
  (run ([seq party p | p <- iota 1 7] ++ [seq king (KArrive p) | p <- iota 1 7]
        ++ [:: king KGathered; (0%N, LAbort 0)]) (bench_net dbg rx ry)).
Example odd_debug : bench_stops true odd_x (fun k _ => same_y k) = Some (PRet Panic).
Proof. by vm_compute. Qed.
Definition odd_end := results_of (run two_sched (bench_net false odd_x (fun k _ => same_y k))).
Example odd_release : all isSome odd_end && (odd_end != nseq 8 (Some (nums [:: 15; 4]%N))).
Proof. by vm_compute. Qed.

(** instances of the theorems *)
Example c76_same_instance dbg := @C76_rounds_same F17 T17 dbg 1 pp2 cF17 1 two_rounds same_x same_y
  (pp2_new dbg) c17_ok two_rounds_doms.
Example c76_release_instance := @C76_rounds F17 T17 false 1 pp2 cF17 1 two_rounds odd_x (fun k _ => same_y k)
  (pp2_new false) c17_ok two_rounds_doms (fun H : false => False_ind _ (notF H)).
Lemma sum_foldr k (f : nat -> F17) : \sum_(p < k) f p = foldr (fun x a => f x + a) 0 (iota 0 k).
Proof. by rewrite -(big_mkord xpredT f) /index_iota subn0 unlock. Qed.
Lemma odd_unbalanced : imbalance pp2 (fun p => \sum_(e < 2 ^ 1) same_y 0 e *: odd_x 0 p e) != 0.
Proof.
rewrite /imbalance (eq_bigr (fun p : 'I_(p_n pp2) => share_pt pp2 p *
  foldr (fun e a => same_y 0 e * odd_x 0 p e + a) 0 (iota 0 2))) => [|p _]; last first.
  by rewrite -(sum_foldr 2 (fun e => same_y 0 e * odd_x 0 p e)).
rewrite (sum_foldr 8 (fun p => share_pt pp2 p * foldr (fun e a => same_y 0 e * odd_x 0 p e + a) 0 (iota 0 2))).
by vm_compute.
Qed.
Example c76_dies_instance := @C76_rounds_dies F17 T17 1 pp2 cF17 1 1 [:: 2%N] 1 (fun=> rev) odd_x (fun k _ => same_y k)
  (pp2_new true) c17_ok isT (fun=> rev_hash) odd_unbalanced.

(** the random key share for a domain of size 8 *)
Definition rkey := key_rand (T1 := T17) (T2 := T17) pp2 (fun i => (i%:R : F17)) (fun i => ((2 * i)%N%:R : F17)) 8.
Example rkey_vectors : if rkey is Ok k then
  [&& (k_s k : seq F17) == nums (iota 0 4), (k_u k : seq F17) == nums (iota 4 8), (k_w k : seq F17) == nums (iota 12 4),
      (k_h k : seq F17) == nums (iota 16 4), (k_v k : seq F17) == nums [:: 0; 2; 4; 6]%N &
      (k_beta_g1 k : F17) == 24%:R] else false.
Proof. by vm_compute. Qed.
Example c76_key_instance := @C76_key_rand F17 T17 T17 pp2 (fun i => (i%:R : F17)) (fun i => (i%:R : F17)) 8 isT.
(** with a domain smaller than [l] there are no shares at all, but one point is drawn for each vector *)
Example rkey_small : if key_rand (T1 := T17) (T2 := T17) pp2 (fun i => (i%:R : F17)) (fun i => (i%:R : F17)) 1 is Ok k then
  [&& size (k_s k) == 0%N, (k_u k : seq F17) == nums [:: 1]%N & (k_a_query0 k : F17) == 4%:R] else false.
Proof. by vm_compute. Qed.
