(** Property theorems only; proofs are in MsmBenchThm.v. *)
From mathcomp Require Import all_ssreflect all_algebra.
From mathcomp Require Import zify.
From Verif Require Import Base ModelField ModelUtils ModelPss ModelPack ModelFft ModelNet ModelProto ModelQap ModelProve.
From Verif Require Import ModelMsmBench Spec SpecNet SpecProto SpecTamper.
From Verif Require Import KingProofs RoundProofs FieldProofs UtilsProofs PssProofs PackProofs ProtoProofs DegProofs.
From Verif Require Import KingFail ProtoThm TamperProofs ModelNet.
Set Implicit Arguments.
Unset Strict Implicit.
Unset Printing Implicit Defensive.
Import GRing.Theory.
Local Open Scope ring_scope.
From Verif Require Import MsmBenchThm.

(** C76: the benchmark of the distributed multiplication, with any number of rounds of any sizes.  All
    masks are zero, so every party ends with the sums that the king finds in the clear; they are those
    of the secrets to which the products of the parties' own random shares interpolate.  Debug builds
    need products that lie on a polynomial of degree below [n - 1]. *)
Theorem C76_rounds (F : fftField) (T : lmodType F) dbg lam pp (cT : codec T) mb (es : seq nat)
    (rx : nat -> nat -> rng T) (ry : nat -> nat -> rng F) :
  pss_new F dbg (2 ^ lam) = Ok pp -> codec_ok cT mb ->
  (forall i, i \in es -> isSome (domain_new F (2 ^ i))) ->
  let y k p := \sum_(e < 2 ^ nth 0%N es k) ry k p e *: rx k p e in
  (dbg -> forall k, (k < size es)%N -> imbalance pp (y k) = 0) ->
  yields (p_n pp) true (fun ords p =>
      bench_rounds dbg pp (p_n pp) p ords cT (fun k => rx k p) (fun k => ry k p) es)
    (fun=> mkseq (fun k => \sum_(j < 2 ^ lam) interpolated pp (y k) j) (size es)).
Proof. exact: c76_rounds. Qed.
Print Assumptions C76_rounds.

(** C76: if the generators of all parties yield the same values (a deterministic [test_rng]), the sums
    are [l] times the product that everybody computes alone, in debug and release builds and also if
    one client crashes. *)
Theorem C76_rounds_same (F : fftField) (T : lmodType F) dbg lam pp (cT : codec T) mb (es : seq nat)
    (rx : nat -> rng T) (ry : nat -> rng F) :
  pss_new F dbg (2 ^ lam) = Ok pp -> codec_ok cT mb ->
  (forall i, i \in es -> isSome (domain_new F (2 ^ i))) ->
  yields (p_n pp) false (fun ords p => bench_rounds dbg pp (p_n pp) p ords cT rx ry es)
    (fun=> mkseq (fun k => (2 ^ lam)%:R *: \sum_(e < 2 ^ nth 0%N es k) ry k e *: rx k e) (size es)).
Proof. exact: c76_rounds_same. Qed.
Print Assumptions C76_rounds_same.

(** C76: debug builds in which the first products do not lie on such a polynomial: the king panics. *)
Theorem C76_rounds_dies (F : fftField) (T : lmodType F) lam pp (cT : codec T) mb i es sid ords
    (rx : nat -> nat -> rng T) (ry : nat -> nat -> rng F) :
  pss_new F true (2 ^ lam) = Ok pp -> codec_ok cT mb -> isSome (domain_new F (2 ^ i)) ->
  (forall k, hash_ok (ords k)) ->
  imbalance pp (fun p => \sum_(e < 2 ^ i) ry 0%N p e *: rx 0%N p e) != 0 ->
  king_dies (mkseq (fun p => pthread sid
    (bench_rounds true pp (p_n pp) p ords cT (fun k => rx k p) (fun k => ry k p) (i :: es))) (p_n pp)).
Proof. exact: c76_rounds_dies. Qed.
Print Assumptions C76_rounds_dies.

(** C76: dmsm_bench.rs with eight parties and four rounds. *)
Theorem C76_dmsm_bench (F : fftField) (T : lmodType F) dbg pp (cT : codec T) mb
    (rx : nat -> nat -> rng T) (ry : nat -> nat -> rng F) :
  pss_new F dbg 2 = Ok pp -> codec_ok cT mb -> (13 <= ff_two_adicity F)%N ->
  let y k p := \sum_(e < 2 ^ (10 + k)) ry k p e *: rx k p e in
  (dbg -> forall k, (k < 4)%N -> imbalance pp (y k) = 0) ->
  yields 8 true (fun ords p => dmsm_bench dbg p ords cT (fun k => rx k p) (fun k => ry k p))
    (fun=> mkseq (fun k => \sum_(j < 2) interpolated pp (y k) j) 4).
Proof. exact: c76_dmsm_bench. Qed.
Print Assumptions C76_dmsm_bench.

Theorem C76_dmsm_bench_same (F : fftField) (T : lmodType F) dbg pp (cT : codec T) mb
    (rx : nat -> rng T) (ry : nat -> rng F) :
  pss_new F dbg 2 = Ok pp -> codec_ok cT mb -> (13 <= ff_two_adicity F)%N ->
  yields 8 false (fun ords p => dmsm_bench dbg p ords cT rx ry)
    (fun=> mkseq (fun k => 2%:R *: \sum_(e < 2 ^ (10 + k)) ry k e *: rx k e) 4).
Proof. exact: c76_dmsm_bench_same. Qed.
Print Assumptions C76_dmsm_bench_same.

(** C76: msm_bench.rs never fails. *)
Theorem C76_msm_bench (F : fftField) (T : lmodType F) (rx : nat -> rng T) (ry : nat -> rng F) :
  (14 <= ff_two_adicity F)%N ->
  msm_bench rx ry = Ok (mkseq (fun k => \sum_(e < 2 ^ (10 + k)) ry k e *: rx k e) 5).
Proof. exact: c76_msm_bench. Qed.
Print Assumptions C76_msm_bench.

(** C76: the random key share: when the domain is at least as large as [l], all the points come from
    different draws of the generator, each exactly once and in order; the vectors have the lengths of
    shares of a key for that domain. *)
Theorem C76_key_rand (F : fftField) (T1 T2 : lmodType F) (pp : pss F) (r1 : rng T1) (r2 : rng T2) m :
  (0 < p_l pp <= m)%N ->
  exists ks, [/\ key_rand pp r1 r2 m = Ok ks,
    [/\ size (k_s ks) = m %/ p_l pp, size (k_u ks) = m * 2 %/ p_l pp, size (k_w ks) = m %/ p_l pp,
        size (k_h ks) = m %/ p_l pp & size (k_v ks) = m %/ p_l pp]%N,
    k_s ks ++ k_u ks ++ k_w ks ++ k_h ks ++
      [:: k_a_query0 ks; k_b_g1_query0 ks; k_delta_g1 ks; k_alpha_g1 ks; k_beta_g1 ks] =
      mkseq r1 (3 * (m %/ p_l pp) + m * 2 %/ p_l pp + 5) &
    k_v ks ++ [:: k_b_g2_query0 ks; k_delta_g2 ks; k_beta_g2 ks] = mkseq r2 (m %/ p_l pp + 3)].
Proof. exact: c76_key_rand. Qed.
Print Assumptions C76_key_rand.

Theorem C76_key_rand_panics (F : fftField) (T1 T2 : lmodType F) (pp : pss F) (r1 : rng T1) (r2 : rng T2) m :
  p_l pp = 0%N -> key_rand pp r1 r2 m = Panic.
Proof. exact: c76_key_rand_panics. Qed.
Print Assumptions C76_key_rand_panics.

