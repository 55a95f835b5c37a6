(** The benchmarks: dist-primitives/examples/dmsm_bench.rs, dist-primitives/examples/msm_bench.rs and
    the random key of groth16/src/proving_key.rs.

    One generator of the code that yields values of different types is one sequence for each type.
    The programs return nothing; the model returns what was computed. *)
From mathcomp Require Import all_ssreflect all_algebra.
From Verif Require Import Base ModelField ModelUtils ModelPss ModelPack ModelFft ModelNet ModelProto ModelQap ModelProve.
Set Implicit Arguments.
Unset Strict Implicit.
Unset Printing Implicit Defensive.
Import GRing.Theory.
Local Open Scope ring_scope.

Section Msm.
Variable F : fftField.
Variable T : lmodType F.

(** dmsm_bench.rs:9-42 [d_msm_test]; line 15 divides by [pp.l].  [rx] and [ry] are the points and
    the scalars that the party at hand draws from its [test_rng] *)
Definition bench_round (dbg : bool) (pp : pss F) (n me : nat) (ord : hash_order) (cT : codec T)
    (dom : domain F) (rx : rng T) (ry : rng F) : cproc T :=
  do! _ := clift (rassert (0 < p_l pp)%N) in
  let y_share := mkseq ry (d_size dom) in
  let x_share := mkseq rx (d_size dom) in
  d_msm dbg pp n me ord cT x_share y_share (msm_mask_zero T).

(** dmsm_bench.rs:52-57, the loop over the exponents [es]; [rx k] and [ry k] belong to the [k]-th
    round, [ords k] is the order of the king's hash map in it *)
Fixpoint bench_rounds (dbg : bool) (pp : pss F) (n me : nat) (ords : nat -> hash_order) (cT : codec T)
    (rx : nat -> rng T) (ry : nat -> rng F) (es : seq nat) : cproc (seq T) :=
  if es is i :: es' then
    do! dom := clift (unwrap (domain_new F (2 ^ i))) in
    do! out := bench_round dbg pp n me (ords 0%N) cT dom (rx 0%N) (ry 0%N) in
    do! outs := bench_rounds dbg pp n me (fun k => ords k.+1) cT (fun k => rx k.+1) (fun k => ry k.+1) es' in
    CRet (Ok (out :: outs))
  else CRet (Ok [::]).

(** dmsm_bench.rs:44-60 [main] after the connections have been made, at one party *)
Definition dmsm_bench (dbg : bool) (me : nat) (ords : nat -> hash_order) (cT : codec T)
    (rx : nat -> rng T) (ry : nat -> rng F) : cproc (seq T) :=
  do! pp := clift (pss_new F dbg 2) in
  bench_rounds dbg pp 8 me ords cT rx ry (iota 10 4).

(** msm_bench.rs:6-22 [msm_test] *)
Definition msm_test (dom : domain F) (rx : rng T) (ry : rng F) : res T :=
  msm (mkseq rx (d_size dom)) (mkseq ry (d_size dom)).

(** msm_bench.rs:24-30 [main] *)
Definition msm_bench (rx : nat -> rng T) (ry : nat -> rng F) : res (seq T) :=
  mapM (fun k => let! dom := unwrap (domain_new F (2 ^ (10 + k))) in msm_test dom (rx k) (ry k))
       (iota 0 5).

End Msm.

(** proving_key.rs:131-135: [vec![rand(rng); len]], whose entries but the first are replaced *)
Definition rand_vec (U : Type) (r : rng U) (len : nat) : res (seq U) :=
  foldM (fun s i => vset s i (r i)) (nseq len (r 0%N)) (iota 1 len.-1).
(** the number of values drawn: one also for the empty vector *)
Definition rand_used (len : nat) : nat := len.-1.+1.

(** proving_key.rs:125-176 [PackedProvingKeyShare::rand]; [domain_size * 2] is taken not to
    overflow *)
Definition key_rand (F : fftField) (T1 T2 : lmodType F) (pp : pss F) (r1 : rng T1) (r2 : rng T2)
    (domain_size : nat) : res (key_share T1 T2) :=
  let! _ := rassert (0 < p_l pp)%N in
  let c := (domain_size %/ p_l pp)%N in
  let c2 := (domain_size * 2 %/ p_l pp)%N in
  let! s := rand_vec r1 c in
  let r1 := rskip (rand_used c) r1 in
  let! u := rand_vec r1 c2 in
  let r1 := rskip (rand_used c2) r1 in
  let! w := rand_vec r1 c in
  let r1 := rskip (rand_used c) r1 in
  let! h := rand_vec r1 c in
  let r1 := rskip (rand_used c) r1 in
  let! v := rand_vec r2 c in
  let r2 := rskip (rand_used c) r2 in
  Ok (KeyShare s u w h v (r1 0%N) (r1 1%N) (r2 0%N) (r1 2%N) (r2 1%N) (r1 3%N) (r1 4%N) (r2 2%N)).
