(** Property theorems only; proofs are in ProdNetThm.v. *)
From mathcomp Require Import all_ssreflect all_algebra.
From mathcomp Require Import zify.
From Verif Require Import Base ModelField ModelPss ModelFft ModelNet ModelWire ModelProto ModelSetup ModelProdNet ModelQap ModelProve.
From Verif Require Import Spec SpecNet SpecWire SpecProto SpecProdNet.
From Verif Require Import NetProofs JoinProofs KingProofs KingFail SetupProofs ProdNetProofs.
Set Implicit Arguments.
Unset Strict Implicit.
Unset Printing Implicit Defensive.
From Verif Require Import ProdNetThm.

(** C80: the king knows the nodes by the ids they have declared, 1 to k in any order, and uses the
    table of its set-up.  If a star shaped program gives the parties their values when the nodes are
    the ids (as all theorems about protocols have it), then set-up and program together give every
    node the value of its id, whatever the order of events. *)
Theorem C80_same_results A k (ids : nat -> nat) ord (P : nat -> pproc A) (live : pred nat) vals :
  hash_ok ord -> k < 256 ^ 4 -> perm_eq [seq ids c | c <- iota 1 k] (iota 1 k) ->
  star_shaped k.+1 P -> (forall p, separate (P p)) ->
  every_schedule (mkseq P k.+1) live vals ->
  let id c := if c == 0 then 0 else ids c in
  every_schedule (mkseq (prod_main k ids ord P) k.+1) (fun c => live (id c)) (fun c => vals (id c)).
Proof. exact: c80_same_results. Qed.
Print Assumptions C80_same_results.

(** C80: in particular the protocols that all other theorems are about, also if one party crashes
    at any point after the set-up. *)
Theorem C80_yields A k (ids : nat -> nat) ord nobody (prog : (nat -> hash_order) -> nat -> cproc A) out :
  hash_ok ord -> k < 256 ^ 4 -> perm_eq [seq ids c | c <- iota 1 k] (iota 1 k) ->
  (forall ords sid, star_shaped k.+1 (fun p => pthread sid (prog ords p))) ->
  yields k.+1 nobody prog out ->
  forall ords sid d f ms, (forall i, hash_ok (ords i)) -> d != 0 -> (nobody -> k.+1 <= d) ->
    let P p := if p == d then pcrash f ms (pthread sid (prog ords p)) else pthread sid (prog ords p) in
    let id c := if c == 0 then 0 else ids c in
    every_schedule (mkseq (prod_main k ids ord P) k.+1) (fun c => id c != d) (fun c => out (id c)).
Proof. exact: c80_yields. Qed.
Print Assumptions C80_yields.

(** C80: the protocols are star shaped. *)
Theorem C80_star_protocols (F : fftField) dbg (pp : pss F) n sid :
  [/\ forall (T : lmodType F) ord (c : codec T) x m r,
        star_shaped n (fun p => pthread sid (deg_red dbg pp n p ord c (x p) (m p) r)),
      forall (T : lmodType F) ord (c : codec T) b s m,
        star_shaped n (fun p => pthread sid (d_msm dbg pp n p ord c (b p) (s p) (m p))),
      forall ord c x m re dom r,
        star_shaped n (fun p => pthread sid (d_fft dbg pp n p ord c (x p) (m p) re dom r)),
      forall ord c x m re dom g r,
        star_shaped n (fun p => pthread sid (d_ifft dbg pp n p ord c (x p) (m p) re dom g r)) &
      forall ord ord' c x y m r r',
        star_shaped n (fun p => pthread sid (d_pp dbg pp n p ord ord' c (x p) (y p) (m p) r r'))].
Proof. exact: c80_star_protocols. Qed.
Print Assumptions C80_star_protocols.

(** C80: and so are the witness extensions and the prover. *)
Theorem C80_star_prover (F : fftField) dbg (pp : pss F) n :
  [/\ forall ord c q m dm r, star_shaped n (fun p => circom_h dbg pp n p ord c (q p) (m p) (dm p) r),
      forall ord c q m r, star_shaped n (fun p => libsnark_h dbg pp n p ord c (q p) (m p) r) &
      forall (T1 T2 : lmodType F) c (c1 : codec T1) (c2 : codec T2) crs q a ax r s fm dm g1m g2m ord rs,
        star_shaped n (fun p => dsha256 dbg pp n p c c1 c2 (crs p) (q p) (a p) (ax p) (r p) (s p)
                                  (fm p) (dm p) (g1m p) (g2m p) ord rs)].
Proof. exact: c80_star_prover. Qed.
Print Assumptions C80_star_prover.

(** C80: executions of the two networks correspond step by step: the same number of steps, of the
    same kind, the same results, the same messages under way. *)
Theorem C80_executions A n (peers : seq (nat * nat)) (ids : nat -> nat) (P : nat -> pproc A) : 0 < n ->
  perm_eq [seq ids c | c <- iota 1 n.-1] (iota 1 n.-1) ->
  perm_eq peers [seq (ids c, c) | c <- iota 1 n.-1] -> star_shaped n P ->
  let id c := if c == 0 then 0 else ids c in
  let alike (s s' : seq action) (d d' : cfg A) :=
    [/\ size s = size s', all clean s = all clean s',
        forall q r, q < n -> nth PHalt (procs d') q = PRet r <-> nth PHalt (procs d) (id q) = PRet r &
        forall sid f t, f < n -> t < n -> queue d' sid f t = queue d sid (id f) (id t)] in
  (forall s d, run s (init (mkseq P n)) = Some d ->
     exists s' d', run s' (init (prod_net n peers ids P)) = Some d' /\ alike s s' d d') /\
  (forall s' d', run s' (init (prod_net n peers ids P)) = Some d' ->
     exists s d, run s (init (mkseq P n)) = Some d /\ alike s s' d d').
Proof. exact: c80_executions. Qed.
Print Assumptions C80_executions.

(** C80: if an id between 1 and n - 1 is missing in the king's table (somebody has declared another
    one, or the same as somebody else: then the set-up succeeds, C48), the king never obtains a
    value from a protocol, whatever the others do and in whatever order things happen. *)
Theorem C80_missing (F : fftField) dbg (pp : pss F) n peers i sid : 0 < i < n ->
  (forall node, (i, node) \notin peers) ->
  let no_value A (t : cproc A) := forall net : seq (pproc A), size net = n ->
    nth PHalt net 0 = pover n peers (pthread sid t) -> forall s d v,
    run s (init net) = Some d -> nth PHalt (procs d) 0 <> PRet (Ok v) in
  [/\ forall (T : lmodType F) ord (c : codec T) x m r,
        no_value (seq T) (deg_red dbg pp n 0 ord c x m r),
      forall (T : lmodType F) ord (c : codec T) b s m, no_value T (d_msm dbg pp n 0 ord c b s m),
      forall ord c x m re dom r, no_value (seq F) (d_fft dbg pp n 0 ord c x m re dom r),
      forall ord c x m re dom g r, no_value (seq F) (d_ifft dbg pp n 0 ord c x m re dom g r) &
      forall ord ord' c x y m r r', no_value (seq F) (d_pp dbg pp n 0 ord ord' c x y m r r')].
Proof. exact: c80_missing. Qed.
Print Assumptions C80_missing.

(** C80: neither from the witness extensions and the prover. *)
Theorem C80_missing_prover (F : fftField) dbg (pp : pss F) n peers i : 0 < i < n ->
  (forall node, (i, node) \notin peers) ->
  let no_value A (x : pproc A) := forall net : seq (pproc A), size net = n ->
    nth PHalt net 0 = pover n peers x -> forall s d v,
    run s (init net) = Some d -> nth PHalt (procs d) 0 <> PRet (Ok v) in
  [/\ forall ord c q m dm r, no_value (seq F) (circom_h dbg pp n 0 ord c q m dm r),
      forall ord c q m r, no_value (seq F) (libsnark_h dbg pp n 0 ord c q m r) &
      forall (T1 T2 : lmodType F) c (c1 : codec T1) (c2 : codec T2) crs q a ax r s fm dm g1m g2m ord rs,
        no_value (T1 * T2 * T1)%type
          (dsha256 dbg pp n 0 c c1 c2 crs q a ax r s fm dm g1m g2m ord rs)].
Proof. exact: c80_missing_prover. Qed.
Print Assumptions C80_missing_prover.

(** C80: set-up and protocol together: the program knows the ids 1 to k; if nobody declares i and the
    declared ids are otherwise arbitrary (also equal), no execution ends with a value of the king. *)
Theorem C80_collision (F : fftField) dbg (pp : pss F) k (ids : nat -> nat) ord i sid : hash_ok ord ->
  (forall c, 0 < c <= k -> ids c < 256 ^ 4) -> 0 < i <= k -> (forall c, 0 < c <= k -> ids c != i) ->
  let no_value A (x : pproc A) := forall P : nat -> pproc A, (forall p, separate (P p)) ->
    P 0 = x -> forall s d v, all clean s ->
    run s (init (mkseq (prod_main k ids ord P) k.+1)) = Some d ->
    nth PHalt (procs d) 0 <> PRet (Ok v) in
  [/\ forall (T : lmodType F) ord (c : codec T) x m r,
        no_value (seq T) (pthread sid (deg_red dbg pp k.+1 0 ord c x m r)),
      forall (T : lmodType F) ord (c : codec T) b s m,
        no_value T (pthread sid (d_msm dbg pp k.+1 0 ord c b s m)),
      (forall ord c x m re dom r,
         no_value (seq F) (pthread sid (d_fft dbg pp k.+1 0 ord c x m re dom r))) /\
      (forall ord c x m re dom g r,
         no_value (seq F) (pthread sid (d_ifft dbg pp k.+1 0 ord c x m re dom g r))),
      forall ord ord' c x y m r r',
        no_value (seq F) (pthread sid (d_pp dbg pp k.+1 0 ord ord' c x y m r r')) &
      forall (T1 T2 : lmodType F) c (c1 : codec T1) (c2 : codec T2) crs q a ax r s fm dm g1m g2m ord rs,
        no_value (T1 * T2 * T1)%type
          (dsha256 dbg pp k.+1 0 c c1 c2 crs q a ax r s fm dm g1m g2m ord rs)].
Proof. exact: c80_collision. Qed.
Print Assumptions C80_collision.

