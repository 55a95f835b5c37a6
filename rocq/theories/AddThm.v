(** Theorems about mpc-net/examples/add_ids.rs. *)
From mathcomp Require Import all_ssreflect.
From mathcomp Require Import zify.
From Verif Require Import Base ModelNet ModelDemo SpecNet.
From Verif Require Import RoundProofs FewProofs.
Set Implicit Arguments.
Unset Strict Implicit.
Unset Printing Implicit Defensive.


Lemma u32E x : u32 x = x %% 256 ^ 4.
Proof.
have L k y : le_value (le_bytes k y) = y %% 256 ^ k; last exact: L.
elim: k y => [|k IH] y; first by rewrite expn0 modn1.
rewrite [le_value _]/= IH expnS [256 * 256 ^ k]mulnC modn_divl addnC.
rewrite [in RHS](divn_eq (y %% (256 ^ k * 256)) 256) mulnC; congr (_ + _).
by rewrite modn_dvdm // dvdn_mull.
Qed.

Lemma u32_gt0 : 0 < 256 ^ 4.
Proof. by rewrite expn_gt0. Qed.

Lemma u32_small x : x < 256 ^ 4 -> u32 x = x.
Proof. by move=> H; rewrite u32E modn_small. Qed.

Lemma u32_lt x : u32 x < 256 ^ 4.
Proof. by rewrite u32E ltn_pmod // expn_gt0. Qed.

Lemma u32_fold (dbg : bool) a s : a < 256 ^ 4 -> (dbg -> a + sumn s < 256 ^ 4) ->
  foldM (u32_add dbg) a s = Ok ((a + sumn s) %% 256 ^ 4).
Proof.
elim: s a => [|x s IH] a la Hd; first by rewrite addn0 modn_small.
rewrite [sumn _]/= [foldM _ _ _]/= /u32_add /dassert addnA.
have -> : dbg ==> (u32 (a + x) == a + x).
  apply/implyP => /Hd; rewrite /= addnA => H; apply/eqP/u32_small.
  by apply: leq_ltn_trans H; exact: leq_addr.
rewrite [rbind (rbind _ _) _]/= IH ?u32_lt ?u32E ?modnDml //.
by move=> /Hd; rewrite /= addnA; apply: leq_ltn_trans; rewrite leq_add2r leq_mod.
Qed.

Lemma u32_fold_panic a s : a < 256 ^ 4 -> 256 ^ 4 <= a + sumn s -> foldM (u32_add true) a s = Panic.
Proof.
elim: s a => [|x s IH] a la; first by rewrite addn0 leqNgt la.
rewrite [sumn _]/= [foldM _ _ _]/= /u32_add /dassert addnA => H.
case: (ltnP (a + x) (256 ^ 4)) => lt; last first.
  have -> // : (true ==> (u32 (a + x) == a + x)) = false.
  by apply/eqP => E; have := u32_lt (a + x); rewrite E ltnNge lt.
by rewrite u32_small // eqxx [rbind (rbind _ _) _]/= IH.
Qed.

Lemma u32K x : x < 256 ^ 4 -> ModelNet.decode u32_codec (enc u32_codec x) = Ok x.
Proof.
move=> H; rewrite /ModelNet.decode /u32_codec [enc _ _]/= [dec _ _]/=.
by have := u32_small H; rewrite /u32 /= => ->.
Qed.

Lemma expected_ok (dbg : bool) n : n <= 256 ^ 4 -> (dbg -> \sum_(i < n) i < 256 ^ 4) ->
  expected_sum dbg n = Ok ((\sum_(i < n) i) %% 256 ^ 4).
Proof.
move=> ln Hd; rewrite /expected_sum.
have -> : [seq u32 r | r <- iota 0 n] = iota 0 n.
  rewrite -[RHS]map_id; apply/eq_in_map => i; rewrite mem_iota => /andP[_ Hi].
  by apply: u32_small; apply: leq_trans ln.
have E : sumn (iota 0 n) = \sum_(i < n) i by rewrite sumnE -(big_mkord xpredT id) /index_iota subn0.
by rewrite (u32_fold u32_gt0) add0n E.
Qed.

Section AddIds.
Variables (dbg : bool) (n sid : nat) (ord : hash_order) (dead : pred nat).
Hypotheses (n0 : 0 < n) (n_small : n <= 256 ^ 4) (ordP : hash_ok ord) (king_lives : ~~ dead 0).

Lemma sumn_alive : sumn (alive_ids n ord dead) = \sum_(i < n | ~~ dead i) i.
Proof.
rewrite (perm_sumn (perm_alive n dead ordP)) /alive sumnE big_filter.
by rewrite -(big_mkord (fun i => ~~ dead i) id) /index_iota subn0.
Qed.

Lemma add_ids_few B (rest : nat -> cproc B) v :
  (dbg -> \sum_(i < n) i < 256 ^ 4) ->
  rest ((\sum_(i < n | ~~ dead i) i) %% 256 ^ 4) = CRet (Ok v) ->
  every_schedule (with_silent n sid dead (fun p => add_ids_sum dbg n p ord rest)) (predC dead)
    (fun _ => v).
Proof.
move=> Hd; set sum := _ %% _ => HR.
pose king (rs : received nat) := let! s := foldM (u32_add dbg) 0 (shares rs) in Ok (nseq n s).
have le_sum : \sum_(i < n | ~~ dead i) i <= \sum_(i < n) i.
  by rewrite [X in _ <= X](bigID (fun i : 'I_n => ~~ dead i)) /= leq_addr.
have E : with_silent n sid dead (fun p => add_ids_sum dbg n p ord rest)
    = with_silent n sid dead (few_prog u32_codec u32_codec n ord id 0 king (fun _ => rest)).
  by apply: eq_mkseq => p; congr pthread; case: (dead p) => //; case: p.
rewrite E; have ls : sum < 256 ^ 4 by rewrite ltn_pmod // expn_gt0.
apply: (@few_ok _ _ _ _ _ _ _ _ _ _ _ _ _ n0 ordP king_lives _ (fun _ => sum)) => //.
- by move=> i lt_i; apply: u32K; apply: leq_trans n_small.
- by rewrite ltn0 andbF.
- rewrite /king [shares _]/= map_id (u32_fold u32_gt0) ?add0n ?sumn_alive.
    congr Ok; apply: (@eq_from_nth _ 0); rewrite size_nseq ?size_mkseq // => i lt_i.
    by rewrite nth_nseq nth_mkseq // lt_i.
  by move=> /Hd; apply: leq_ltn_trans.
by move=> i _; apply: u32K.
Qed.

End AddIds.

(*** theorems ***)

(** C63: whichever clients are silent, every live party gets the sum of the live identifiers ... *)
Lemma c63_add_ids_sum (dbg : bool) n sid ord (dead : pred nat) :
  0 < n <= 256 ^ 4 -> hash_ok ord -> ~~ dead 0 -> (dbg -> \sum_(i < n) i < 256 ^ 4) ->
  every_schedule (with_silent n sid dead (fun p => add_ids_sum dbg n p ord (fun s => CRet (Ok s))))
    (predC dead) (fun _ => (\sum_(i < n | ~~ dead i) i) %% 256 ^ 4).
Proof. by move=> /andP[n0 nB] ordP k0 Hd; exact: add_ids_few. Qed.

(** ... with nobody silent the final assertion holds at every party ... *)
Lemma c63_add_ids (dbg : bool) n sid ord :
  0 < n <= 256 ^ 4 -> hash_ok ord -> (dbg -> \sum_(i < n) i < 256 ^ 4) ->
  every_schedule (with_silent n sid pred0 (fun p => add_ids dbg n p ord)) predT (fun _ => tt).
Proof.
move=> /andP[n0 nB] ordP Hd; rewrite /add_ids expected_ok // [clift _]/=.
apply: (@add_ids_few dbg n sid ord pred0) => //.
by rewrite /rassert eqxx.
Qed.

(** ... and it fails as soon as a client other than party 0 is silent, when the sum does not wrap *)
Lemma c63_add_ids_missing (dbg : bool) n (dead : pred nat) d :
  n <= 256 ^ 4 -> \sum_(i < n) i < 256 ^ 4 -> 0 < d < n -> dead d ->
  exists expected, expected_sum dbg n = Ok expected /\
    rassert ((\sum_(i < n | ~~ dead i) i) %% 256 ^ 4 == expected) = Panic.
Proof.
move=> nB sB /andP[d0 dn] Dd; exists ((\sum_(i < n) i) %% 256 ^ 4); split; first exact: expected_ok.
have lt : \sum_(i < n | ~~ dead i) i < \sum_(i < n) i.
  rewrite [X in _ < X](bigID (fun i : 'I_n => ~~ dead i)) /= -[X in X < _]addn0 ltn_add2l.
  by rewrite (bigD1 (Ordinal dn)) ?negbK //= ltn_addr.
rewrite (modn_small sB) (modn_small (ltn_trans lt sB)) /rassert.
by rewrite (ltn_eqF lt).
Qed.

(** C63: in a debug build every party panics before it has sent anything when the sum of all
    identifiers is no [u32] *)
Lemma c63_add_ids_overflow n me ord : n <= 256 ^ 4 -> 256 ^ 4 <= \sum_(i < n) i ->
  add_ids true n me ord = CRet Panic.
Proof.
move=> nB sB; rewrite /add_ids; suff -> : expected_sum true n = Panic by [].
rewrite /expected_sum.
have -> : [seq u32 r | r <- iota 0 n] = iota 0 n.
  rewrite -[RHS]map_id; apply/eq_in_map => i; rewrite mem_iota => /andP[_ Hi].
  by apply: u32_small; apply: leq_trans nB.
apply: (u32_fold_panic u32_gt0); rewrite add0n.
suff -> : sumn (iota 0 n) = \sum_(i < n) i by [].
by rewrite sumnE -(big_mkord xpredT id) /index_iota subn0.
Qed.
