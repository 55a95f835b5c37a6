(** Theorems about the benchmarks. *)
From mathcomp Require Import all_ssreflect all_algebra.
From mathcomp Require Import zify.
From Verif Require Import Base ModelField ModelUtils ModelPss ModelPack ModelFft ModelNet ModelProto ModelQap ModelProve.
From Verif Require Import ModelMsmBench Spec SpecNet SpecProto SpecTamper.
From Verif Require Import KingProofs RoundProofs FieldProofs UtilsProofs PssProofs PackProofs ProtoProofs DegProofs.
From Verif Require Import KingFail ProtoThm TamperProofs ModelNet.
Set Implicit Arguments.
Unset Strict Implicit.
Unset Printing Implicit Defensive.
Import GRing.Theory.
Local Open Scope ring_scope.

(** the product that party [p] computes alone in round [k] *)
Definition own_product (F : fftField) (T : lmodType F) (rx : nat -> nat -> rng T) (ry : nat -> nat -> rng F)
    (es : seq nat) (k p : nat) : T := \sum_(e < 2 ^ nth 0%N es k) ry k p e *: rx k p e.

Lemma received_ext A (x y : nat -> A) n d ord : x =1 y -> received_from x n d ord = received_from y n d ord.
Proof. by move=> E; rewrite /received_from (eq_map E) (eq_mkseq E). Qed.

(** [round_panics] for a round that is followed by something else *)
Lemma round_panics_bind T U B C (c : codec T) (c' : codec U) n sid ord (x : nat -> T) thr
    (king : received T -> res (seq U)) (R : nat -> U -> cproc B) (Q : nat -> B -> cproc C) :
  (0 < n)%N -> (thr <= n.-1)%N -> hash_ok ord ->
  (forall i, (i < n)%N -> ModelNet.decode c (enc c (x i)) = Ok (x i)) ->
  king (received_from x n n ord) = Panic ->
  king_dies (mkseq (fun p => pthread sid (cbind
    (do! rs := csokr_ser c n p ord (x p) thr in
     do! outs := clift (king_map king rs) in
     do! v := crokss_ser c' n p outs in R p v) (Q p))) n).
Proof.
move=> n0 Ht Ho Hd Ek.
case E: (csokr_ser c n 0 ord (x 0%N) thr) => [|||st K|] //.
have Est : st = nseq n None by move: E => [<-].
rewrite Est in E.
have HK : K (store_without n (fun i => enc c (x i)) n) = CRet (Ok (Some (received_from x n n ord))).
  by apply: csokr_king E => //; rewrite -lt0n.
pose rest p (o : option (received T)) :=
  do! outs := clift (king_map king o) in do! v := crokss_ser c' n p outs in R p v.
apply: (@king_panics _ _ _ _ (fun st => cbind (cbind (K st) (rest 0%N)) (Q 0%N)) (fun i => enc c (x i))
  (fun p b => cbind (do! w := clift (ModelNet.decode c' b) in R p w) (Q p))) => //.
- by rewrite E.
- move=> p /andP[p0 lt_p]; rewrite /csokr_ser /client_send_or_king_receive.
  by rewrite -[p]prednK.
rewrite HK; transitivity (cbind (rest 0%N (Some (received_from x n n ord))) (Q 0%N)) => //.
by rewrite /rest /king_map Ek.
Qed.

Section Rounds.
Variable F : fftField.
Variable T : lmodType F.
Variables (pp : pss F) (ok : pp_ok pp) (dbg : bool) (cT : codec T) (mb : nat).
Hypothesis cT_ok : codec_ok cT mb.
  Local Notation l := (p_l pp).
  Local Notation n := (p_n pp).

Lemma round_start p ord dom (rx : nat -> rng T) (ry : nat -> rng F) :
  bench_round dbg pp n p ord cT dom (rx p) (ry p) =
  do! rs := csokr_ser cT n p ord (\sum_(e < d_size dom) ry p e *: rx p e) (p_t pp) in
  do! outs := clift (king_map (@d_msm_king F dbg pp n T) rs) in
  do! w := crokss_ser cT n p outs in clift (Ok (w + 0)).
Proof.
rewrite /bench_round (pp_l_gt0 ok) [cbind _ _]/=.
rewrite (d_msm_start pp cT dbg (bases := fun p => mkseq (rx p) (d_size dom)) (scalars := fun p => mkseq (ry p) (d_size dom))
  (fun=> msm_mask_zero T) ord (m := d_size dom) (p := p)) ?size_mkseq // addr0.
suff -> : products (fun p => mkseq (rx p) (d_size dom)) (fun p => mkseq (ry p) (d_size dom)) (d_size dom) p
  = \sum_(e < d_size dom) ry p e *: rx p e by [].
by apply: eq_bigr => e _; rewrite !nth_mkseq.
Qed.

Lemma round_prog (dok : pred nat) ord dom (rx : nat -> rng T) (ry : nat -> rng F) (v : T) : hash_ok ord -> (forall d, dok d -> d != 0%N) ->
  (forall d, dok d -> d_msm_king dbg pp n
     (received_from (fun p => \sum_(e < d_size dom) ry p e *: rx p e : T) n d ord) = Ok (nseq n v)) ->
  king_prog n dok (fun p => bench_round dbg pp n p ord cT dom (rx p) (ry p)) (fun=> v).
Proof.
move=> Ho d0 Hk; have n1 := n_gt1 ok.
apply: (@king_prog_ext _ _ _ _ _ _ _ (fun p lt_p => round_start p ord dom rx ry)); first exact: ltnW.
apply: (@king_round _ _ cT cT _ _ _ _ _ (@d_msm_king F dbg pp n T) (fun=> v) _ (fun p w => clift (Ok (w + 0)))) => //.
- exact: ltnW.
- by rewrite (ppt ok) (ppn ok); have := pp_l_gt0 ok; lia.
- by move=> i _; apply: decode_one cT_ok _.
- by move=> i _; apply: decode_one cT_ok _.
- move=> d dd; rewrite (Hk d dd); congr Ok.
  by apply: (@eq_from_nth _ 0); rewrite size_nseq ?size_mkseq // => i lt_i; rewrite nth_nseq lt_i nth_mkseq.
by apply: KP_ret => p _; rewrite addr0.
Qed.

Lemma rounds_prog (dok : pred nat) (es : seq nat) ords (rx : nat -> nat -> rng T) (ry : nat -> nat -> rng F) (v : nat -> T) :
  (forall i, hash_ok (ords i)) -> (forall d, dok d -> d != 0%N) ->
  (forall i, i \in es -> isSome (domain_new F (2 ^ i))) ->
  (forall k d ord, hash_ok ord -> (k < size es)%N -> dok d ->
     d_msm_king dbg pp n (received_from (own_product rx ry es k) n d ord) = Ok (nseq n (v k))) ->
  king_prog n dok (fun p => bench_rounds dbg pp n p ords cT (fun k => rx k p) (fun k => ry k p) es)
    (fun=> mkseq v (size es)).
Proof.
move=> + d0; have n1 := n_gt1 ok.
elim: es ords rx ry v => [|i es IH] ords rx ry v Ho Hd Hk; first exact: KP_ret.
have := Hd i; rewrite inE eqxx => /(_ isT); case E: (domain_new F (2 ^ i)) => [dom|//] _.
have Es : d_size dom = (2 ^ i)%N by have [_ -> _ _] := domain_new_ok E; rewrite next_pow2_expn.
apply: (@king_prog_ext _ _ _ _ (fun p => cbind (bench_round dbg pp n p (ords 0%N) cT dom (rx 0%N p) (ry 0%N p))
  (fun out => do! outs := bench_rounds dbg pp n p (fun k => ords k.+1) cT (fun k => rx k.+1 p) (fun k => ry k.+1 p) es in
              CRet (Ok (out :: outs))))); first exact: ltnW.
  by move=> p _ /=; rewrite E.
apply: (king_prog_bind (v1 := fun=> v 0%N)); first exact: ltnW.
  apply: round_prog => // d dd; rewrite -(Hk 0%N d _ (Ho 0%N)) //; congr (d_msm_king _ _ _ _).
  by apply: received_ext => p; rewrite /own_product Es.
apply: (king_prog_bind (v1 := fun=> mkseq (fun k => v k.+1) (size es))); first exact: ltnW.
  apply: (IH (fun k => ords k.+1) (fun k => rx k.+1) (fun k => ry k.+1) (fun k => v k.+1)) => //.
    by move=> j je; apply: Hd; rewrite inE je orbT.
  by move=> k d ord Hord lk dd; rewrite -(Hk k.+1 d ord).
by apply: KP_ret => p _; rewrite /mkseq /= (iotaDl 1 0) -map_comp.
Qed.

End Rounds.

Lemma same_king (F : fftField) (T : lmodType F) (pp : pss F) dbg ord d (v : T) : pp_ok pp -> hash_ok ord ->
  d_msm_king dbg pp (p_n pp) (received_from (fun=> v) (p_n pp) d ord) = Ok (nseq (p_n pp) ((p_l pp)%:R *: v)).
Proof.
move=> ok Hord; rewrite /d_msm_king shares_who parties_who.
rewrite (unpack_who ok dbg d Hord _ (shared_const pp v (isT : 0 < 1)%N)); last first.
  by have := pp_l_gt0 ok; lia.
rewrite [rbind (Ok _) _]/= foldr_sum size_mkseq; congr (Ok (nseq _ _)).
rewrite (eq_bigr (fun=> v)) => [|j _]; last by rewrite nth_mkseq.
by rewrite sumr_const card_ord scaler_nat.
Qed.

Lemma dom_exists (F : fftField) i : (i <= ff_two_adicity F)%N -> isSome (domain_new F (2 ^ i)).
Proof. by move=> li; rewrite /domain_new /get_root_of_unity up_expnK // li. Qed.

Lemma dmsm_benchE (F : fftField) (T : lmodType F) dbg pp p ords (cT : codec T) rx ry :
  pss_new F dbg 2 = Ok pp -> p_n pp = 8%N ->
  dmsm_bench dbg p ords cT rx ry = bench_rounds dbg pp (p_n pp) p ords cT rx ry (iota 10 4).
Proof. by move=> new En; rewrite /dmsm_bench new En. Qed.

Lemma rand_vecE (U : Type) (r : rng U) len : rand_vec r len = Ok (mkseq r len).
Proof.
rewrite /rand_vec; case: len => [|N] //=.
have H k : (k <= N)%N -> foldM (fun s i => vset s i (r i)) (nseq N.+1 (r 0%N)) (iota 1 k) =
    Ok (mkseq (fun i => if (i <= k)%N then r i else r 0%N) N.+1).
  elim: k => [|k IH] le_k.
    congr Ok; apply: (@eq_from_nth _ (r 0%N)); rewrite size_nseq ?size_mkseq // => i lt_i.
    by rewrite nth_nseq lt_i nth_mkseq // leqn0; case: eqP => [->|//].
  rewrite -{1}[k.+1]addn1 iotaD foldM_cat (IH (ltnW le_k)) [rbind _ _]/= (vset_nth (r 0%N)) ?size_mkseq //.
  cbn [rbind foldM]; rewrite add1n.
  have sz : size (set_nth (r 0%N) (mkseq (fun i => if (i <= k)%N then r i else r 0%N) N.+1) k.+1
     (r k.+1)) = N.+1 by rewrite size_set_nth size_mkseq; apply/maxn_idPr.
  congr Ok; apply: (@eq_from_nth _ (r 0%N)); rewrite sz ?size_mkseq // => i lt_i.
  rewrite nth_set_nth /= !nth_mkseq //; case: eqP => [->|neq]; first by rewrite leqnn.
  by have -> : (i <= k.+1 = (i <= k))%N by lia.
rewrite H //; congr Ok; apply: (@eq_from_nth _ (r 0%N)); rewrite !size_mkseq // => i lt_i.
by rewrite !nth_mkseq // -ltnS lt_i.
Qed.

Lemma mkseq_add (U : Type) (r : rng U) a b : mkseq r (a + b) = mkseq r a ++ mkseq (rskip a r) b.
Proof.
rewrite /mkseq iotaD map_cat add0n; congr (_ ++ _).
by rewrite -[a in iota a b]addn0 iotaDl -map_comp; apply: eq_map.
Qed.

(*** theorems ***)

(** C76: the benchmark of the distributed multiplication, with any number of rounds of any sizes.  All
    masks are zero, so every party ends with the sums that the king finds in the clear; they are those
    of the secrets to which the products of the parties' own random shares interpolate.  Debug builds
    need products that lie on a polynomial of degree below [n - 1]. *)
Lemma c76_rounds (F : fftField) (T : lmodType F) dbg lam pp (cT : codec T) mb (es : seq nat)
    (rx : nat -> nat -> rng T) (ry : nat -> nat -> rng F) :
  pss_new F dbg (2 ^ lam) = Ok pp -> codec_ok cT mb ->
  (forall i, i \in es -> isSome (domain_new F (2 ^ i))) ->
  let y k p := \sum_(e < 2 ^ nth 0%N es k) ry k p e *: rx k p e in
  (dbg -> forall k, (k < size es)%N -> imbalance pp (y k) = 0) ->
  yields (p_n pp) true (fun ords p =>
      bench_rounds dbg pp (p_n pp) p ords cT (fun k => rx k p) (fun k => ry k p) es)
    (fun=> mkseq (fun k => \sum_(j < 2 ^ lam) interpolated pp (y k) j) (size es)).
Proof.
move=> new cok Hd y Hb; have ok := pss_new_ok new; have n1 := n_gt1 ok; rewrite -(pss_new_l new).
apply: yields_prog => [|ords Ho]; first exact: ltnW.
apply: (@rounds_prog _ _ _ ok dbg cT mb cok _ es ords rx ry (fun k => \sum_(j < p_l pp) interpolated pp (y k) j)) => //.
  by move=> d /andP[].
move=> k d ord _ lk /andP[_ nd]; rewrite (d_msm_king_any ok) //.
by case: dbg Hb {new Hd} => //= Hb; rewrite Hb ?eqxx.
Qed.

(** C76: if the generators of all parties yield the same values (a deterministic [test_rng]), the sums
    are [l] times the product that everybody computes alone, in debug and release builds and also if
    one client crashes. *)
Lemma c76_rounds_same (F : fftField) (T : lmodType F) dbg lam pp (cT : codec T) mb (es : seq nat)
    (rx : nat -> rng T) (ry : nat -> rng F) :
  pss_new F dbg (2 ^ lam) = Ok pp -> codec_ok cT mb ->
  (forall i, i \in es -> isSome (domain_new F (2 ^ i))) ->
  yields (p_n pp) false (fun ords p => bench_rounds dbg pp (p_n pp) p ords cT rx ry es)
    (fun=> mkseq (fun k => (2 ^ lam)%:R *: \sum_(e < 2 ^ nth 0%N es k) ry k e *: rx k e) (size es)).
Proof.
move=> new cok Hd; have ok := pss_new_ok new; have n1 := n_gt1 ok; rewrite -(pss_new_l new).
apply: yields_prog' => [|ords Ho]; first exact: ltnW.
apply: (@rounds_prog _ _ _ ok dbg cT mb cok _ es ords (fun k _ => rx k) (fun k _ => ry k)) => //.
move=> k d ord Hord lk d0; rewrite /own_product; set v := \sum_(e < _) _.
exact: same_king.
Qed.

(** C76: debug builds in which the first products do not lie on such a polynomial: the king panics. *)
Lemma c76_rounds_dies (F : fftField) (T : lmodType F) lam pp (cT : codec T) mb i es sid ords
    (rx : nat -> nat -> rng T) (ry : nat -> nat -> rng F) :
  pss_new F true (2 ^ lam) = Ok pp -> codec_ok cT mb -> isSome (domain_new F (2 ^ i)) ->
  (forall k, hash_ok (ords k)) ->
  imbalance pp (fun p => \sum_(e < 2 ^ i) ry 0%N p e *: rx 0%N p e) != 0 ->
  king_dies (mkseq (fun p => pthread sid
    (bench_rounds true pp (p_n pp) p ords cT (fun k => rx k p) (fun k => ry k p) (i :: es))) (p_n pp)).
Proof.
move=> new cok + Ho bal; have ok := pss_new_ok new; have n1 := n_gt1 ok.
case E: (domain_new F (2 ^ i)) => [dom|//] _.
have Es : d_size dom = (2 ^ i)%N by have [_ -> _ _] := domain_new_ok E; rewrite next_pow2_expn.
pose y p := \sum_(e < 2 ^ i) ry 0%N p e *: rx 0%N p e.
pose Q p out := do! outs := bench_rounds true pp (p_n pp) p (fun k => ords k.+1) cT (fun k => rx k.+1 p) (fun k => ry k.+1 p) es in
  CRet (Ok (out :: outs)).
have -> : mkseq (fun p => pthread sid
    (bench_rounds true pp (p_n pp) p ords cT (fun k => rx k p) (fun k => ry k p) (i :: es))) (p_n pp) =
  mkseq (fun p => pthread sid (cbind
    (do! rs := csokr_ser cT (p_n pp) p (ords 0%N) (y p) (p_t pp) in
     do! outs := clift (king_map (@d_msm_king F true pp (p_n pp) T) rs) in
     do! w := crokss_ser cT (p_n pp) p outs in clift (Ok (w + 0))) (Q p))) (p_n pp).
  apply: eq_mkseq_in => p lp; congr (pthread _ _).
  by rewrite /= E /= (round_start ok true cT p (ords 0%N) dom (rx 0%N) (ry 0%N)) Es.
apply: (@round_panics_bind _ _ _ _ _ _ _ _ _ _ _ _ (fun p w => clift (Ok (w + 0)))) => //.
- exact: ltnW.
- by rewrite (ppt ok) (ppn ok); have := pp_l_gt0 ok; lia.
- by move=> j _; apply: decode_one cok _.
by rewrite (d_msm_king_any ok) // bal.
Qed.

(** C76: dmsm_bench.rs with eight parties and four rounds. *)
Lemma c76_dmsm_bench (F : fftField) (T : lmodType F) dbg pp (cT : codec T) mb
    (rx : nat -> nat -> rng T) (ry : nat -> nat -> rng F) :
  pss_new F dbg 2 = Ok pp -> codec_ok cT mb -> (13 <= ff_two_adicity F)%N ->
  let y k p := \sum_(e < 2 ^ (10 + k)) ry k p e *: rx k p e in
  (dbg -> forall k, (k < 4)%N -> imbalance pp (y k) = 0) ->
  yields 8 true (fun ords p => dmsm_bench dbg p ords cT (fun k => rx k p) (fun k => ry k p))
    (fun=> mkseq (fun k => \sum_(j < 2) interpolated pp (y k) j) 4).
Proof.
move=> new cok ad y Hb; have ok := pss_new_ok (k := 1) new.
have [El n1] := (pss_new_l new, n_gt1 ok); have En : p_n pp = 8%N by rewrite (ppn ok) El.
apply: yields_prog => // ords Ho; rewrite -En.
apply: king_prog_ext (ltnW n1) (fun p _ => dmsm_benchE p ords cT (fun k => rx k p) (fun k => ry k p) new En) _.
apply: (@rounds_prog _ _ _ ok dbg cT mb cok _ (iota 10 4) ords rx ry (fun k => \sum_(j < 2) interpolated pp (y k) j)) => //.
- by move=> d /andP[].
- by move=> i; rewrite mem_iota => /andP[_ li]; apply: dom_exists; apply: leq_trans ad.
move=> k d ord _ lk /andP[_ nd]; rewrite (received_ext _ _ _ (_ : _ =1 y k)) => [|p].
  rewrite (d_msm_king_any ok) // -{}El; case: dbg Hb {new} => //= Hb; by rewrite Hb ?eqxx.
by rewrite /own_product nth_iota.
Qed.

Lemma c76_dmsm_bench_same (F : fftField) (T : lmodType F) dbg pp (cT : codec T) mb
    (rx : nat -> rng T) (ry : nat -> rng F) :
  pss_new F dbg 2 = Ok pp -> codec_ok cT mb -> (13 <= ff_two_adicity F)%N ->
  yields 8 false (fun ords p => dmsm_bench dbg p ords cT rx ry)
    (fun=> mkseq (fun k => 2%:R *: \sum_(e < 2 ^ (10 + k)) ry k e *: rx k e) 4).
Proof.
move=> new cok ad; have ok := pss_new_ok (k := 1) new.
have [El n1] := (pss_new_l new, n_gt1 ok); have En : p_n pp = 8%N by rewrite (ppn ok) El.
apply: yields_prog' => // ords Ho; rewrite -[X in king_prog X]En.
apply: king_prog_ext (ltnW n1) (fun p _ => dmsm_benchE p ords cT rx ry new En) _.
apply: (@rounds_prog _ _ _ ok dbg cT mb cok _ (iota 10 4) ords (fun k _ => rx k) (fun k _ => ry k)
  (fun k => 2%:R *: \sum_(e < 2 ^ (10 + k)) ry k e *: rx k e)) => //.
  by move=> i; rewrite mem_iota => /andP[_ li]; apply: dom_exists; apply: leq_trans ad.
move=> k d ord Hord lk d0; rewrite (received_ext _ _ _ (_ : _ =1 fun=> \sum_(e < 2 ^ (10 + k)) ry k e *: rx k e)) => [|p].
  by rewrite same_king // El.
by rewrite /own_product nth_iota.
Qed.

(** C76: msm_bench.rs never fails. *)
Lemma c76_msm_bench (F : fftField) (T : lmodType F) (rx : nat -> rng T) (ry : nat -> rng F) :
  (14 <= ff_two_adicity F)%N ->
  msm_bench rx ry = Ok (mkseq (fun k => \sum_(e < 2 ^ (10 + k)) ry k e *: rx k e) 5).
Proof.
move=> ad; rewrite /msm_bench; apply: mapM_ok => k0 k; rewrite size_iota => lk; rewrite nth_iota // add0n.
have lk' : (10 + k <= ff_two_adicity F)%N by apply: leq_trans ad; lia.
have := dom_exists lk'; case E: (domain_new F (2 ^ (10 + k))) => [dom|//] _.
have [_ Es _ _] := domain_new_ok E; rewrite next_pow2_expn in Es.
rewrite [rbind _ _]/= /msm_test Es /msm !size_mkseq eqxx foldr_sum size_zipmap !size_mkseq minnn; congr Ok.
by apply: eq_bigr => e _; rewrite (nth_zipmap _ 0 0) ?size_mkseq // !nth_mkseq.
Qed.

(** C76: the random key share: when the domain is at least as large as [l], all the points come from
    different draws of the generator, each exactly once and in order; the vectors have the lengths of
    shares of a key for that domain. *)
Lemma c76_key_rand (F : fftField) (T1 T2 : lmodType F) (pp : pss F) (r1 : rng T1) (r2 : rng T2) m :
  (0 < p_l pp <= m)%N ->
  exists ks, [/\ key_rand pp r1 r2 m = Ok ks,
    [/\ size (k_s ks) = m %/ p_l pp, size (k_u ks) = m * 2 %/ p_l pp, size (k_w ks) = m %/ p_l pp,
        size (k_h ks) = m %/ p_l pp & size (k_v ks) = m %/ p_l pp]%N,
    k_s ks ++ k_u ks ++ k_w ks ++ k_h ks ++
      [:: k_a_query0 ks; k_b_g1_query0 ks; k_delta_g1 ks; k_alpha_g1 ks; k_beta_g1 ks] =
      mkseq r1 (3 * (m %/ p_l pp) + m * 2 %/ p_l pp + 5) &
    k_v ks ++ [:: k_b_g2_query0 ks; k_delta_g2 ks; k_beta_g2 ks] = mkseq r2 (m %/ p_l pp + 3)].
Proof.
move=> /andP[l0 lm]; rewrite /key_rand l0 [rbind _ _]/= /rand_used.
set c := (m %/ p_l pp)%N; set c2 := (m * 2 %/ p_l pp)%N.
have c0 : (0 < c)%N by rewrite divn_gt0.
have c20 : (0 < c2)%N by rewrite divn_gt0 //; lia.
rewrite !rand_vecE //= !prednK //.
eexists; split; first by []; rewrite /= ?size_mkseq //.
- have -> : (3 * c + c2 + 5 = c + (c2 + (c + (c + 5))))%N by lia.
  by rewrite !mkseq_add.
- by rewrite mkseq_add.
Qed.

Lemma c76_key_rand_panics (F : fftField) (T1 T2 : lmodType F) (pp : pss F) (r1 : rng T1) (r2 : rng T2) m :
  p_l pp = 0%N -> key_rand pp r1 r2 m = Panic.
Proof. by move=> l0; rewrite /key_rand l0. Qed.
