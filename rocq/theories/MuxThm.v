(** Theorems about the tests of mpc-net. *)
From mathcomp Require Import all_ssreflect.
From mathcomp Require Import zify.
From Verif Require Import Base ModelNet ModelDemo ModelMux SpecNet.
From Verif Require Import NetProofs KingProofs RoundProofs FewProofs AddThm NetThm.
Set Implicit Arguments.
Unset Strict Implicit.
Unset Printing Implicit Defensive.

Section Runs.
Variables (A : Type) (n : nat).
Implicit Types c : cfg A.

(** one operation of a party that runs it on its own *)
Lemma send_on_run c p sid to b (K : seq unit -> pproc A) : size (procs c) = n -> p < n -> to < n -> to != p ->
  nth PHalt (procs c) p = PJoin [:: (sid, CSend to b (CRet (Ok tt)))] K ->
  exists c', [/\ reach c c', procs c' = set_nth PHalt (procs c) p (K [:: tt]) &
    forall s f t, f < n -> t < n -> queue c' s f t =
      if [&& s == sid, f == p & t == to] then rcons (queue c s f t) b else queue c s f t].
Proof.
move=> sz pn tn tp E.
pose c1 := Cfg (set_nth PHalt (procs c) p (PJoin [:: (sid, CRet (Ok tt))] K))
  (apply_q n p (sid, QPush to b) (qs c)).
have S1 : step (p, LThread 0 KOp) c = Some c1 by rewrite /step sz E /= tn tp.
pose c2 := Cfg (set_nth PHalt (procs c1) p (K [:: tt])) (qs c1).
have S2 : step (p, LJoin) c1 = Some c2.
  by rewrite /step /= nth_set_nth /= eqxx.
exists c2; split.
- by apply: (reach_step _ S1) => //; apply: (reach_step _ S2) => //; exact: reach_refl.
- by rewrite /c2 /= set_set_nth eqxx.
move=> s f t fn tn'.
have sz2 : size (procs c2) = n.
  by rewrite /c2 /c1 /= !size_set_nth sz; lia.
rewrite /queue sz2 sz; rewrite (@nth_apply_q n p (sid, QPush to b)) //; last by move=> ? ? ? [_ <- _].
by rewrite ![_ == sid]eq_sym ![f == _]eq_sym ![t == _]eq_sym.
Qed.

Lemma recv_on_run c p sid from b q (K : seq bytes -> pproc A) : size (procs c) = n -> p < n ->
  from < n -> from != p -> queue c sid from p = b :: q ->
  nth PHalt (procs c) p = PJoin [:: (sid, CRecv from (fun b => CRet (Ok b)))] K ->
  exists c', [/\ reach c c', procs c' = set_nth PHalt (procs c) p (K [:: b]) &
    forall s f t, f < n -> t < n -> queue c' s f t =
      if [&& s == sid, f == from & t == p] then q else queue c s f t].
Proof.
move=> sz pn fn fp Eq E.
pose c1 := Cfg (set_nth PHalt (procs c) p (PJoin [:: (sid, CRet (Ok b))] K))
  (apply_q n p (sid, QPop from) (qs c)).
have S1 : step (p, LThread 0 KOp) c = Some c1 by rewrite /step sz E /= fn fp Eq.
pose c2 := Cfg (set_nth PHalt (procs c1) p (K [:: b])) (qs c1).
have S2 : step (p, LJoin) c1 = Some c2.
  by rewrite /step /= nth_set_nth /= eqxx.
exists c2; split.
- by apply: (reach_step _ S1) => //; apply: (reach_step _ S2) => //; exact: reach_refl.
- by rewrite /c2 /= set_set_nth eqxx.
move=> s f t fn' tn'.
have sz2 : size (procs c2) = n.
  by rewrite /c2 /c1 /= !size_set_nth sz; lia.
move: Eq; rewrite /queue sz2 sz => Eq.
rewrite (@nth_apply_q n p (sid, QPop from)) //; last by move=> ? ? [_ <-].
rewrite ![_ == sid]eq_sym ![f == _]eq_sym ![t == _]eq_sym.
by case: and3P => // -[/eqP<- /eqP<- /eqP<-]; rewrite Eq.
Qed.

Definition others p (todo : seq (nat * nat)) := all (fun x => (x.2 < n) && (x.2 != p)) todo.

Lemma broadcast_run B b todo c p (f : unit -> pproc B) (k : B -> pproc A) : size (procs c) = n -> p < n -> others p todo ->
  nth PHalt (procs c) p = pbind (pbind (broadcast b todo) f) k ->
  exists c', [/\ reach c c', procs c' = set_nth PHalt (procs c) p (pbind (f tt) k) &
    forall s g t, g < n -> t < n -> queue c' s g t =
      queue c s g t ++ (if g == p then nseq (count_mem (s, t) todo) b else [::])].
Proof.
elim: todo c => [|[sid to] todo IH] c sz pn /=.
  move=> _ E; exists c; split; first exact: reach_refl.
    apply: (@eq_from_nth _ PHalt); first by rewrite size_set_nth sz; lia.
    by move=> i _; rewrite nth_set_nth /=; case: eqP => // ->.
  by move=> s g t _ _; rewrite if_same cats0.
case/andP=> /andP[tn tp] O E.
have [c1 [R1 E1 Q1]] := send_on_run sz pn tn tp E.
have sz1 : size (procs c1) = n by rewrite E1 size_set_nth sz; lia.
have [|c2 [R2 E2 Q2]] := IH c1 sz1 pn O; first by rewrite E1 nth_set_nth /= eqxx.
exists c2; split; first exact: reach_trans R1 R2.
  by rewrite E2 E1 set_set_nth eqxx.
move=> s g t fn tn'; rewrite Q2 // Q1 // xpair_eqE.
case: (g == p); last by rewrite andbF.
by rewrite [sid == s]eq_sym [to == t]eq_sym; case: (_ && _) => //=; rewrite -cats1 -catA.
Qed.

Lemma collect_run todo ids c p (msg : nat -> nat) (k : seq (nat * nat) -> pproc A) :
  size (procs c) = n -> p < n -> others p todo -> uniq todo ->
  (forall x, x \in todo -> queue c x.1 x.2 p = [:: [:: msg x.2]]) ->
  nth PHalt (procs c) p = pbind (collect todo ids) k ->
  exists c', [/\ reach c c',
    procs c' = set_nth PHalt (procs c) p (k (ids ++ [seq (x.1, msg x.2) | x <- todo])) &
    forall s f t, f < n -> t < n -> queue c' s f t =
      if (t == p) && ((s, f) \in todo) then [::] else queue c s f t].
Proof.
elim: todo ids c => [|[sid from] todo IH] ids c sz pn /=.
  move=> _ _ _ E; exists c; split; first exact: reach_refl.
    apply: (@eq_from_nth _ PHalt); first by rewrite size_set_nth sz; lia.
    by move=> i _; rewrite nth_set_nth /= cats0; case: eqP => // ->.
  by move=> s f t _ _; rewrite andbF.
case/andP=> /andP[fn fp] O /andP[nin U] Hq E.
have Hq0 := Hq _ (mem_head _ _).
have [c1 [R1 E1 Q1]] := recv_on_run sz pn fn fp Hq0 E.
have sz1 : size (procs c1) = n by rewrite E1 size_set_nth sz; lia.
have [||c2 [R2 E2 Q2]] := IH (rcons ids (sid, msg from)) c1 sz1 pn O U.
- move=> [s f] xI; have /andP[fn' _] : (f < n) && (f != p) by have /allP/(_ _ xI) := O.
  rewrite Q1 //= eqxx andbT; case: andP => [[/eqP Es /eqP Ef]|_].
    by move: nin; rewrite -Es -Ef xI.
  by apply: (Hq (s, f)); rewrite inE xI orbT.
- by rewrite E1 nth_set_nth /= eqxx.
exists c2; split; first exact: reach_trans R1 R2.
  by rewrite E2 E1 set_set_nth eqxx cat_rcons.
move=> s f t fn' tn'; rewrite Q2 // Q1 // inE xpair_eqE.
by case: (t == p); rewrite ?andbF ?andbT //=; case: (_ && _); rewrite //= if_same.
Qed.

End Runs.

Lemma visitsP me peers x : (x \in visits me peers) = [&& x.1 < 3, x.2 \in peers & x.2 != me].
Proof.
case: x => s t; apply/allpairsP/idP => [[[q u]] /= [qI uI [-> ->]]|/= /and3P[s3 tp tm]].
  by move: qI uI; rewrite mem_filter !inE => /andP[-> ->] /or3P[] /eqP->.
exists (t, s); split => //=; first by rewrite mem_filter tm.
by case: s s3 => [|[|[|]]].
Qed.

Lemma visits_uniq me peers : uniq peers -> uniq (visits me peers).
Proof.
move=> U; apply: allpairs_uniq => //; first exact: filter_uniq.
by move=> [a b] [a' b'] _ _ /= [-> ->].
Qed.

Section All.
Variables (B : Type) (n : nat) (ord : nat -> seq nat) (rest : nat -> seq (nat * nat) -> res B).
Hypothesis ordP : forall p, p < n -> perm_eq (ord p) (iota 0 n).

Let P p := multiplexing p (ord p) (rest p).
Let heard p := [seq (x.1, x.2 %% 256) | x <- visits p (ord p)].
Let mid p : pproc B := pbind (collect (visits p (ord p)) [::]) (fun ids => PRet (rest p ids)).

Lemma visits_others p : p < n -> others n p (visits p (ord p)).
Proof.
move=> pn; apply/allP => x; rewrite visitsP => /and3P[_ xI ->].
by move: xI; rewrite (perm_mem (ordP pn)) mem_iota add0n andbT.
Qed.

Lemma visits_ord_uniq p : p < n -> uniq (visits p (ord p)).
Proof. by move=> pn; apply: visits_uniq; rewrite (perm_uniq (ordP pn)) iota_uniq. Qed.

Lemma set_mkseq (f : nat -> pproc B) m x : m < n ->
  set_nth PHalt (mkseq f n) m x = mkseq (fun i => if i == m then x else f i) n.
Proof.
move=> mn; apply: (@eq_from_nth _ PHalt); first by rewrite size_set_nth !size_mkseq; lia.
move=> i; rewrite size_set_nth size_mkseq nth_set_nth /= => il.
have iln : i < n by lia.
by rewrite !nth_mkseq.
Qed.

Lemma all_broadcast m : m <= n -> exists c, [/\ reach (init (mkseq P n)) c,
  procs c = mkseq (fun p => if p < m then mid p else P p) n &
  forall s f t, f < n -> t < n -> queue c s f t =
    if f < m then nseq (count_mem (s, t) (visits f (ord f))) [:: f %% 256] else [::]].
Proof.
elim: m => [|m IH] mn.
  by exists (init (mkseq P n)); split => // [|s f t _ _]; [exact: reach_refl|rewrite /queue nth_nil].
have [c [R E Q]] := IH (ltnW mn).
have sz : size (procs c) = n by rewrite E size_mkseq.
have N : nth PHalt (procs c) m = P m by rewrite E nth_mkseq // ltnn.
have [c' [R' E' Q']] := broadcast_run sz mn (visits_others mn) N.
exists c'; split; first exact: reach_trans R R'.
  rewrite E' E set_mkseq //; apply: eq_mkseq => i; rewrite [i < m.+1]ltnS [i <= m]leq_eqVlt.
  by case: eqP => [->|].
move=> s f t fn tn; rewrite Q' // Q // [f < m.+1]ltnS [f <= m]leq_eqVlt.
by case: eqP => [->|_]; rewrite ?ltnn ?cats0.
Qed.

Lemma all_collect m : m <= n -> exists c, [/\ reach (init (mkseq P n)) c,
  procs c = mkseq (fun p => if p < m then PRet (rest p (heard p)) else mid p) n &
  forall s f t, f < n -> t < n -> m <= t -> queue c s f t =
    nseq (count_mem (s, t) (visits f (ord f))) [:: f %% 256]].
Proof.
elim: m => [|m IH] mn.
  have [c [R E Q]] := all_broadcast (leqnn n); exists c; split => //.
    rewrite E; apply: (@eq_from_nth _ PHalt); rewrite !size_mkseq // => i il.
    by rewrite !nth_mkseq // il.
  by move=> s f t fn tn _; rewrite Q // fn.
have [c [R E Q]] := IH (ltnW mn).
have sz : size (procs c) = n by rewrite E size_mkseq.
have N : nth PHalt (procs c) m = mid m by rewrite E nth_mkseq // ltnn.
have Hq x : x \in visits m (ord m) -> queue c x.1 x.2 m = [:: [:: x.2 %% 256]].
  move=> xI; move: (xI); rewrite visitsP => /and3P[x1 x2 xm].
  have x2n : x.2 < n by move: x2; rewrite (perm_mem (ordP mn)) mem_iota.
  rewrite Q // count_uniq_mem ?visits_ord_uniq // visitsP x1 eq_sym xm.
  by rewrite (perm_mem (ordP x2n)) mem_iota mn.
have [c' [R' E' Q']] := collect_run sz mn (visits_others mn) (visits_ord_uniq mn) Hq N.
exists c'; split; first exact: reach_trans R R'.
  rewrite E' E set_mkseq //; apply: eq_mkseq => i; rewrite [i < m.+1]ltnS [i <= m]leq_eqVlt.
  by case: eqP => [->|].
move=> s f t fn tn mt; rewrite Q' //; have -> : (t == m) = false by lia.
by rewrite Q //; lia.
Qed.

Lemma all_run : exists2 c, reach (init (mkseq P n)) c & procs c = mkseq (fun p => PRet (rest p (heard p))) n.
Proof.
have [c [R E _]] := all_collect (leqnn n); exists c => //; rewrite E.
by apply: (@eq_from_nth _ PHalt); rewrite !size_mkseq // => i il; rewrite !nth_mkseq // il.
Qed.

Lemma separate_collect (k : seq (nat * nat) -> pproc B) todo ids : (forall x, separate (k x)) ->
  separate (pbind (collect todo ids) k).
Proof.
move=> S; elim: todo ids => [|[s t] todo IH] ids //=; split=> // -[|b [|]] //=.
by case: (vget b 0) => //=.
Qed.

Lemma separate_P p : separate (P p).
Proof.
rewrite /P /multiplexing; elim: {1}(visits p (ord p)) => [|[s t] todo IH] /=.
  exact: separate_collect.
by split=> // -[|[] [|]] //=.
Qed.

Lemma final_ret (c : cfg B) (r : nat -> res B) : procs c = mkseq (fun p => PRet (r p)) n -> final c.
Proof.
move=> E [p la] _; rewrite /step E size_mkseq; case: (ltnP p n) => pn.
  by rewrite nth_mkseq.
by rewrite nth_default ?size_mkseq.
Qed.

End All.

Lemma visits_stream me peers s :
  [seq e.2 | e <- [seq (x.1, x.2 %% 256) | x <- visits me peers] & e.1 == s] =
  if s < 3 then [seq q %% 256 | q <- peers & q != me] else [::].
Proof.
rewrite /visits; elim: [seq q <- peers | q != me] => [|q l IH]; first by case: ifP.
have -> : [seq (sid, peer) | peer <- q :: l, sid <- [:: 0; 1; 2]] =
    [:: (0, q); (1, q); (2, q)] ++ [seq (sid, peer) | peer <- l, sid <- [:: 0; 1; 2]] by [].
rewrite map_cat filter_cat map_cat IH.
by case: s {IH} => [|[|[|s]]].
Qed.

Lemma visits_unzip me peers s :
  (s \in unzip1 [seq (x.1, x.2 %% 256) | x <- visits me peers]) =
  (s < 3) && has (fun q => q != me) peers.
Proof.
rewrite /unzip1 -map_comp; apply/mapP/andP => [[[u t]]|[s3 /hasP[t tI tm]]].
  rewrite visitsP /= => /and3P[u3 tI tm] ->; split=> //; apply/hasP; by exists t.
by exists (s, t) => //; rewrite visitsP s3 tI tm.
Qed.

(** the sum of the low bytes of the others, and of all identifiers *)
Lemma low_sum n p l : p < n -> perm_eq l (iota 0 n) ->
  sumn [seq q %% 256 | q <- l & q != p] + p <= \sum_(i < n) i /\
  (\sum_(i < n) i == sumn [seq q %% 256 | q <- l & q != p] + p) =
    all (fun q => (q == p) || (q < 256)) (iota 0 n).
Proof.
move=> pn Hl.
have E1 : sumn [seq q %% 256 | q <- l & q != p] = \sum_(q <- iota 0 n | q != p) q %% 256.
  by rewrite sumnE big_map big_filter; apply: perm_big.
have E2 : \sum_(i < n) i = \sum_(q <- iota 0 n | q != p) q + p.
  rewrite -(big_mkord xpredT id) /index_iota subn0 (bigID (pred1 p)) /= addnC; congr (_ + _).
  rewrite -big_filter (_ : [seq i <- iota 0 n | i == p] = [:: p]) ?big_seq1 //.
  by rewrite filter_pred1_uniq ?iota_uniq // mem_iota.
rewrite E1 E2 leq_add2r eqn_add2r; elim: (iota 0 n) => [|q s [IH1 IH2]] /=.
  by rewrite !big_nil.
rewrite !big_cons; case: eqP => [_|_] //=.
have lq := leq_mod q 256.
split; first exact: leq_add.
rewrite -IH2; have -> : (q < 256) = (q == q %% 256).
  by apply/idP/eqP => [H|->]; [rewrite modn_small|rewrite ltn_mod].
apply/eqP/andP => [H|[/eqP H1 /eqP H2]]; last by rewrite -H1 -H2.
by split; apply/eqP; lia.
Qed.

Lemma check_sumsE (dbg : bool) n p l : p < n -> \sum_(i < n) i < 256 ^ 4 -> perm_eq l (iota 0 n) ->
  check_sums dbg (\sum_(i < n) i) p [seq (x.1, x.2 %% 256) | x <- visits p l] =
  rassert (all (fun q => (q == p) || (q < 256)) (iota 0 n)).
Proof.
move=> pn sB Hl; have [le E] := low_sum pn Hl.
set v := rassert _; set S := sumn _ in le E.
have lS : S + p < 256 ^ 4 by exact: leq_ltn_trans le sB.
have lS' : S < 256 ^ 4 by apply: leq_ltn_trans lS; exact: leq_addr.
have F s : s < 3 -> (if s \in unzip1 [seq (x.1, x.2 %% 256) | x <- visits p l] then
      let! sum := foldM (u32_add dbg) 0 [seq e.2 | e <- [seq (x.1, x.2 %% 256) | x <- visits p l] & e.1 == s] in
      let! sum' := u32_add dbg sum p in
      rassert (\sum_(i < n) i == sum')
    else Ok tt) = v.
  move=> s3; rewrite visits_unzip visits_stream s3 andTb; case: ifP => [H|/hasPn H].
    rewrite (u32_fold u32_gt0) ?add0n // -/S (modn_small lS'); cbn [rbind].
    rewrite /u32_add (u32_small lS) /dassert eqxx implybT; cbn [rbind].
    by rewrite E.
  rewrite /v; suff -> : all (fun q => (q == p) || (q < 256)) (iota 0 n) by [].
  apply/allP => q; rewrite -(perm_mem Hl) => /H; rewrite negbK => ->//.
rewrite /check_sums; cbn [foldM]; rewrite (F 0) // (F 1) // (F 2) //.
by rewrite /v /rassert; case: (all _ _).
Qed.

(*** theorems ***)

(** C72: [test_multiplexing] among any number of parties, the peers visited in any order: in every
    schedule each party gets, on each of the three streams, the identifiers of all others, in the
    order in which it visits them, modulo 256 *)
Lemma c72_ids n (ord : nat -> seq nat) : (forall p, p < n -> perm_eq (ord p) (iota 0 n)) ->
  exists ids, every_schedule (mkseq (fun p => multiplexing p (ord p) Ok) n) predT ids /\
    forall p s, p < n -> [seq e.2 | e <- ids p & e.1 == s] =
      if s < 3 then [seq q %% 256 | q <- ord p & q != p] else [::].
Proof.
move=> ordP; exists (fun p => [seq (x.1, x.2 %% 256) | x <- visits p (ord p)]); split; last first.
  by move=> p s _; exact: visits_stream.
have [c R E] := @all_run _ n ord (fun _ => Ok) ordP.
apply: (@confluent_every _ _ _ _ c) => //; last by move=> p; rewrite size_mkseq => pn _; rewrite E nth_mkseq.
  move=> p; case: (ltnP p n) => pn; last by rewrite nth_default ?size_mkseq.
  by rewrite nth_mkseq //; exact: separate_P.
exact: final_ret E.
Qed.

(** C72: the assertion holds at every party when there are at most 256 parties *)
Lemma c72_test (dbg : bool) n (ord : nat -> seq nat) : n <= 256 ->
  (forall p, p < n -> perm_eq (ord p) (iota 0 n)) ->
  every_schedule (mkseq (fun p => test_multiplexing dbg (\sum_(i < n) i) p (ord p)) n) predT (fun _ => tt).
Proof.
move=> n256 ordP.
have sB : \sum_(i < n) i < 256 ^ 4.
  apply: (@leq_ltn_trans (\sum_(i < n) 256)).
    by apply: leq_sum => i _; apply: ltnW; apply: leq_trans n256.
  rewrite sum_nat_const card_ord; apply: (@leq_ltn_trans (256 ^ 2)); last by rewrite ltn_exp2l.
  by rewrite expnS expn1 leq_mul2r n256 orbT.
have [c R E] := @all_run _ n ord (fun p => check_sums dbg (\sum_(i < n) i) p) ordP.
apply: (@confluent_every _ _ _ _ c) => //; last first.
- move=> p; rewrite size_mkseq => pn _; rewrite E nth_mkseq // (check_sumsE _ pn sB (ordP p pn)).
  rewrite /rassert (_ : all _ _) //; apply/allP => q; rewrite mem_iota => /andP[_ qn].
  by rewrite (leq_trans qn n256) orbT.
- exact: final_ret E.
move=> p; case: (ltnP p n) => pn; last by rewrite nth_default ?size_mkseq.
by rewrite nth_mkseq //; exact: separate_P.
Qed.

(** C72: with more parties it fails at every party that hears from another one whose identifier is
    no byte, and nowhere else: every schedule can be completed, and the end state is this one *)
Lemma c72_too_many (dbg : bool) n (ord : nat -> seq nat) : \sum_(i < n) i < 256 ^ 4 ->
  (forall p, p < n -> perm_eq (ord p) (iota 0 n)) ->
  exists (N : nat) (d : cfg unit), [/\ final d,
    forall p, p < n -> nth PHalt (procs d) p =
      PRet (if [forall q : 'I_n, (q != p :> nat) ==> (q < 256)] then Ok tt else Panic) &
    forall s c, all clean s ->
      run s (init (mkseq (fun p => test_multiplexing dbg (\sum_(i < n) i) p (ord p)) n)) = Some c ->
      exists s', [/\ all clean s', run s' c = Some d & size s + size s' = N]].
Proof.
move=> sB ordP.
have [d [s0 cs0 R0] E] := @all_run _ n ord (fun p => check_sums dbg (\sum_(i < n) i) p) ordP.
exists (size s0), d; split; first exact: final_ret E.
  move=> p pn; rewrite E nth_mkseq // (check_sumsE _ pn sB (ordP p pn)) /rassert; congr PRet.
  suff -> : all (fun q => (q == p) || (q < 256)) (iota 0 n) = [forall q : 'I_n, (q != p :> nat) ==> (q < 256)] by [].
  apply/allP/forallP => [H q|H q]; last first.
    by rewrite mem_iota => /andP[_ qn]; have := H (Ordinal qn); rewrite implyNb.
  by rewrite implyNb; apply: H; rewrite mem_iota /= add0n.
move=> s c cs R.
have S : separate_cfg (init (mkseq (fun p => test_multiplexing dbg (\sum_(i < n) i) p (ord p)) n)).
  move=> p; rewrite [procs _]/=; case: (ltnP p n) => pn; last by rewrite nth_default ?size_mkseq.
  by rewrite nth_mkseq //; exact: separate_P.
have [s' [cs' R' Es]] := run_confluent S cs0 cs R0 (final_ret E) R.
by exists s'.
Qed.

(** C72: [add_protocol_inner] of prod.rs: every party gets the sum of all identifiers modulo 2^32,
    in every schedule, so the final assertion holds *)
Lemma c72_add_protocol (dbg : bool) n sid ord : 0 < n <= 256 ^ 4 -> hash_ok ord ->
  (dbg -> \sum_(i < n) i < 256 ^ 4) ->
  exists expected, [/\ expected_sum dbg n = Ok expected,
    every_schedule (mkseq (fun p => pthread sid (add_protocol dbg n p ord)) n) predT (fun _ => expected) &
    add_protocol_check expected (mkseq (fun _ => expected) n)].
Proof.
move=> /andP[n0 nB] ordP Hd; exists ((\sum_(i < n) i) %% 256 ^ 4); split; first exact: expected_ok.
  set e := _ %% _; have le : e < 256 ^ 4 by rewrite ltn_pmod // expn_gt0.
  apply: prog_schedules => //.
  set outs := nseq n (enc u32_codec e).
  have no i : i < n -> nth [::] outs i = enc u32_codec e by move=> il; rewrite nth_nseq il.
  pose P1 p := if p == 0 then sends (nth [::] outs) (iota 1 n.-1) (CRet (Ok e))
               else CRecv 0 (fun b => clift (ModelNet.decode u32_codec b)).
  case E: (csokr_ser u32_codec n 0 ord 0 0) => [|||st K|] //.
  have Est : st = nseq n None by move: E => [<-].
  rewrite Est in E.
  have E' : add_protocol dbg n 0 ord = CGather (nseq n None) (fun st => cbind (K st) (fun king_recv =>
    match king_recv with
    | Some rs =>
      do! _ := clift (rassert (0 == 0)) in
      do! sum := clift (foldM (u32_add dbg) 0 (ModelNet.shares rs)) in
      do! _ := client_receive_or_king_send n 0 (Some (nseq n (enc u32_codec sum))) in
      CRet (Ok sum)
    | None =>
      do! _ := clift (rassert (0 != 0)) in
      do! b := client_receive_or_king_send n 0 None in
      clift (ModelNet.decode u32_codec b)
    end)) by rewrite /add_protocol E.
  apply: (@KP_gather _ _ _ _ _ (fun p => enc u32_codec p) _ P1 E').
  - by move=> p /andP[p0 pn]; case: p p0 pn.
  - move=> d dd; have d0 : d != 0 by lia.
    rewrite (@csokr_king _ u32_codec n ord id 0 d K n0 d0 ordP _ _ E) //; last first.
      by move=> i il; apply: u32K; apply: leq_trans nB.
    rewrite /received_from ltnNge dd; cbn [negb cbind clift rassert eq_op ModelNet.shares].
    have -> : mkseq id n = iota 0 n by rewrite /mkseq map_id.
    have Es : sumn (iota 0 n) = \sum_(i < n) i by rewrite sumnE -(big_mkord xpredT id) /index_iota subn0.
    rewrite /rassert eqxx; cbn [cbind clift]; rewrite (u32_fold u32_gt0) ?add0n ?Es // -/e; cbn [cbind clift].
    rewrite -/outs crokss_king ?size_nseq //; last by move=> i il; rewrite !no.
    by rewrite !cbind_sends.
  apply: (@KP_scatter _ _ _ _ _ (nth [::] outs) (fun p b => clift (ModelNet.decode u32_codec b)) (fun _ => CRet (Ok e))) => //.
  - by move=> p pI; rewrite /P1; have -> : (p == 0) = false by lia.
  - by move=> p /andP[_ pn]; rewrite no // u32K.
  by apply: KP_ret.
by rewrite /add_protocol_check all_map; apply/allP => i _ /=.
Qed.
