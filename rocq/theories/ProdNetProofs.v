(** The production network simulates the network whose nodes are the ids. *)
From mathcomp Require Import all_ssreflect.
From mathcomp Require Import zify.
From Verif Require Import Base ModelNet ModelSetup ModelProdNet SpecNet SpecProdNet NetProofs KingProofs.
Set Implicit Arguments.
Unset Strict Implicit.
Unset Printing Implicit Defensive.

Section Renaming.
Variables (n : nat) (peers : seq (nat * nat)) (ids : nat -> nat).
Hypothesis n0 : 0 < n.
Hypothesis Hids : perm_eq [seq ids c | c <- iota 1 n.-1] (iota 1 n.-1).
Hypothesis Hpeers : perm_eq peers [seq (ids c, c) | c <- iota 1 n.-1].

(** the id of a node *)
Definition tau (q : nat) : nat := if 0 < q < n then ids q else q.
Definition sig (id : nat) : nat := if 0 < id < n then addr n peers id else id.

Lemma ids_range q : 0 < q < n -> 0 < ids q < n.
Proof.
move=> lq; have : ids q \in iota 1 n.-1.
  by rewrite -(perm_mem Hids); apply: map_f; rewrite mem_iota; lia.
by rewrite mem_iota; lia.
Qed.

Lemma ids_inj q q' : 0 < q < n -> 0 < q' < n -> ids q = ids q' -> q = q'.
Proof.
move=> lq lq' E; have U : uniq [seq ids c | c <- iota 1 n.-1] by rewrite (perm_uniq Hids) iota_uniq.
have N i : 0 < i < n -> nth 0 [seq ids c | c <- iota 1 n.-1] i.-1 = ids i.
  by move=> li; rewrite (nth_map 0) ?size_iota ?nth_iota; try lia; congr ids; lia.
have := nth_uniq 0 _ _ U; rewrite size_map size_iota => /(_ q.-1 q'.-1).
rewrite !N // E eqxx => H; have := H _ _; lia.
Qed.

Lemma ids_surj id : 0 < id < n -> exists2 q, 0 < q < n & ids q = id.
Proof.
move=> li; have : id \in [seq ids c | c <- iota 1 n.-1] by rewrite (perm_mem Hids) mem_iota; lia.
by case/mapP=> q; rewrite mem_iota => lq ->; exists q => //; lia.
Qed.

Lemma addr_ids q : 0 < q < n -> addr n peers (ids q) = q.
Proof.
move=> lq; rewrite /addr; set s := [seq e <- peers | e.1 == ids q].
have Es e : e \in s -> e = (ids q, q).
  rewrite mem_filter (perm_mem Hpeers) => /andP[/eqP E /mapP[c]]; rewrite mem_iota => lc Ee.
  by rewrite Ee /= in E *; have -> : c = q by apply: ids_inj => //; lia.
have : (ids q, q) \in s.
  by rewrite mem_filter eqxx (perm_mem Hpeers); apply: map_f; rewrite mem_iota; lia.
by case: s Es => // e s Es _; rewrite /= (Es e) // inE eqxx.
Qed.

Lemma addr_none id : ~~ (0 < id < n) -> addr n peers id = n.
Proof.
move=> Ni; rewrite /addr (_ : [seq e <- peers | _] = [::]) //.
apply/eqP; rewrite -(negbK (_ == _)) -has_filter; apply/hasPn => e.
rewrite (perm_mem Hpeers) => /mapP[c]; rewrite mem_iota => lc -> /=.
by apply/eqP=> E; move: Ni; rewrite -E ids_range //; lia.
Qed.

Lemma tau0 : tau 0 = 0. Proof. by []. Qed.
Lemma tau_lt q : (tau q < n) = (q < n).
Proof. by rewrite /tau; case: ifP => // lq; have := ids_range lq; lia. Qed.
Lemma tau_gt0 q : (0 < tau q) = (0 < q).
Proof. by rewrite /tau; case: ifP => // lq; have := ids_range lq; lia. Qed.
Lemma sigK id : tau (sig id) = id.
Proof.
rewrite /sig; case: ifP => li; last by rewrite /tau li.
by have [q lq <-] := ids_surj li; rewrite addr_ids // /tau lq.
Qed.
Lemma tauK q : sig (tau q) = q.
Proof.
rewrite {1}/tau; case: ifP => lq; last by rewrite /sig lq.
by rewrite /sig ids_range // addr_ids.
Qed.
Lemma tau_inj : injective tau. Proof. exact: can_inj tauK. Qed.
Lemma tau_eq p q : (tau p == tau q) = (p == q). Proof. by rewrite (inj_eq tau_inj). Qed.
Lemma tau_eq0 q : (tau q == 0) = (q == 0). Proof. by rewrite -{1}tau0 tau_eq. Qed.
Lemma addr_sig id : 0 < id < n -> addr n peers id = sig id. Proof. by rewrite /sig => ->. Qed.
Lemma sig_lt id : (sig id < n) = (id < n). Proof. by rewrite -tau_lt sigK. Qed.
Lemma sig_gt0 id : (0 < sig id) = (0 < id). Proof. by rewrite -tau_gt0 sigK. Qed.

Lemma id_at_tau q : q < n -> id_at n peers q = tau q.
Proof.
move=> lq; rewrite /id_at; case: eqP => [->//|q0].
have lq' : 0 < q < n by lia.
have Nth i : i < n.-1 -> nth 0 (iota 1 n.-1) i = i.+1 by move=> li; rewrite nth_iota.
have H : has (fun id => addr n peers id == q) (iota 1 n.-1).
  apply/hasP; exists (ids q); last by rewrite addr_ids.
  by rewrite mem_iota; have := ids_range lq'; lia.
have lf := H; rewrite has_find size_iota in lf.
have := nth_find 0 H; rewrite Nth // => /eqP E.
have li : 0 < (find (fun id => addr n peers id == q) (iota 1 n.-1)).+1 < n by lia.
by rewrite addr_sig // in E; rewrite -{2}E sigK.
Qed.

Lemma to_idsK st : size st = n -> to_ids n peers (to_conns n peers st) = st.
Proof.
move=> sz; apply: (@eq_from_nth _ None); rewrite size_mkseq ?sz // => i li.
rewrite nth_mkseq //; case: eqP => [->|i0]; first by rewrite nth_mkseq.
have li' : 0 < i < n by lia.
by rewrite addr_sig // nth_mkseq ?sig_lt // id_at_tau ?sig_lt // sigK.
Qed.

Lemma to_conns_set st q b : size st = n -> 0 < q < n ->
  to_conns n peers (set_nth None st (tau q) b) = set_nth None (to_conns n peers st) q b.
Proof.
move=> sz lq; have sq : size (set_nth None (to_conns n peers st) q b) = n.
  by rewrite size_set_nth size_mkseq; lia.
apply: (@eq_from_nth _ None); rewrite size_mkseq ?sq // => i li.
rewrite nth_mkseq // nth_set_nth nth_set_nth /= nth_mkseq // id_at_tau //.
by rewrite tau_eq.
Qed.

(** ** threads *)
Definition tbl (q : nat) := if q == 0 then peers else peer_table.
Definition ok B (q : nat) (t : cproc B) : Prop := if q == 0 then collects n t else talks_to_king t.

Definition tkind (a : kind) : kind := if a is KArrive q then KArrive (tau q) else a.
Definition tqop (o : qop) : qop :=
  match o with QNone => QNone | QPush to b => QPush (tau to) b | QPop f => QPop (tau f) end.

Lemma tstep_over B q rd rd' (gone gone' : nat -> bool) a (t : cproc B) : q < n -> ok q t ->
  (forall c, c < n -> rd' c = rd (tau c)) -> (forall c, c < n -> gone' c = gone (tau c)) ->
  match tstep n (tau q) rd gone (tkind a) t, tstep n q rd' gone' a (over n (tbl q) t) with
  | Some (t1, o1), Some (t2, o2) => [/\ t2 = over n (tbl q) t1, o1 = tqop o2 & ok q t1]
  | None, None => True
  | _, _ => False
  end.
Proof.
move=> lq; rewrite /ok /tbl; case: (altP (q =P 0)) => [->|q0] H Hr Hg.
  rewrite tau0; case: t H => [r|to b k|from k|st k|] //=; case: a => [|id| | |] //=.
  - case: (boolP (0 < to < n)) => lt H.
      rewrite addr_sig // sig_lt -!lt0n sig_gt0.
      have -> : (to < n) && (0 < to) by lia.
      by split=> //=; rewrite sigK.
    by rewrite addr_none // ltnn /= -lt0n andbC (negPf lt); split.
  - case: (boolP (0 < from < n)) => lt H.
      rewrite addr_sig // sig_lt -!lt0n sig_gt0.
      have -> : (from < n) && (0 < from) by lia.
      rewrite (Hr (sig from)) ?sigK; last by rewrite sig_lt; lia.
      by case: (rd from) => // b _; split=> //=; rewrite sigK.
    by rewrite addr_none // ltnn /= -lt0n andbC (negPf lt); split.
  - case=> sz Hk; rewrite tau_lt tau_gt0 tau_eq0; case: (boolP (0 < id < n)) => //= lt.
    have -> : nth None (to_conns n peers st) id = nth None st (tau id).
      by rewrite nth_mkseq ?id_at_tau //; lia.
    case: eqP => //= _; case: ifP => // _; rewrite Hr; last by lia.
    case: (rd (tau id)) => // b _; split=> //; first by rewrite /= to_conns_set.
    by split=> //; rewrite size_set_nth sz; have := tau_lt id; lia.
  - case=> sz Hk.
    have -> : all (fun id => [|| id == 0, isSome (nth None (to_conns n peers st) id)
                              | gone' id && nilp (rd' id)]) (iota 1 n.-1) =
              all (fun id => [|| id == 0, isSome (nth None st id) | gone id && nilp (rd id)])
                (iota 1 n.-1).
      rewrite -[RHS](perm_all _ Hids) all_map; apply: eq_in_all => i; rewrite mem_iota => li /=.
      have [li' lin] : 0 < i < n /\ i < n by lia.
      have Et : ids i = tau i by rewrite /tau li'.
      by rewrite Hg // Hr // nth_mkseq // id_at_tau // Et tau_eq0.
    by case: ifP => // _; rewrite to_idsK //; split=> //; apply: Hk.
  - by case=> sz Hk; rewrite to_idsK //; split=> //; apply: Hk.
have E0 : addr n peer_table 0 = 0 by [].
have q0' : (0 != tau q) = true by rewrite eq_sym tau_eq0.
have q0'' : (0 != q) = true by rewrite eq_sym.
case: t H => [r|to b k|from k|st k|] //=; case: a => [|id| | |] //=.
- by case=> -> H; rewrite E0 n0 q0' q0''; split.
- case=> -> H; rewrite E0 n0 q0' q0'' Hr // tau0 /=.
  by case: (rd 0) => // b _; split=> //; apply: H.
Qed.

(** ** parties *)
Definition pok A (q : nat) (x : pproc A) : Prop := all_threads (fun B => @ok B q) x.
Definition tlaction (a : laction) : laction := if a is LThread j k then LThread j (tkind k) else a.

Lemma nth_over B q (ts : seq (nat * cproc B)) j :
  nth (0, CHalt) [seq (st.1, over n (tbl q) st.2) | st <- ts] j =
  ((nth (0, CHalt) ts j).1, over n (tbl q) (nth (0, CHalt) ts j).2).
Proof.
case: (ltnP j (size ts)) => lj; first by rewrite (nth_map (0, CHalt)).
by rewrite !nth_default ?size_map.
Qed.

Lemma results_over B q (ts : seq (nat * cproc B)) :
  results [seq (st.1, over n (tbl q) st.2) | st <- ts] = results ts.
Proof. by elim: ts => [|[sid t] ts IH] //=; case: t => [[v|e|]|? ? ?|? ?|? ?|] //=; rewrite IH. Qed.

Lemma pstep_over A q rd rd' (gone gone' : nat -> nat -> bool) a (x : pproc A) : q < n -> pok q x ->
  (forall sid c, c < n -> rd' sid c = rd sid (tau c)) ->
  (forall sid c, c < n -> gone' sid c = gone sid (tau c)) ->
  match pstep n (tau q) rd gone (tlaction a) x, pstep n q rd' gone' a (pover n (tbl q) x) with
  | Some (x1, (s1, o1)), Some (x2, (s2, o2)) =>
      [/\ x2 = pover n (tbl q) x1, s1 = s2, o1 = tqop o2 & pok q x1]
  | None, None => True
  | _, _ => False
  end.
Proof.
move=> lq H Hr Hg; case: x H => [r|B ts k|] //= [Ht Hk]; case: a => [j a| |j] //=.
- rewrite size_map; case: ifP => // lj; rewrite nth_over.
  have := Ht j lj; case Ej: (nth (0, CHalt) ts j) => [sid t] /= Hj.
  have := tstep_over a lq Hj (Hr sid) (Hg sid).
  case: (tstep _ _ _ _ _ t) => [[t1 o1]|]; case: (tstep _ _ _ _ _ _) => [[t2 o2]|] //=.
  case=> -> -> Ho; split=> //.
    congr PJoin; apply: (@eq_from_nth _ (0, CHalt)).
      by rewrite !size_map !size_set_nth size_map.
    by move=> i _; rewrite nth_over !nth_set_nth /= nth_over; case: eqP.
  split=> // i; rewrite size_set_nth nth_set_nth /= => li; case: eqP => // ni; apply: Ht.
  by move: li; lia.
- by rewrite results_over; case: (results ts) => [rs|] //; split=> //; apply: Hk.
- rewrite nth_over; case: (nth (0, CHalt) ts j) => sid t /=.
  by case: t => [[v|e|]|? ? ?|? ?|? ?|] //=; split.
Qed.

Lemma silent_over A q (x : pproc A) sid : silent (pover n (tbl q) x) sid = silent x sid.
Proof.
case: x => //= B ts k; rewrite !has_map; congr (_ && ~~ _); apply: eq_has => -[s t] /=.
  by case: t => [[]|? ? ?|? ?|? ?|].
by case: t => [[]|? ? ?|? ?|? ?|].
Qed.

(** ** configurations *)
Definition taction (a : action) : action := (tau a.1, tlaction a.2).
Definition same A (c c' : cfg A) : Prop :=
  [/\ size (procs c) = n, size (procs c') = n,
      forall q, q < n -> nth PHalt (procs c') q = pover n (tbl q) (nth PHalt (procs c) (tau q)),
      forall q, q < n -> pok q (nth PHalt (procs c) (tau q)) &
      forall sid f t, f < n -> t < n -> queue c' sid f t = queue c sid (tau f) (tau t)].

Lemma queue_apply A (ps : seq (pproc A)) p o q sid f t : size ps = n -> p < n -> f < n -> t < n ->
  (forall s g, o = (s, QPop g) -> g < n) -> (forall s g b, o = (s, QPush g b) -> g < n) ->
  queue (Cfg ps (apply_q n p o q)) sid f t =
  match o with
  | (s, QPush g b) => if [&& s == sid, p == f & g == t] then rcons (nth [::] q (qidx n sid f t)) b
                      else nth [::] q (qidx n sid f t)
  | (s, QPop g) => if [&& s == sid, g == f & p == t] then behead (nth [::] q (qidx n sid f t))
                   else nth [::] q (qidx n sid f t)
  | _ => nth [::] q (qidx n sid f t)
  end.
Proof. by move=> sp *; rewrite -nth_apply_q // -sp. Qed.

Lemma step_over A (c c' : cfg A) a : same c c' ->
  match step (taction a) c, step a c' with
  | Some d, Some d' => same d d'
  | None, None => True
  | _, _ => False
  end.
Proof.
case=> sc sc' Hp Hok Hq; case: a => q la; rewrite /step /taction /= sc sc'.
case: (ltnP q n) => lq; last first.
  by rewrite !nth_default ?sc ?sc' //= leqNgt tau_lt -leqNgt.
rewrite Hp //.
have H := @pstep_over A q (fun sid from => queue c sid from (tau q)) (fun sid from => queue c' sid from q)
  (fun sid id => silent (nth PHalt (procs c) id) sid) (fun sid id => silent (nth PHalt (procs c') id) sid)
  la (nth PHalt (procs c) (tau q)) lq (Hok q lq) _ _.
have {H} := H (fun sid f lf => Hq sid f q lf lq).
have Hs sid i : i < n ->
    silent (nth PHalt (procs c') i) sid = silent (nth PHalt (procs c) (tau i)) sid.
  by move=> li; rewrite Hp // silent_over.
move=> /(_ Hs).
case E1: (pstep _ _ _ _ _ (nth _ _ (tau q))) => [[x1 [s1 o1]]|];
  case E2: (pstep _ _ _ _ _ (pover _ _ _)) => [[x2 [s2 o2]]|] //; cbv beta iota => -[Ex Es Eo Hx].
have lt : tau q < n by rewrite tau_lt.
have S1 : size (set_nth PHalt (procs c) (tau q) x1) = n by rewrite size_set_nth sc; lia.
have S2 : size (set_nth PHalt (procs c') q x2) = n by rewrite size_set_nth sc'; lia.
split=> //.
- by move=> p lp; rewrite /= !nth_set_nth /= tau_eq; case: eqP => [->|_] //; apply: Hp.
- by move=> p lp; rewrite /= nth_set_nth /= tau_eq; case: eqP => [->|_] //; apply: Hok.
move=> sid f t lf lt'.
have [P1 Q1] : (forall s f, (s1, o1) = (s, QPop f) -> f < n) /\ (forall s t b, (s1, o1) = (s, QPush t b) -> t < n).
  split=> [s g Eg|s g b Eg].
    by have [] := pstep_pop (etrans E1 (congr1 (fun o => Some (x1, o)) Eg)).
  by have [] := pstep_push (etrans E1 (congr1 (fun o => Some (x1, o)) Eg)).
have [P2 Q2] : (forall s f, (s2, o2) = (s, QPop f) -> f < n) /\ (forall s t b, (s2, o2) = (s, QPush t b) -> t < n).
  split=> [s g Eg|s g b Eg].
    by have [] := pstep_pop (etrans E2 (congr1 (fun o => Some (x2, o)) Eg)).
  by have [] := pstep_push (etrans E2 (congr1 (fun o => Some (x2, o)) Eg)).
rewrite !queue_apply ?tau_lt //; move: (Hq sid f t lf lt'); rewrite /queue sc sc' => Eq.
by rewrite Es Eo; case: o2 {E2 P2 Q2 Eo} => [|g b|g] //=; rewrite !tau_eq Eq.
Qed.

Lemma clean_taction a : clean (taction a) = clean a.
Proof. by case: a => q [j []| |]. Qed.

Lemma taction_onto a : exists a', taction a' = a.
Proof.
case: a => p la; exists (sig p, if la is LThread j (KArrive q) then LThread j (KArrive (sig q)) else la).
by rewrite /taction /= sigK; case: la => [j []| |] //= q; rewrite sigK.
Qed.

Lemma run_over A s (c c' d : cfg A) : same c c' -> run s c = Some d ->
  exists s' d', [/\ [seq taction a | a <- s'] = s, run s' c' = Some d' & same d d'].
Proof.
elim: s c c' => [|a s IH] c c' R /=; first by case=> <-; exists [::], c'; split.
have [a' Ea] := taction_onto a; have := step_over a' R; rewrite Ea.
case: (step a c) => // c1; case E: (step a' c') => [c1'|] // R1 /(IH _ _ R1)[s' [d' [Es Rs Rd]]].
by exists (a' :: s'), d'; split=> //=; rewrite ?Ea ?Es ?E.
Qed.

Lemma run_over' A s' (c c' d' : cfg A) : same c c' -> run s' c' = Some d' ->
  exists2 d, run [seq taction a | a <- s'] c = Some d & same d d'.
Proof.
have Er a s (e : cfg A) : run (a :: s) e = if step a e is Some e' then run s e' else None by [].
elim: s' c c' => [|a s IH] c c' R; first by case=> <-; exists c.
rewrite map_cons !Er; have := step_over a R; case: (step (taction a) c) => [c1|]; case: (step a c') => [c1'|] // R1 //.
exact: IH R1.
Qed.

Lemma same_init A (P : nat -> pproc A) : star_shaped n P ->
  same (init (mkseq P n)) (init (prod_net n peers ids P)).
Proof.
case=> H0 H1; split; rewrite /= ?size_mkseq // => q lq.
- rewrite !nth_mkseq ?tau_lt // /tbl; case: eqP => [->|q0] //.
  by congr (pover _ _ (P _)); rewrite /tau; case: ifP => //; lia.
- rewrite nth_mkseq ?tau_lt // /pok /ok; case: (altP (q =P 0)) => [->|q0]; first exact: H0.
  by apply: H1; rewrite tau_lt tau_gt0; lia.
- by move=> *; rewrite /queue /= !nth_nil.
Qed.

Lemma separate_pover A tb (x : pproc A) : separate x -> separate (pover n tb x).
Proof.
by elim: x => //= B ts k IH [U S]; split=> [|rs]; [rewrite -map_comp|apply: IH].
Qed.

End Renaming.
