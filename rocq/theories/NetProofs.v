(** Proofs about the network model: the order of independent steps does not matter. *)
From mathcomp Require Import all_ssreflect.
From mathcomp Require Import zify.
From Verif Require Import Base ModelNet.
Set Implicit Arguments.
Unset Strict Implicit.
Unset Printing Implicit Defensive.

Lemma qidx_inj n s1 f1 t1 s2 f2 t2 : f1 < n -> t1 < n -> f2 < n -> t2 < n ->
  qidx n s1 f1 t1 = qidx n s2 f2 t2 -> [/\ s1 = s2, f1 = f2 & t1 = t2].
Proof.
rewrite /qidx => f1n t1n f2n t2n H.
have E1 : s1 * n + f1 = s2 * n + f2.
  have := congr1 (fun x => x %/ n) H.
  by rewrite !divnMDl ?(divn_small t1n) ?(divn_small t2n) ?addn0; lia.
have Et : t1 = t2 by move: H; rewrite E1; lia.
have Es : s1 = s2.
  have := congr1 (fun x => x %/ n) E1.
  by rewrite !divnMDl ?(divn_small f1n) ?(divn_small f2n) ?addn0; lia.
by split => //; move: E1; rewrite Es; lia.
Qed.

(** a step of a thread does not need more of the queues than the messages at their heads *)
Lemma tstep_frame B n me rd rd' (gone gone' : nat -> bool) a (t : cproc B) r :
  (forall id b q, id < n -> id != me -> rd id = b :: q -> exists q', rd' id = b :: q') ->
  (forall id, id < n -> id != me -> gone id -> rd id = [::] -> gone' id /\ rd' id = [::]) ->
  tstep n me rd gone a t = Some r -> tstep n me rd' gone' a t = Some r.
Proof.
move=> Hh Hg; case: t a => [v|to b k|from k|st k|] [|id||| ] //=.
- case: ifP => // /andP[H1 H2]; case E: (rd from) => [|b q] // [<-].
  by have [q' ->] := Hh _ _ _ H1 H2 E.
- case: ifP => // /andP[/andP[/andP[_ H1] H2] _]; case E: (rd id) => [|b q] // [<-].
  by have [q' ->] := Hh _ _ _ H1 H2 E.
case: ifP => // /allP H [<-]; case: ifP => // /allP[] id idI.
case/or3P: (H _ idI) => [->|->|/andP[g /nilP e]] //; first by rewrite orbT.
case: (altP (id =P me)) => //= idme; move: idI; rewrite mem_iota => idI.
have idn : id < n by lia.
by have [-> ->] := Hg _ idn idme g e; rewrite orbT.
Qed.

Lemma pstep_frame A n me rd rd' (gone gone' : nat -> nat -> bool) a (x : pproc A) r :
  (forall sid id b q, id < n -> id != me -> rd sid id = b :: q ->
     exists q', rd' sid id = b :: q') ->
  (forall sid id, id < n -> id != me -> gone sid id -> rd sid id = [::] ->
     gone' sid id /\ rd' sid id = [::]) ->
  pstep n me rd gone a x = Some r -> pstep n me rd' gone' a x = Some r.
Proof.
move=> Hh Hg; case: x => [v|B ts k|] //=; case: a => [j a|//|//].
case: ifP => // _; case: (nth _ ts j) => sid t.
case E: (tstep _ _ _ _ _ _) => [[t' op]|] //.
by rewrite (tstep_frame (Hh sid) (Hg sid) E).
Qed.

(** what a thread pops is there, what it pushes goes to another party *)
Lemma tstep_pop B n me rd gone a (t t' : cproc B) from :
  tstep n me rd gone a t = Some (t', QPop from) ->
  [/\ from < n, from != me & exists b q, rd from = b :: q].
Proof.
case: t a => [v|to b k|fr k|st k|] [|id||| ] //=.
- by case: ifP.
- case: ifP => // /andP[H1 H2]; case E: (rd fr) => [|b q] // [_ <-].
  by split => //; exists b, q.
- case: ifP => // /andP[/andP[/andP[_ H1] H2] _]; case E: (rd id) => [|b q] // [_ <-].
  by split => //; exists b, q.
by case: ifP.
Qed.

Lemma tstep_push B n me rd gone a (t t' : cproc B) to b :
  tstep n me rd gone a t = Some (t', QPush to b) -> [/\ to < n, to != me & running t].
Proof.
case: t a => [v|to' b' k|fr k|st k|] [|id||| ] //=.
- by case: ifP => // /andP[H1 H2] [_ <- _].
- by case: ifP => // _; case: (rd fr).
- by case: ifP => // _; case: (rd id).
by case: ifP.
Qed.

Lemma tstep_running B n me rd gone a (t t' : cproc B) op :
  tstep n me rd gone a t = Some (t', op) -> running t.
Proof. by case: t a => [v|to' b' k|fr k|st k|] [|id||| ]. Qed.

Lemma pstep_pop A n me rd gone a (x x' : pproc A) sid from :
  pstep n me rd gone a x = Some (x', (sid, QPop from)) ->
  [/\ from < n, from != me & exists b q, rd sid from = b :: q].
Proof.
case: x => [v|B ts k|] //=; case: a => [j a||j] //=.
- case: ifP => // _; case: (nth _ ts j) => s t.
  case E: (tstep _ _ _ _ _ _) => [[t' op]|] // [_ Es Eo]; move: E; rewrite Es Eo.
  exact: tstep_pop.
- by case: results.
by case: (nth _ ts j) => s [[|e|]|to b k'|fr k'|st k'|].
Qed.

(** a party that is silent on a stream pushes nothing there and stays silent *)
Lemma pstep_push A n me rd gone a (x x' : pproc A) sid to b :
  pstep n me rd gone a x = Some (x', (sid, QPush to b)) ->
  [/\ to < n, to != me & ~~ silent x sid].
Proof.
case: x => [v|B ts k|] //=; case: a => [j a||j] //=.
- case: ifP => // jts; case N: (nth _ ts j) => [s t].
  case E: (tstep _ _ _ _ _ _) => [[t' op]|] // [_ Es Eo]; move: E; rewrite Es Eo => E.
  have [H1 H2 H3] := tstep_push E; split => //; rewrite negb_and negbK; apply/orP; right.
  by apply/(has_nthP (0, CHalt)); exists j => //; rewrite N /= Es eqxx.
- by case: results.
by case: (nth _ ts j) => s [[|e|]|? ? k'|fr k'|st k'|].
Qed.

Lemma results_nth B (ts : seq (nat * cproc B)) rs j : results ts = Some rs -> j < size ts ->
  exists b, (nth (0, CHalt) ts j).2 = CRet (Ok b).
Proof.
elim: ts rs j => [|[s t] ts IH] rs j //=; case: t => [[b|e|]|? ? ?|? ?|? ?|] //.
case E: (results ts) => [rs'|] // _; case: j => [|j] /= H; first by exists b.
exact: IH E _.
Qed.

Lemma results_stopped B (ts : seq (nat * cproc B)) rs : results ts = Some rs ->
  has (fun st => stopped st.2) ts = false.
Proof.
elim: ts rs => [|[s t] ts IH] rs //=; case: t => [[b|e|]|? ? ?|? ?|? ?|] //.
by case E: (results ts) => [rs'|] // _; rewrite (IH _ E).
Qed.

Lemma has_set_nth T (x0 : T) (P : pred T) (s : seq T) j y : j < size s ->
  has P (set_nth x0 s j y) = [|| has P (take j s), P y | has P (drop j.+1 s)].
Proof. by move=> jn; rewrite set_nthE jn has_cat /=. Qed.

Lemma has_nth_split T (x0 : T) (P : pred T) (s : seq T) j : j < size s ->
  has P s = [|| has P (take j s), P (nth x0 s j) | has P (drop j.+1 s)].
Proof.
by move=> jn; rewrite -{1}(cat_take_drop j s) has_cat (drop_nth x0 jn) /=.
Qed.

Lemma pstep_silent A n me rd gone a (x x' : pproc A) o sid :
  pstep n me rd gone a x = Some (x', o) -> silent x sid -> silent x' sid.
Proof.
case: x => [v|B ts k|] //=; case: a => [j a||j] //=.
- case: ifP => // jts; case N: (nth _ ts j) => [s t].
  case E: (tstep _ _ _ _ _ _) => [[t' op]|] // [<- _] /=.
  rewrite !(has_nth_split (0, CHalt) _ jts) N /= !has_set_nth //=.
  rewrite (tstep_running E) andbT => /andP[H]; rewrite !negb_or => /and3P[H1 H2 H3].
  rewrite H1 (negbTE H2) H3 !andbT /=.
  by case/or3P: H => [->|H|->]; rewrite ?orbT //; move: (tstep_running E) H; case: (t).
- by case E: results => [rs|] //; rewrite (results_stopped E).
by case: (nth _ ts j) => s [[|e|]|? ? k'|fr k'|st k'|] // [<- _].
Qed.

Lemma step_size A a (c c' : cfg A) : step a c = Some c' -> size (procs c') = size (procs c).
Proof.
rewrite /step; case: a => p la; case E: (pstep _ _ _ _ _ _) => [[x o]|] // [<-] /=.
rewrite size_set_nth; apply/maxn_idPr; rewrite ltnNge; apply/negP => H.
by move: E; rewrite nth_default.
Qed.

Lemma pstep_lt A n (ps : seq (pproc A)) p rd gone a r :
  pstep n p rd gone a (nth PHalt ps p) = Some r -> p < size ps.
Proof. by rewrite ltnNge => E; apply/negP => H; move: E; rewrite nth_default. Qed.

(** queue contents after an operation *)
Lemma nth_apply_q n p o q sid from to : p < n -> from < n -> to < n ->
  (forall s f, o = (s, QPop f) -> f < n) -> (forall s t b, o = (s, QPush t b) -> t < n) ->
  nth [::] (apply_q n p o q) (qidx n sid from to) =
  match o with
  | (s, QPush t b) => if [&& s == sid, p == from & t == to]
                      then rcons (nth [::] q (qidx n sid from to)) b
                      else nth [::] q (qidx n sid from to)
  | (s, QPop f) => if [&& s == sid, f == from & p == to]
                   then behead (nth [::] q (qidx n sid from to))
                   else nth [::] q (qidx n sid from to)
  | _ => nth [::] q (qidx n sid from to)
  end.
Proof.
move=> pn fn tn Hpop Hpush; case: o Hpop Hpush => s [|t b|f] //= Hpop Hpush; rewrite nth_set_nth /=.
- have tn' := Hpush _ _ _ erefl; case: eqP => [E|NE].
    by have [-> -> ->] := qidx_inj fn tn pn tn' E; rewrite !eqxx.
  by case: ifP => // /and3P[/eqP E1 /eqP E2 /eqP E3]; case: NE; rewrite E1 E2 E3.
have fn' := Hpop _ _ erefl; case: eqP => [E|NE].
  by have [-> -> ->] := qidx_inj fn tn fn' pn E; rewrite !eqxx.
by case: ifP => // /and3P[/eqP E1 /eqP E2 /eqP E3]; case: NE; rewrite E1 E2 E3.
Qed.

(** operations of different parties commute *)
Lemma apply_q_comm n p1 p2 o1 o2 q : p1 < n -> p2 < n ->
  (forall s f, o1 = (s, QPop f) -> f < n /\ nth [::] q (qidx n s f p1) != [::]) ->
  (forall s f, o2 = (s, QPop f) -> f < n /\ nth [::] q (qidx n s f p2) != [::]) ->
  (forall s t b, o1 = (s, QPush t b) -> t < n) -> (forall s t b, o2 = (s, QPush t b) -> t < n) ->
  (p1 != p2 \/ o1.1 != o2.1 \/
   (forall s f s' f', o1 = (s, QPop f) -> o2 = (s', QPop f') -> f != f') /\
   (forall s t b, o1 <> (s, QPush t b)) /\ (forall s t b, o2 <> (s, QPush t b))) ->
  apply_q n p2 o2 (apply_q n p1 o1 q) = apply_q n p1 o1 (apply_q n p2 o2 q).
Proof.
move=> p1n p2n.
have Hi : forall s f t s' f' t', f < n -> t < n -> f' < n -> t' < n ->
  (qidx n s f t == qidx n s' f' t') = [&& s == s', f == f' & t == t'].
  move=> s f t s' f' t' H1 H2 H3 H4; apply/eqP/and3P => [/(qidx_inj H1 H2 H3 H4)[-> -> ->]//|].
  by case=> /eqP-> /eqP-> /eqP->.
case: o1 => s1 [|t1 b1|f1] //=; case: o2 => s2 [|t2 b2|f2] //= Hp1 Hp2 Hs1 Hs2 D.
- have [t1n t2n] := (Hs1 _ _ _ erefl, Hs2 _ _ _ erefl).
  rewrite !nth_set_nth /= !Hi // set_set_nth Hi //.
  rewrite [s2 == s1]eq_sym [p2 == p1]eq_sym [t2 == t1]eq_sym.
  case: and3P => // -[/eqP E1 /eqP E2 /eqP E3].
  by case: D => [|[|[_ [D _]]]]; [rewrite E2 eqxx|rewrite E1 eqxx|case: (D _ _ _ erefl)].
- have [t1n [f2n ne]] := (Hs1 _ _ _ erefl, Hp2 _ _ erefl).
  rewrite !nth_set_nth /= !Hi // set_set_nth Hi //.
  rewrite [s2 == s1]eq_sym [f2 == p1]eq_sym [p2 == t1]eq_sym.
  case: and3P => // -[/eqP E1 /eqP E2 /eqP E3].
  subst; rewrite [in RHS]set_set_nth eqxx; congr set_nth.
  by move: ne; case: (nth _ q _).
- have [[f1n ne] t2n] := (Hp1 _ _ erefl, Hs2 _ _ _ erefl).
  rewrite !nth_set_nth /= !Hi // set_set_nth Hi //.
  rewrite [s2 == s1]eq_sym [p2 == f1]eq_sym [t2 == p1]eq_sym.
  case: and3P => // -[/eqP E1 /eqP E2 /eqP E3].
  subst; rewrite [in RHS]set_set_nth eqxx; congr set_nth.
  by move: ne; case: (nth _ q _).
have [[f1n ne1] [f2n ne2]] := (Hp1 _ _ erefl, Hp2 _ _ erefl).
rewrite !nth_set_nth /= !Hi // set_set_nth Hi //.
rewrite [s2 == s1]eq_sym [f2 == f1]eq_sym [p2 == p1]eq_sym.
case: and3P => // -[/eqP E1 /eqP E2 /eqP E3].
case: D => [|[|[D _]]]; [by rewrite E3 eqxx|by rewrite E1 eqxx|].
by have := D _ _ _ _ erefl erefl; rewrite E2 eqxx.
Qed.

(** all parties use different streams for concurrent threads *)
Definition separate_cfg A (c : cfg A) := forall p, separate (nth PHalt (procs c) p).

Lemma map_set_nth1 (B : Type) (ts : seq (nat * cproc B)) j s t t' :
  j < size ts -> nth (0, CHalt) ts j = (s, t) ->
  [seq st.1 | st <- set_nth (0, CHalt) ts j (s, t')] = [seq st.1 | st <- ts].
Proof.
move=> jts N; apply: (@eq_from_nth _ 0) => [|i].
  by rewrite !size_map size_set_nth; apply/maxn_idPr.
rewrite size_map size_set_nth => Hi.
have {}Hi : i < size ts by move: Hi; rewrite /maxn; case: ifP => // _; lia.
rewrite (nth_map (0, CHalt)) ?size_set_nth ?(maxn_idPr _) // nth_set_nth /=.
by rewrite (nth_map (0, CHalt)) //; case: eqP => [->|//]; rewrite N.
Qed.

Lemma pstep_separate A n me rd gone a (x x' : pproc A) o :
  pstep n me rd gone a x = Some (x', o) -> separate x -> separate x'.
Proof.
case: x => [v|B ts k|] //=; case: a => [j a||j] //=.
- case: ifP => // jts; case N: (nth _ ts j) => [s t].
  case E: (tstep _ _ _ _ _ _) => [[t' op]|] // [<- _] [U S]; split => //.
  by rewrite (map_set_nth1 _ jts N).
- by case E: results => [rs|] // [<- _] [_]; apply.
by case: (nth _ ts j) => s [[|e|]|? ? k'|fr k'|st k'|] // [<- _].
Qed.

Lemma step_separate A a (c c' : cfg A) : step a c = Some c' -> separate_cfg c -> separate_cfg c'.
Proof.
rewrite /step; case: a => p la; case E: (pstep _ _ _ _ _ _) => [[x o]|] // [<-] H p' /=.
rewrite nth_set_nth /=; case: eqP => // _; exact: pstep_separate E (H p).
Qed.

(** two different clean steps of one party commute *)
Lemma pstep_diamond A n me rd gone a b (x xa xb : pproc A) oa ob :
  separate x -> clean (me, a) -> clean (me, b) -> a <> b ->
  pstep n me rd gone a x = Some (xa, oa) -> pstep n me rd gone b x = Some (xb, ob) ->
  exists y,
    (forall rd' gone', (forall id, id != me -> gone' ob.1 id = gone ob.1 id) ->
       (forall id, id < n -> oa <> (ob.1, QPop id) -> rd' ob.1 id = rd ob.1 id) ->
       pstep n me rd' gone' b xa = Some (y, ob)) /\
    (forall rd' gone', (forall id, id != me -> gone' oa.1 id = gone oa.1 id) ->
       (forall id, id < n -> ob <> (oa.1, QPop id) -> rd' oa.1 id = rd oa.1 id) ->
       pstep n me rd' gone' a xb = Some (y, oa)) /\
    (oa.1 != ob.1 \/
     (forall s f s' f', oa = (s, QPop f) -> ob = (s', QPop f') -> f != f') /\
     (forall s t b, oa <> (s, QPush t b)) /\ (forall s t b, ob <> (s, QPush t b))).
Proof.
case: x => [v|B ts k|] //= [U S] ca cb ab.
have Hcj : forall j k1, isSome (results ts) -> j < size ts ->
    ~ (exists r, tstep n me (rd (nth (0, CHalt) ts j).1) (gone (nth (0, CHalt) ts j).1) k1
      (nth (0, CHalt) ts j).2 = Some r).
  move=> j k1; case E: (results ts) => [rs|] // _ jts [[t' op]].
  by have [v ->] := results_nth E jts.
case: a b ca cb ab => [j ka||j] [j' kb||j'] //= ca cb ab; last first.
- case: results (Hcj j') => [rs|] // H [<- <-]; case: ifP => // jts'; move: (H kb isT jts').
  by case: (nth _ ts j') => [s t] /=; case: (tstep _ _ _ _ _ _) => [r|] // []; exists r.
- move=> /[swap]; case: results (Hcj j) => [rs|] // H [<- <-]; case: ifP => // jts'.
  move: (H ka isT jts').
  by case: (nth _ ts j) => [s t] /=; case: (tstep _ _ _ _ _ _) => [r|] // []; exists r.
case: ifP => // jts; case N: (nth _ ts j) => [s t].
case E: (tstep _ _ _ _ _ _) => [[t' op]|] // [<- <-].
case: ifP => // jts'; case N': (nth _ ts j') => [s' t0].
case E': (tstep _ _ _ _ _ _) => [[t1 op']|] // [<- <-].
case: (altP (j =P j')) => [Ej|jj'].
- (* the same thread *)
  subst j'; move: N'; rewrite N => -[Es Et]; subst s' t0.
  have kk : ka <> kb by move=> Ek; apply: ab; rewrite Ek.
  case: t N E E' => [v|to b0 k'|fr k'|st k'|] N //.
  + by case: (ka) (kb) ca cb kk => [|id1||| ] [|id2||| ].
  + by case: (ka) (kb) ca cb kk => [|id1||| ] [|id2||| ].
  case: ka kb ca cb kk ab => [|id1||| ] [|id2||| ] //= _ _ kk ab.
  * case: ifP => // /andP[/andP[Hn1 Hm1] Hs1].
    case R1: (rd s id1) => [|b1 q1] // [<- <-].
    case: ifP => // /andP[/andP[Hn2 Hm2] Hs2].
    case R2: (rd s id2) => [|b2 q2] // [<- <-].
    have id12 : id1 != id2 by apply/eqP => Ei; apply: kk; rewrite Ei.
    exists (PJoin (set_nth (0, CHalt) ts j
              (s, CGather (set_nth None (set_nth None st id1 (Some b1)) id2 (Some b2)) k')) k).
    split; [|split].
    - move=> rd' gone' _ Hr; rewrite /= size_set_nth (maxn_idPr _) // jts nth_set_nth /= eqxx /=.
      rewrite Hn2 Hm2 nth_set_nth /= eq_sym (negbTE id12) Hs2 /= Hr; last 2 first.
        by lia.
        by case=> /eqP; rewrite (negbTE id12).
      by rewrite R2 set_set_nth eqxx.
    - move=> rd' gone' _ Hr; rewrite /= size_set_nth (maxn_idPr _) // jts nth_set_nth /= eqxx /=.
      rewrite Hn1 Hm1 nth_set_nth /= (negbTE id12) Hs1 /= Hr; last 2 first.
        by lia.
        by case=> /eqP; rewrite eq_sym (negbTE id12).
      rewrite R1 set_set_nth eqxx.
      by rewrite [set_nth _ (set_nth _ _ id2 _) _ _]set_set_nth eq_sym (negbTE id12).
    by right; split => // ? ? ? ? [_ <-] [_ <-].
  * case: ifP => // /andP[/andP[Hn1 Hm1] /negbTE Hs1].
    case R1: (rd s id1) => [|b1 q1] // _; case: ifP => // /allP/(_ id1).
    rewrite mem_iota (negbTE Hm1) Hs1 /= R1 andbF => H.
    by suff : false by []; apply: H; lia.
  * case: ifP => // H _; case: ifP => // /andP[/andP[Hn1 Hm1] /negbTE Hs1].
    case R1: (rd s id2) => [|b1 q1] //; move/allP/(_ id2): H.
    rewrite mem_iota (negbTE Hm1) Hs1 /= R1 andbF => H.
    by suff : false by []; apply: H; lia.
(* different threads *)
have ss' : s != s'.
  have := nth_uniq 0 _ _ U; rewrite !size_map => /(_ j j' jts jts').
  rewrite !(nth_map (0, CHalt)) // N N' /= (negbTE jj') => ->.
  by [].
exists (PJoin (set_nth (0, CHalt) (set_nth (0, CHalt) ts j (s, t')) j' (s', t1)) k).
split; [|split].
- move=> rd' gone' Hg Hr; rewrite /= size_set_nth (maxn_idPr _) // jts' nth_set_nth /=.
  rewrite eq_sym (negbTE jj') N'.
  have -> // : tstep n me (rd' s') (gone' s') kb t0 = Some (t1, op').
  move: E'; apply: tstep_frame => id.
    move=> b q idn idme Er; exists q; rewrite -Er Hr // => -[/eqP].
    by rewrite (negbTE ss').
  move=> idn idme g Er; rewrite Hg // Hr // => -[/eqP].
  by rewrite (negbTE ss').
- move=> rd' gone' Hg Hr; rewrite /= size_set_nth (maxn_idPr _) // jts nth_set_nth /=.
  rewrite (negbTE jj') N.
  have -> // : tstep n me (rd' s) (gone' s) ka t = Some (t', op).
    move: E; apply: tstep_frame => id.
      move=> b q idn idme Er; exists q; rewrite -Er Hr // => -[/eqP].
      by rewrite eq_sym (negbTE ss').
    move=> idn idme g Er; rewrite Hg // Hr // => -[/eqP].
    by rewrite eq_sym (negbTE ss').
  by rewrite [in RHS]set_set_nth (negbTE jj').
by left.
Qed.

Lemma pstep_lts A n me rd gone a (x x' : pproc A) o :
  pstep n me rd gone a x = Some (x', o) ->
  (forall s f, o = (s, QPop f) -> f < n /\ rd s f != [::]) /\ (forall s t b, o = (s, QPush t b) -> t < n).
Proof.
move=> E; split=> s.
  by move=> f Eo; subst o; have [fn _ [b [q Er]]] := pstep_pop E; rewrite Er.
by move=> t b Eo; subst o; have [] := pstep_push E.
Qed.

Lemma diamond A a b (c ca cb : cfg A) : separate_cfg c -> clean a -> clean b -> a <> b ->
  step a c = Some ca -> step b c = Some cb ->
  exists d, step b ca = Some d /\ step a cb = Some d.
Proof.
move=> S cla clb ab; rewrite /step; case: a b cla clb ab => [p a] [p' b] cla clb ab.
set n := size (procs c).
case Ea: (pstep _ _ _ _ _ _) => [[xa oa]|] // [<-].
case Eb: (pstep _ _ _ _ _ _) => [[xb ob]|] // [<-] /=.
have [pn p'n] : p < n /\ p' < n by split; [exact: pstep_lt Ea|exact: pstep_lt Eb].
have [popA pushA] := pstep_lts Ea; have [popB pushB] := pstep_lts Eb.
rewrite !size_set_nth !(maxn_idPr _) //; fold n.
have popA' s f : oa = (s, QPop f) -> f < n by case/popA.
have popB' s f : ob = (s, QPop f) -> f < n by case/popB.
have qA sid f t fn tn := @nth_apply_q n p oa (qs c) sid f t pn fn tn popA' pushA.
have qB sid f t fn tn := @nth_apply_q n p' ob (qs c) sid f t p'n fn tn popB' pushB.
rewrite /queue /= !size_set_nth !(maxn_idPr _) //; fold n.
rewrite /queue -/n in popA popB.
case: (altP (p =P p')) => [Ep|pp'].
- (* the same party *)
  subst p'; have nab : a <> b by move=> Eab; apply: ab; rewrite Eab.
  have [y [Hb [Ha D]]] := pstep_diamond (S p) cla clb nab Ea Eb.
  rewrite !nth_set_nth /= !eqxx.
  rewrite Hb; last 2 first.
  + by move=> id idp; rewrite nth_set_nth /= (negbTE idp).
  + move=> id idn Hne; rewrite qA // /queue -/n.
    case: oa Hne Ea {popA pushA popA' Ha D qA Hb} => sa [|t0 b0|f0] // Hne Ea; case: ifP => //.
      case/and3P=> _ _ /eqP Et; subst t0.
      by have [_] := pstep_push Ea; rewrite eqxx.
    by case/and3P=> /eqP Es /eqP Ei _; subst id sa; case: Hne.
  rewrite Ha; last 2 first.
  + by move=> id idp; rewrite nth_set_nth /= (negbTE idp).
  + move=> id idn Hne; rewrite qB // /queue -/n.
    case: ob Hne Eb {popB pushB popB' Ha D qB Hb} => sb [|t0 b0|f0] // Hne Eb; case: ifP => //.
      case/and3P=> _ _ /eqP Et; subst t0.
      by have [_] := pstep_push Eb; rewrite eqxx.
    by case/and3P=> /eqP Es /eqP Ei _; subst id sb; case: Hne.
  eexists; split; first by [].
  have SS z z' : set_nth PHalt (set_nth PHalt (procs c) p z) p z' = set_nth PHalt (procs c) p z'.
    by rewrite set_set_nth eqxx.
  rewrite !SS; congr (Some (Cfg _ _)).
  by symmetry; apply: apply_q_comm => //; right.
(* different parties *)
rewrite !nth_set_nth /= eq_sym (negbTE pp').
have frame : forall p1 p2 a1 a2 x1 x2 o1 o2, p1 != p2 -> p1 < n -> p2 < n ->
  pstep n p1 (fun sid from => queue c sid from p1)
    (fun sid id => silent (nth PHalt (procs c) id) sid) a1 (nth PHalt (procs c) p1) = Some (x1, o1) ->
  pstep n p2 (fun sid from => queue c sid from p2)
    (fun sid id => silent (nth PHalt (procs c) id) sid) a2 (nth PHalt (procs c) p2) = Some (x2, o2) ->
  pstep n p2 (fun sid from => nth [::] (apply_q n p1 o1 (qs c)) (qidx n sid from p2))
    (fun sid id => silent (nth PHalt (set_nth PHalt (procs c) p1 x1) id) sid) a2
    (nth PHalt (procs c) p2) = Some (x2, o2).
  move=> p1 p2 a1 a2 x1 x2 o1 o2 p12 p1n p2n E1.
  have [pop1 push1] := pstep_lts E1.
  have pop1' s f : o1 = (s, QPop f) -> f < n by case/pop1.
  have q1 sid f t fn tn := @nth_apply_q n p1 o1 (qs c) sid f t p1n fn tn pop1' push1.
  apply: pstep_frame => sid id.
    move=> m q idn idp Er; rewrite q1 //; move: Er; rewrite /queue -/n => Er.
    case: (o1) => s1 [|t1 b1|f1]; rewrite Er; [by exists q| |].
      by case: ifP => _ /=; eexists.
    by case: ifP; [rewrite (negbTE p12) !andbF|exists q].
  move=> idn idp g Er; split.
    by rewrite nth_set_nth /=; case: eqP g => // -> g; exact: pstep_silent E1 g.
  rewrite q1 //; move: Er; rewrite /queue -/n => Er.
  case: (o1) E1 => s1 [|t1 b1|f1] E1; rewrite Er //; case: ifP => //.
  case/and3P=> /eqP Es /eqP Ei _; subst s1 id.
  by have [_ _] := pstep_push E1; rewrite g.
rewrite (frame p p' a b xa xb oa ob pp' pn p'n Ea Eb).
rewrite eq_sym in pp'.
rewrite (frame p' p b a xb xa ob oa pp' p'n pn Eb Ea).
eexists; split; first by [].
rewrite set_set_nth (negbTE pp'); congr (Some (Cfg _ _)).
by apply: apply_q_comm => //; left.
Qed.

(** ** All schedules *)

Lemma run_cat A s1 s2 (c : cfg A) :
  run (s1 ++ s2) c = if run s1 c is Some c' then run s2 c' else None.
Proof. by elim: s1 c => //= a s1 IH c; case: step. Qed.

Lemma run_separate A s (c c' : cfg A) : run s c = Some c' -> separate_cfg c -> separate_cfg c'.
Proof.
elim: s c => [|a s IH] c /=; first by case=> <-.
by case E: step => [c1|] // R S; apply: IH R _; apply: step_separate E S.
Qed.

Lemma action_dec (a b : action) : a = b \/ a <> b.
Proof.
case: a b => [p [j k||j]] [p' [j' k'||j']]; try by right; case.
- case: (altP (p =P p')) => [->|/eqP]; last by right; case.
  case: (altP (j =P j')) => [->|/eqP]; last by right; case.
  case: k k' => [|i||| ] [|i'||| ]; try by right; case.
  + by left.
  + by case: (altP (i =P i')) => [->|/eqP]; [left|right; case].
  + by left.
  + by left.
  by left.
- by case: (altP (p =P p')) => [->|/eqP]; [left|right; case].
case: (altP (p =P p')) => [->|/eqP]; last by right; case.
by case: (altP (j =P j')) => [->|/eqP]; [left|right; case].
Qed.

(** a single step can be moved to the front of a complete schedule *)
Lemma run_exchange A s a (c c' d : cfg A) : separate_cfg c -> all clean s -> clean a ->
  run s c = Some d -> (forall b, clean b -> step b d = None) -> step a c = Some c' ->
  exists s', [/\ all clean s', run s' c' = Some d & size s = (size s').+1].
Proof.
elim: s c c' => [|b s IH] c c' S /=; first by move=> _ ca [<-] T; rewrite T.
case/andP=> cb cs ca; case Eb: (step b c) => [cb'|] // R T Ea.
have [Eab|ab] := action_dec a b.
  by exists s; split => //; move: Ea; rewrite Eab Eb => -[<-].
have [e [E1 E2]] := diamond S ca cb ab Ea Eb.
have [s' [cs' R' Es]] := IH _ _ (step_separate Eb S) cs ca R T E2.
by exists (b :: s'); split => //=; rewrite ?cb ?E1 ?Es.
Qed.

(** the schedules of a separate configuration all end alike *)
Lemma run_confluent A s0 s (c c' d : cfg A) : separate_cfg c -> all clean s0 -> all clean s ->
  run s0 c = Some d -> (forall b, clean b -> step b d = None) -> run s c = Some c' ->
  exists s', [/\ all clean s', run s' c' = Some d & size s0 = size s + size s'].
Proof.
elim: s s0 c => [|a s IH] s0 c S cs0 /=.
  by move=> _ R0 T [<-]; exists s0.
case/andP=> ca cs R0 T; case Ea: (step a c) => [c1|] // R.
have [s1 [cs1 R1 E1]] := run_exchange S cs0 ca R0 T Ea.
have [s' [cs' R' E']] := IH s1 c1 (step_separate Ea S) cs1 cs R1 T R.
by exists s'; split => //; rewrite E1 E'.
Qed.
