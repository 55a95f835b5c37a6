(** Every point at which a party can stop is a crash point of [pcrash]. *)
From mathcomp Require Import all_ssreflect.
From mathcomp Require Import zify.
From Verif Require Import Base ModelNet SpecNet NetProofs KingProofs.
Set Implicit Arguments.
Unset Strict Implicit.
Unset Printing Implicit Defensive.

(** threads and parties that never send again *)
Fixpoint quiet B (t : cproc B) : Prop :=
  match t with
  | CSend _ _ _ | CRecv _ _ => False
  | CGather _ k => forall st, quiet (k st)
  | _ => True
  end.

Fixpoint mute A (x : pproc A) : Prop :=
  match x with
  | PJoin B ts k => (forall j, quiet (nth (0, CHalt) ts j).2) /\ forall rs, mute (k rs)
  | _ => True
  end.

Lemma tstep_gone B n me rd (gone gone' : nat -> bool) a (t : cproc B) r :
  (forall id, id != me -> gone id -> gone' id) ->
  tstep n me rd gone a t = Some r -> tstep n me rd gone' a t = Some r.
Proof.
move=> H; case: t => [v|to b k|f k|st k|]; case: a => //=.
case: ifP => // /allP Ha E; rewrite ifT //; apply/allP => id /Ha.
case: eqP => //= /eqP ne /orP[->//|/andP[g ->]]; by rewrite (H _ ne g) orbT.
Qed.

Lemma pstep_gone A n me rd (gone gone' : nat -> nat -> bool) a (x : pproc A) r :
  (forall sid id, id != me -> gone sid id -> gone' sid id) ->
  pstep n me rd gone a x = Some r -> pstep n me rd gone' a x = Some r.
Proof.
move=> H; case: x => [v|B ts k|] //=; case: a => // j a.
case: ifP => // _; case: (nth _ _ _) => sid t.
case E: (tstep _ _ _ _ _ _) => [[t' op]|] // E'.
by rewrite (tstep_gone (H sid) E).
Qed.

Lemma quiet_tstep B n me rd gone a (t t' : cproc B) op :
  quiet t -> tstep n me rd gone a t = Some (t', op) -> quiet t'.
Proof.
case: t => [v|to b k|f k|st k|]; case: a => //= => [id||] Q; last by case=> <- _.
- by case: ifP => // _; case: (rd id) => // b l [<- _].
- by case: ifP => // _ [<- _].
Qed.

Lemma mute_pstep A n me rd gone a (x x' : pproc A) o :
  mute x -> pstep n me rd gone a x = Some (x', o) -> mute x'.
Proof.
case: x => [v|B ts k|] //= [Q K]; case: a => [j a||j].
- case: ifP => // jl; case Ej: (nth _ _ _) => [sid t].
  case E: (tstep _ _ _ _ _ _) => [[t' op]|] // [<- _] /=; split => // i.
  rewrite nth_set_nth /=; case: eqP => // _ /=; apply: quiet_tstep E.
  by have := Q j; rewrite Ej.
- by case: (results ts) => // rs [<- _].
case: (nth _ _ _) => sid [[b|e|]|to b k'|f k'|st k'|] //= [<- _] //.
Qed.

Lemma mute_step A a (c c' : cfg A) d : mute (nth PHalt (procs c) d) -> step a c = Some c' ->
  mute (nth PHalt (procs c') d).
Proof.
move=> M; rewrite /step; case: a => p la; case E: (pstep _ _ _ _ _ _) => [[x o]|] // [<-] /=.
rewrite nth_set_nth /=; case: eqP => // Ed; apply: mute_pstep E; by rewrite -Ed.
Qed.

Lemma mute_sent A s (c : cfg A) d sid to : mute (nth PHalt (procs c) d) -> sent s c sid d to = [::].
Proof.
elim: s c => //= a s IH c M.
have -> : sent_by a c sid d to = [::].
  rewrite /sent_by; case: a => p [j [||||]||] //; case: (nth _ _ _) M => [v|B ts k|] //= [/(_ j)].
  by case: (nth _ _ _) => q [] //.
by case E: (step a c) => [c'|] //=; apply: IH; apply: mute_step E.
Qed.

Lemma silent_pcrash A f ms (x : pproc A) sid : silent x sid -> silent (pcrash f ms x) sid.
Proof.
case: x => [v|B ts k|] //=; case: f => //= /andP[/(has_nthP (0, CHalt)) [j jl St] R].
apply/andP; split.
  apply/(has_nthP (0, CHalt)); exists j; first by rewrite size_map size_iota.
  rewrite (nth_map 0) ?size_iota // nth_iota // add0n /=.
  by case: (nth _ ts j) St => q t /=; case: t; case: (ms j).
apply: contra R => /(has_nthP (0, CHalt)) [i]; rewrite size_map size_iota => il.
rewrite (nth_map 0) ?size_iota // nth_iota // add0n /= => H.
apply/(has_nthP (0, CHalt)); exists i => //; move: H; case: (nth _ ts i) => q' t' /=.
by case: eqP => //= _; case: t' => //=; case: (ms i).
Qed.

(** [ms] leaves a thread that is collecting time to end the collection *)
Definition gathers B (t : cproc B) : bool := if t is CGather _ _ then true else false.

Definition waits A (ms : nat -> nat) (x : pproc A) : Prop :=
  match x with
  | PJoin B ts k => forall j, gathers (nth (0, CHalt) ts j).2 -> 0 < ms j
  | _ => True
  end.

Lemma ccrash_ret B m (r : res B) : ccrash m (CRet r) = CRet r.
Proof. by case: m. Qed.

Lemma tstep_ccrash B n me rd gone a (t t' : cproc B) op m :
  tstep n me rd gone a t = Some (t', op) -> (gathers t' -> 0 < m) ->
  exists m1, (gathers t -> 0 < m1) /\ tstep n me rd gone a (ccrash m1 t) = Some (ccrash m t', op).
Proof.
case: t => [v|to b k|f k|st k|]; case: a => //=.
- by move=> E _; exists m.+1; split => //=; move: E; case: ifP => _ [<- <-]; rewrite ?ccrash_ret.
- by move=> [<- <-] _; exists m.+1; rewrite ?ccrash_ret.
- move=> E _; exists m.+1; split => //=; move: E; case: ifP => _; last by move=> [<- <-]; rewrite ccrash_ret.
  by case: (rd f) => // b l [<- <-].
- by move=> [<- <-] _; exists m.+1; rewrite ?ccrash_ret.
- move=> id; case: ifP => // C; case E: (rd id) => [|b l] // [<- <-] /= /(_ isT) m0; exists m; split => //.
  by case: m m0 => //= m _; rewrite C E.
- case: ifP => // C [<- <-] _; exists m.+1; split => //=; by rewrite C.
- by move=> [<- <-] _; exists m.+1; rewrite ?ccrash_ret.
Qed.

Lemma step_other A a (c c' : cfg A) d : step a c = Some c' -> a.1 != d ->
  nth PHalt (procs c') d = nth PHalt (procs c) d.
Proof.
rewrite /step; case: a => p la; case: (pstep _ _ _ _ _ _) => [[x o]|] // [<-] /= nd.
by rewrite nth_set_nth /= eq_sym (negbTE nd).
Qed.

Lemma crash_run A s (c e : cfg A) d : d < size (procs c) -> run s c = Some e ->
  exists f ms e', [/\
    run s (Cfg (set_nth PHalt (procs c) d (pcrash f ms (nth PHalt (procs c) d))) (qs c)) = Some e',
    qs e' = qs e, forall p, p != d -> nth PHalt (procs e') p = nth PHalt (procs e) p,
    mute (nth PHalt (procs e') d) & f = 0 -> waits ms (nth PHalt (procs c) d)].
Proof.
elim: s c => [|a s IH] c dn /=.
  case=> <-; pose ms j := if nth PHalt (procs c) d is PJoin B ts k
                          then nat_of_bool (gathers (nth (0, CHalt) ts j).2) else 0.
  exists 0, ms; eexists; split; [by []|by []| | |].
  - by move=> p np; rewrite /= nth_set_nth /= (negbTE np).
  - rewrite /= nth_set_nth /= eqxx /ms; case: (nth _ _ _) => [v|B ts k|] //=; split => // j.
    case: (ltnP j (size ts)) => jl; last by rewrite nth_default // size_map size_iota.
    rewrite (nth_map 0) ?size_iota // nth_iota // add0n /=.
    by case: (nth _ ts j) => q [] //= st k' st'; case: (k' st').
  by rewrite /waits /ms => _; case: (nth _ _ _) => [v|B ts k|] //= j ->.
case E: (step a c) => [c1|] // R; have sz := step_size E.
have [f [ms [e' [R' Q' P' M' W']]]] := IH c1 (eq_ind _ (fun k => d < k) dn _ (esym sz)) R.
have Sz y : size (set_nth PHalt (procs c) d y) = size (procs c) by rewrite size_set_nth (maxn_idPr dn).
case: (altP (a.1 =P d)) => [ad|nd].
  suff [f1 [ms1 [S1 W1]]] : exists f1 ms1,
    step a (Cfg (set_nth PHalt (procs c) d (pcrash f1 ms1 (nth PHalt (procs c) d))) (qs c)) =
    Some (Cfg (set_nth PHalt (procs c1) d (pcrash f ms (nth PHalt (procs c1) d))) (qs c1)) /\
    (f1 = 0 -> waits ms1 (nth PHalt (procs c) d)).
    by exists f1, ms1, e'; split => //; rewrite S1.
  move: E; rewrite /step; case: a ad => q la /= ->.
  case E: (pstep _ _ _ _ _ _) => [[x o]|] // [Ec1]; rewrite -Ec1 /= in W' *.
  rewrite nth_set_nth /= eqxx in W' *.
  suff [f1 [ms1 [S1 W1]]] : exists f1 ms1, pstep (size (procs c)) d (fun sid from => queue c sid from d)
      (fun sid id => silent (nth PHalt (procs c) id) sid) la (pcrash f1 ms1 (nth PHalt (procs c) d)) =
      Some (pcrash f ms x, o) /\ (f1 = 0 -> waits ms1 (nth PHalt (procs c) d)).
    exists f1, ms1; split => //; rewrite Sz nth_set_nth /= eqxx.
    rewrite (_ : (fun sid from => queue _ sid from d) = fun sid from => queue c sid from d); last first.
      by rewrite /queue /= Sz.
    rewrite (pstep_gone _ S1) /=; last first.
      by move=> sid id nid; rewrite nth_set_nth /= (negbTE nid).
    by rewrite set_set_nth eqxx [in RHS]set_set_nth eqxx.
  case: (nth PHalt (procs c) d) E => [v|B ts k|] //=; case: la => [j a||j].
  - case: ifP => // jl; case Ej: (nth _ _ _) => [sid t].
    case E: (tstep _ _ _ _ _ _) => [[t' op]|] // [Ex Eo]; rewrite -Ex -Eo in W' *.
    case: f {R'} W' => [|f] W'; last by exists f.+1, ms; rewrite /= jl Ej E.
    have Hg : gathers t' -> 0 < ms j by have := W' erefl j; rewrite /= nth_set_nth /= eqxx.
    have [m1 [Hm E1]] := tstep_ccrash E Hg.
    exists 0, (fun i => if i == j then m1 else ms i); split; last first.
      move=> _ i; case: eqP => [->|/eqP ni]; first by rewrite Ej.
      by have := W' erefl i; rewrite /= nth_set_nth /= (negbTE ni).
    rewrite /= size_map size_iota jl (nth_map 0) ?size_iota // nth_iota // add0n Ej /= eqxx E1.
    congr (Some (PJoin _ _, _)); apply: (@eq_from_nth _ (0, CHalt)).
      by rewrite size_set_nth !size_map !size_iota size_set_nth.
    move=> i; rewrite size_set_nth size_map size_iota (maxn_idPr jl) => il.
    rewrite nth_set_nth /= [RHS](nth_map 0) ?size_iota ?size_set_nth ?(maxn_idPr jl) //.
    rewrite nth_iota // add0n nth_set_nth /=; case: eqP => [->|/eqP ni] //.
    by rewrite (nth_map 0) ?size_iota // nth_iota // add0n (negbTE ni).
  - case Er: (results ts) => [rs|] // [<- <-]; exists f.+1, ms; by rewrite /= Er.
  case Ej: (nth _ _ _) => [q' [[b|er|]|to b k'|f' k'|st k'|]] //= [<- <-].
    by exists 1, ms; rewrite /= Ej; case: (f).
  by exists 1, ms; rewrite /= Ej; case: (f).
exists f, ms, e'; split => //; last first.
  by move=> f0; rewrite -(step_other E nd); apply: W'.
rewrite -R' (_ : step a _ = Some (Cfg (set_nth PHalt (procs c1) d (pcrash f ms (nth PHalt (procs c1) d))) (qs c1))) //.
rewrite (step_other E nd).
move: E nd; rewrite /step; case: a => q la; case E: (pstep _ _ _ _ _ _) => [[x o]|] // [<-] /= nd.
rewrite Sz nth_set_nth /= (negbTE nd).
rewrite (_ : (fun sid from => queue _ sid from q) = fun sid from => queue c sid from q); last first.
  by rewrite /queue /= Sz.
rewrite (pstep_gone _ E) /=; last first.
  by move=> sid id nid; rewrite nth_set_nth /=; case: eqP => // ->; apply: silent_pcrash.
by rewrite set_set_nth [d == q]eq_sym (negbTE nd).
Qed.

(** a collection that ends may as well end by a timeout *)
Definition tame (a : kind) : kind := if a is KGathered then KTimeout else a.
Definition ltame (a : laction) : laction := if a is LThread j a then LThread j (tame a) else a.

Lemma tstep_tame B n me rd gone gone' a (t : cproc B) r :
  tstep n me rd gone a t = Some r -> tstep n me rd gone' (tame a) t = Some r.
Proof. by case: t => [v|to b k|f k|st k|]; case: a => //=; case: ifP. Qed.

Lemma pstep_tame A n me rd gone gone' a (x : pproc A) r :
  pstep n me rd gone a x = Some r -> pstep n me rd gone' (ltame a) x = Some r.
Proof.
case: x => [v|B ts k|] //=; case: a => // j a /=.
case: ifP => // _; case: (nth _ _ _) => sid t.
case E: (tstep _ _ _ _ _ _) => [[t' op]|] // E'.
by rewrite (tstep_tame _ E).
Qed.

Lemma tstep_crashed B n me rd gone a (t t1 : cproc B) op m :
  tstep n me rd gone a (ccrash m t) = Some (t1, op) ->
  exists m' t', t1 = ccrash m' t' /\ tstep n me rd gone a t = Some (t', op).
Proof.
case: t => [v|to b k|f k|st k|]; case: m => [|m]; case: a => //=.
- case: ifP => _ [<- <-]; first by exists m, k.
  by exists m, (CRet (Err Generic)); rewrite ccrash_ret.
- by case=> <- <-; exists m, (CRet (Err Generic)); rewrite ccrash_ret.
- case: ifP => _; last by case=> <- <-; exists m, (CRet (Err Generic)); rewrite ccrash_ret.
  by case: (rd f) => // b l [<- <-]; exists m, (k b).
- by case=> <- <-; exists m, (CRet (Err Generic)); rewrite ccrash_ret.
- move=> id; case: ifP => // _; case: (rd id) => // b l [<- <-].
  by exists m.+1; eexists; (split; [|reflexivity]).
- by case: ifP => // _ [<- <-]; exists m, (k st).
by case=> <- <-; exists m, (k st).
Qed.

Lemma pstep_crashed A n me rd gone a (x x1 : pproc A) o f ms :
  pstep n me rd gone a (pcrash f ms x) = Some (x1, o) ->
  (x1 = PHalt /\ o.2 = QNone) \/
  exists f' ms' x', x1 = pcrash f' ms' x' /\ pstep n me rd gone a x = Some (x', o).
Proof.
case: x => [v|B ts k|]; case: f => [|f] //=; case: a => [j a||j]; rewrite ?size_map ?size_iota.
- case: ifP => // jl; rewrite (nth_map 0) ?size_iota // nth_iota // add0n.
  case Ej: (nth _ ts j) => [sid t]; rewrite /=.
  case E: (tstep _ _ _ _ _ _) => [[t1 op]|] // [<- <-]; right.
  have [m' [t' [-> E']]] := tstep_crashed E.
  exists 0, (fun i => if i == j then m' else ms i), (PJoin (set_nth (0, CHalt) ts j (sid, t')) k).
  rewrite E'; split => //=; congr (PJoin _ _); apply: (@eq_from_nth _ (0, CHalt)).
    by rewrite size_set_nth !size_map !size_iota size_set_nth.
  move=> i; rewrite size_set_nth size_map size_iota (maxn_idPr jl) => il.
  rewrite nth_set_nth /= [RHS](nth_map 0) ?size_iota ?size_set_nth ?(maxn_idPr jl) //.
  rewrite nth_iota // add0n nth_set_nth /=; case: eqP => [_|/eqP ni] //.
  by rewrite (nth_map 0) ?size_iota // nth_iota // add0n.
- by case: (results _) => // rs [<- <-]; left.
- case: (ltnP j (size ts)) => jl; last by rewrite nth_default // size_map size_iota.
  rewrite (nth_map 0) ?size_iota // nth_iota // add0n; case Ej: (nth _ ts j) => [sid t] /=.
  case: t Ej => [[b|e|]|to b k'|f' k'|st k'|] Ej; case: (ms j) => [|m] //= [<- <-]; right;
    by exists 0, ms; eexists; (split; [|reflexivity]).
- case: ifP => // jl; case Ej: (nth _ ts j) => [sid t].
  case E: (tstep _ _ _ _ _ _) => [[t1 op]|] // [<- <-]; right.
  by exists f.+1, ms; eexists; (split; [|reflexivity]).
- by case: (results _) => // rs [<- <-]; right; exists f, ms; eexists; (split; [|reflexivity]).
by case: (nth _ ts j) => sid [[b|e|]|to b k'|f' k'|st k'|] //= [<- <-]; right;
  exists 0, ms; eexists; (split; [|reflexivity]).
Qed.

Lemma run_step A a s (c c1 e : cfg A) : step a c = Some c1 -> run s c1 = Some e ->
  run (a :: s) c = Some e.
Proof. by rewrite [run (a :: s) c]/= => ->. Qed.

Lemma crash_only_stops A s (c e' : cfg A) d x' : d < size (procs c) ->
  (x' = PHalt \/ exists f ms, x' = pcrash f ms (nth PHalt (procs c) d)) ->
  run s (Cfg (set_nth PHalt (procs c) d x') (qs c)) = Some e' ->
  exists s0 e, [/\ run s0 c = Some e, qs e' = qs e &
    forall p, p != d -> nth PHalt (procs e') p = nth PHalt (procs e) p].
Proof.
elim: s c x' => [|a s IH] c x' dn Hx /=.
  case=> <-; exists [::], c; split => // p np; by rewrite /= nth_set_nth /= (negbTE np).
have Sz y : size (set_nth PHalt (procs c) d y) = size (procs c) by rewrite size_set_nth (maxn_idPr dn).
case E: (step _ _) => [c1|] // R; case: a E => q la; rewrite /step /= Sz nth_set_nth /=.
rewrite (_ : (fun sid from => queue _ sid from q) = fun sid from => queue c sid from q); last first.
  by rewrite /queue /= Sz.
case: (altP (q =P d)) => [Eq|nq].
  rewrite Eq; case: Hx => [->//|[f [ms ->]]].
  case E: (pstep _ _ _ _ _ _) => [[x1 o]|] // [Ec1]; rewrite -Ec1 set_set_nth eqxx in R.
  have [[E1 E2]|[f' [ms' [y [E1 E2]]]]] := pstep_crashed E.
    have Eq' : apply_q (size (procs c)) d o (qs c) = qs c by case: (o) E2 => ? [].
    by rewrite Eq' in R; apply: IH R => //; left.
  have S1 : step (d, ltame la) c = Some (Cfg (set_nth PHalt (procs c) d y) (apply_q (size (procs c)) d o (qs c))).
    by rewrite /step (pstep_tame _ E2).
  have [|||s0 [e [R0 H1 H2]]] := IH (Cfg (set_nth PHalt (procs c) d y) (apply_q (size (procs c)) d o (qs c))) x1.
  + by rewrite /= Sz.
  + by right; exists f', ms'; rewrite /= nth_set_nth /= eqxx.
  + by rewrite /= set_set_nth eqxx.
  by exists ((d, ltame la) :: s0), e; split => //; apply: run_step R0.
case E: (pstep _ _ _ _ _ _) => [[x1 o]|] // [Ec1]; rewrite -Ec1 set_set_nth [d == q]eq_sym (negbTE nq) in R.
have S1 : step (q, ltame la) c = Some (Cfg (set_nth PHalt (procs c) q x1) (apply_q (size (procs c)) q o (qs c))).
  by rewrite /step (pstep_tame _ E).
have [|||s0 [e [R0 H1 H2]]] := IH (Cfg (set_nth PHalt (procs c) q x1) (apply_q (size (procs c)) q o (qs c))) x'.
- by rewrite /= size_set_nth (leq_trans dn) // leq_max leqnn orbT.
- by rewrite /= nth_set_nth /= eq_sym (negbTE nq).
- by [].
by exists ((q, ltame la) :: s0), e; split => //; apply: run_step R0.
Qed.
