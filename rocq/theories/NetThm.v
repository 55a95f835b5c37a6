(** mpc-net/src/lib.rs, ser_net.rs: theorems. *)
From mathcomp Require Import all_ssreflect.
From mathcomp Require Import zify.
From Verif Require Import Base ModelNet SpecNet NetProofs KingProofs CrashProofs RoundProofs.
Set Implicit Arguments.
Unset Strict Implicit.
Unset Printing Implicit Defensive.

Lemma pthread_party A n dok sid (progs : nat -> cproc A) vals : king_prog n dok progs vals ->
  king_party n dok (fun p => pthread sid (progs p)) vals.
Proof.
move=> H; apply: (@PP_join _ _ _ _ _ _ [:: sid] (fun p _ => progs p) (fun p _ => vals p)
  (fun p rs => PRet (if rs is [:: r] then Ok r else Panic))) => //.
exact: PP_ret.
Qed.

Lemma every_ext A (ps ps' : seq (pproc A)) (live live' : pred nat) vals : ps = ps' ->
  (forall p, p < size ps' -> live' p -> live p) ->
  every_schedule ps live vals -> every_schedule ps' live' vals.
Proof.
move=> -> H [N [d [Hv F S]]]; exists N, d; split => //.
  by move=> p pl /(H p pl); apply: Hv.
move=> s c cs R; have [H1 H2] := S s c cs R; split => // p j pl /(H p pl); exact: H2.
Qed.

Lemma prog_schedules A n sid (progs : nat -> cproc A) vals : 0 < n ->
  king_prog n (fun d => n <= d) progs vals ->
  every_schedule (mkseq (fun p => pthread sid (progs p)) n) predT vals.
Proof.
move=> n0 H.
have n00 : n != 0 by lia.
have := @king_party_schedules _ n (fun d => n <= d) _ vals n 0 id n0 n00 (leqnn _) (leqnn _) _
  (pthread_party sid H).
move=> /(_ _)/(every_ext _ _); apply => //.
  apply: (@eq_from_nth _ PHalt); rewrite !size_mkseq // => i il.
  by rewrite !nth_mkseq //; have -> : (i == n) = false by lia.
by move=> p; rewrite size_mkseq => pl _; lia.
Qed.

Lemma csokr_full n ord (b : nat -> bytes) K : 0 < n ->
  client_send_or_king_receive n 0 ord (b 0) = CGather (nseq n None) K ->
  K (store_without n b n) = CRet (Ok (Some (Full (mkseq b n)))).
Proof.
move=> n0 [<-]; have n00 : n != 0 by lia.
rewrite {1 2 3}/store_without nth_mkseq //= -/(store_without _ _ _).
rewrite store_ids_without // heard_all // size_iota eqxx; congr (CRet (Ok (Some (Full _)))).
apply/eq_in_map => i; rewrite mem_iota => iI; rewrite store_get_without //; lia.
Qed.


(** what one step does to one stream *)
Lemma step_stream A a (c c' : cfg A) sid from to : step a c = Some c' ->
  from < size (procs c) -> to < size (procs c) ->
  queue c sid from to ++ sent_by a c sid from to
  = (if takes a c sid from to then take 1 (queue c sid from to) else [::]) ++ queue c' sid from to.
Proof.
move=> E fl tl; have Sz := step_size E; move: E.
rewrite /step; case: a => p la; case E: (pstep _ _ _ _ _ _) => [[x o]|] // [Ec'].
have pl := pstep_lt E; have [H1 H2] := pstep_lts E.
have -> : queue c' sid from to = nth [::] (apply_q (size (procs c)) p o (qs c)) (qidx (size (procs c)) sid from to).
  by rewrite /queue Sz -Ec'.
rewrite nth_apply_q //; last by move=> s f /H1[].
rewrite -/(queue c sid from to).
have Q0 : forall s, o = (s, QNone) -> sent_by (p, la) c sid from to = [::] /\ takes (p, la) c sid from to = false.
  move=> s Eo; move: E; rewrite Eo /sent_by /takes.
  case: la => [j k||j] //; case: k => [|id|||] //.
    rewrite /pstep; case Ex: (nth PHalt (procs c) p) => [v|B ts k|] //.
    case: ifP => // jl; case N: (nth _ ts j) => [s' t].
    case Et: tstep => [[t' op]|] // [_ _ Eop]; rewrite Eop in Et.
    split.
      case: (altP (p =P from)) => [Ep|pf]; last first.
        by case: (nth PHalt (procs c) from) => // B' ts' k'; case: (nth _ ts' j) => s2 [].
      rewrite -Ep Ex N; case: t Et {N} => //= to' b' k'; case: ifP => // Hn _.
      by case: eqP => //= _; case: eqP => //= Eto; rewrite -Eto Ep in Hn *; rewrite Hn.
    case: (altP (p =P to)) => [Ep|pf]; last first.
      by case: (nth PHalt (procs c) to) => // B' ts' k'; case: (nth _ ts' j) => s2 [].
    rewrite -Ep Ex N; case: t Et {N} => //= from' k'; case: ifP => // Hn.
      by case: (queue _ _ _ _).
    by move=> _; case: eqP => //= _; case: eqP => //= Eto; rewrite -Eto Ep in Hn *; rewrite Hn.
  move=> Ep; split; first by case: (nth PHalt (procs c) from) => // B' ts' k'.
  case Ex: (nth PHalt (procs c) to) => [v|B' ts' k'|] //; case N: (nth _ ts' j) => [s2 [||f k2|st k2|]] //.
  case: (altP (p =P to)) => //= Ept; move: Ep; rewrite /pstep Ept Ex; case: ifP => // jl; rewrite N.
  by rewrite /=; case: ifP => //; case: (queue _ _ _ _).
case: o E Ec' H1 H2 Q0 => s [|to' b'|from'] E Ec' H1 H2 Q0.
- by have [-> ->] := Q0 s erefl; rewrite cats0.
- have [tol tom _] := pstep_push E.
  move: E; rewrite /pstep; case Ex: (nth PHalt (procs c) p) => [v|B ts k|] //.
  case: la {Q0} => [j k'||j] //; last 2 first.
  + by case: results.
  + by case: (nth _ ts j) => s' [[]|||| ].
  case: ifP => // jl; case N: (nth _ ts j) => [s' t].
  case Et: tstep => [[t' op]|] // [_ Es Eop]; rewrite {}Eop {}Es in Et N.
  have [kk [Et1 Et2]] : exists kk, t = CSend to' b' kk /\ k' = KOp.
    case: t k' Et {N} => [v|t2 b2 k2|f2 k2|st k2|] [|id|||] //=.
    * by case: ifP => // _ [_ -> ->]; exists k2.
    * by case: ifP => // _; case: (queue _ _ _ _).
    * by case: ifP => // _; case: (queue _ _ _ _).
    * by case: ifP.
  rewrite Et2 Et1 in N Et *.
  have -> : takes (p, LThread j KOp) c sid from to = false.
    rewrite /takes; case: (altP (p =P to)) => [Ep|pf].
      by rewrite -Ep Ex N.
    by case: (nth PHalt (procs c) to) => // B' ts' k2; case: (nth _ ts' j) => s2 [].
  rewrite /sent_by; case: (altP (p =P from)) => [Ep|pf]; last first.
    rewrite andbF; case: (nth PHalt (procs c) from) => // [v|B' ts' k2|]; rewrite ?cats0 //.
    by case: (nth _ ts' j) => s2 [] *; rewrite ?cats0.
  rewrite -Ep Ex N /=; case: (altP (s =P sid)) => //= _; last by rewrite cats0.
  case: (altP (to' =P to)) => //= Eto; last by rewrite cats0.
  by rewrite -Eto tol tom cats1.
have [fl' qn [b [q Eq]]] := pstep_pop E.
move: E; rewrite /pstep; case Ex: (nth PHalt (procs c) p) => [v|B ts k|] //.
case: la {Q0} => [j k'||j] //; last 2 first.
+ by case: results.
+ by case: (nth _ ts j) => s' [[]|||| ].
case: ifP => // jl; case N: (nth _ ts j) => [s' t].
case Et: tstep => [[t' op]|] // [_ Es Eop]; rewrite {}Eop {}Es in Et N.
have -> : sent_by (p, LThread j k') c sid from to = [::].
  rewrite /sent_by; case: k' Et => // Et; case: (altP (p =P from)) => [Ep|pf].
    rewrite -Ep Ex N; case: t Et {N} => //= t2 b2 k2; by case: ifP.
  by case: (nth PHalt (procs c) from) => // B' ts' k2; case: (nth _ ts' j) => s2 [].
have -> : takes (p, LThread j k') c sid from to = [&& s == sid, from' == from & p == to].
  rewrite /takes; case: (altP (p =P to)) => [Ep|pf]; last first.
    rewrite !andbF; case: k' Et => [|id|||] // _.
      by case: (nth PHalt (procs c) to) => // B' ts' k2; case: (nth _ ts' j) => s2 [].
    by case: (nth PHalt (procs c) to) => // B' ts' k2; case: (nth _ ts' j) => s2 [].
  rewrite -Ep Ex N andbT; case: t k' Et {N} => [v|t2 b2 k2|f2 k2|st k2|] [|id|||] //=.
  + by case: ifP.
  + case: ifP => // Hf; case: (queue _ _ _ _) => // b2 q2 [_ ->].
    case: (altP (s =P sid)) => //= _; case: (altP (from' =P from)) => //= Ef.
    by rewrite -Ef fl' qn.
  + case: ifP => // Hf; case: (queue _ _ _ _) => // b2 q2 [_ ->] //.
  by case: ifP.
rewrite cats0; case: ifP => //= /and3P[/eqP Es /eqP Ef /eqP Ep].
by move: Eq; rewrite Es Ef Ep => -> /=; rewrite take0.
Qed.

(** ** What the king has heard when its collection ends *)

Lemma takes_other A a (c : cfg A) sid from to : a.1 != to -> takes a c sid from to = false.
Proof.
case: a => q [j k||j] //= H; rewrite /takes; case: k => // [|id].
  by case: (nth PHalt _ to) => // B ts k; case: (nth _ ts j) => s [] // ? ?; rewrite (negbTE H).
by case: (nth PHalt _ to) => // B ts k; case: (nth _ ts j) => s [] // ? ?; rewrite (negbTE H).
Qed.

Section Trace.
Variables (A : Type) (sid : nat).
Let kk (rs : seq A) : pproc A := PRet (if rs is [:: r] then Ok r else Panic).

Lemma trace_ret s (c c' : cfg A) v p r : nth PHalt (procs c) p = PRet v -> run s c = Some c' ->
  nth PHalt (procs c') p = PRet r -> r = v /\ forall id, got s c sid id p = [::].
Proof.
elim: s c => [|a s IH] c E /=; first by case=> <-; rewrite E => -[->].
case E1: (step a c) => [c1|] // R Er.
have ap : a.1 != p.
  apply/negP => /eqP Ep; move: E1; rewrite /step; case: a Ep => q la /= ->; by rewrite E.
have [-> H] := IH c1 (etrans (step_other E1 ap) E) R Er; split => // id.
by rewrite takes_other // H.
Qed.

Lemma trace_done s (c c' : cfg A) v p r :
  nth PHalt (procs c) p = PJoin [:: (sid, CRet v)] kk -> run s c = Some c' ->
  nth PHalt (procs c') p = PRet r -> r = v /\ forall id, got s c sid id p = [::].
Proof.
elim: s c => [|a s IH] c E /=; first by case=> <-; rewrite E.
case E1: (step a c) => [c1|] // R Er; case: (altP (a.1 =P p)) => ap; last first.
  have [-> H] := IH c1 (etrans (step_other E1 ap) E) R Er; split => // id.
  by rewrite takes_other // H.
have NT id : takes a c sid id p = false.
  case: a ap {E1} => q [j k||j] //= ap; rewrite /takes E; case: k => // [|id'].
    by case: j => [|[|j]].
  by case: j => [|[|j]].
have Ec1 : nth PHalt (procs c1) p = PRet v.
  move: E1; rewrite /step; case: a ap {NT} => q la /= ->; rewrite E /=.
  case: la => [[|j] k||[|j]] //=.
  - by case: (v) => [x|e|] // [<-] /=; rewrite nth_set_nth /= eqxx.
  - by case: (v) => [x|e|] // [<-] /=; rewrite nth_set_nth /= eqxx.
  by rewrite nth_nil.
have [-> H] := trace_ret Ec1 R Er; split => // id; by rewrite NT H.
Qed.

Lemma trace_gather (K : seq (option bytes) -> cproc A) p s (c c' : cfg A) st r :
  (forall st, exists v, K st = CRet v) ->
  size st = size (procs c) ->
  nth PHalt (procs c) p = PJoin [:: (sid, CGather st K)] kk -> run s c = Some c' ->
  nth PHalt (procs c') p = PRet r ->
  exists st', [/\ K st' = CRet r, size st' = size st,
    forall id, (id == 0) || (id == p) -> nth None st' id = nth None st id &
    forall id, got s c sid id p ++ seq_of_opt (nth None st id) = seq_of_opt (nth None st' id)].
Proof.
move=> HK; elim: s c st => [|a s IH] c st ss E /=; first by case=> <-; rewrite E.
case E1: (step a c) => [c1|] // R Er; case: (altP (a.1 =P p)) => ap; last first.
  have [st' [H1 H2 H3 H4]] := IH c1 st (etrans ss (esym (step_size E1))) (etrans (step_other E1 ap) E) R Er.
  by exists st'; split => // id; rewrite takes_other // H4.
have Sz := step_size E1; have pl : p < size (procs c).
  by rewrite ltnNge; apply/negP => H; move: E; rewrite nth_default.
have Done : nth PHalt (procs c1) p = PJoin [:: (sid, K st)] kk ->
    (forall id, takes a c sid id p = false) ->
    exists st', [/\ K st' = CRet r, size st' = size st,
    forall id, (id == 0) || (id == p) -> nth None st' id = nth None st id &
    forall id, ((if takes a c sid id p then take 1 (queue c sid id p) else [::]) ++ got s c1 sid id p)
      ++ seq_of_opt (nth None st id) = seq_of_opt (nth None st' id)].
  move=> Ec1 NT; exists st; have [v Ev] := HK st; rewrite Ev in Ec1.
  have [-> H] := trace_done Ec1 R Er; split => // id; by rewrite NT H.
move: E1 Done; rewrite /step; case: a ap => q la /= ->; rewrite E /=.
case: la => [[|j] k||[|j]] //=; last by rewrite nth_nil.
case: k => [|id|||] //=.
- case: ifP => // /andP[/andP[/andP[id0 idn] idp] idS]; case Eq: (queue c sid id p) => [|b q'] // [Ec1] _.
  have Sst : size (set_nth None st id (Some b)) = size st.
    by rewrite size_set_nth; apply/maxn_idPr; rewrite ss.
  have [||st' [H1 H2 H3 H4]] := IH c1 (set_nth None st id (Some b)) _ _ R Er.
  + by rewrite Sst ss Sz.
  + by rewrite -Ec1 /= nth_set_nth /= eqxx.
  exists st'; split => //; first by rewrite H2.
    move=> i iH; rewrite H3 // nth_set_nth /=; case: (i =P id) iH => [->|//]; rewrite (negbTE idp) orbF; lia.
  move=> i; rewrite -H4 !eqxx /= nth_set_nth /= [i == id]eq_sym.
  case: (altP (id =P i)) => [<-|//]; rewrite Eq /= take0.
  have Eg : got s c1 sid id p = [::].
    move: (H4 id); rewrite nth_set_nth /= eqxx /=; case: (nth None st' id) => [b'|] /=.
      by case: (got _ _ _ _ _) => // x [|y l].
    by case: (got _ _ _ _ _).
  by rewrite Eg; case: (nth None st id) idS.
- case: ifP => // _ [Ec1] /(_ _ _) Done; apply: Done; first by rewrite -Ec1 /= nth_set_nth /= eqxx.
  by [].
by case=> Ec1 /(_ _ _) Done; apply: Done => //; rewrite -Ec1 /= nth_set_nth /= eqxx.
Qed.

End Trace.

Lemma store_comprehension n (st : seq (option bytes)) (g : nat -> seq bytes) b0 : 0 < n ->
  size st = n -> (forall i, 0 < i < n -> g i = seq_of_opt (nth None st i)) ->
  let ret := set_nth None st 0 (Some b0) in
  [seq (i, store_get ret i) | i <- store_ids ret]
  = (0, b0) :: [seq (i, b) | i <- iota 1 n.-1, b <- g i].
Proof.
move=> n0 ss H ret; rewrite /store_ids /ret size_set_nth ss (maxn_idPr _) // -/ret.
case: n n0 ss H => // n _ ss H.
rewrite [iota 0 n.+1]/= [filter _ _]/= /ret nth_set_nth /= -/ret; congr (_ :: _).
  by rewrite /store_get /ret nth_set_nth.
have : forall i, i \in iota 1 n -> 0 < i < n.+1 by move=> i; rewrite mem_iota; lia.
elim: (iota 1 n) => //= i s IH Hs.
have [i0 il] : 0 < i /\ i < n.+1 by have := Hs i (mem_head _ _); lia.
rewrite H ?i0 // {1}/ret nth_set_nth /= (gtn_eqF i0).
have IH' : [seq (i, store_get ret i) | i <- s & nth None ret i] = [seq (i, b) | i <- s, b <- g i].
  by apply: IH => j jI; apply: Hs; rewrite inE jI orbT.
case E: (nth None st i) => [b|] /=; rewrite IH' //; congr (_ :: _).
by rewrite /store_get /ret nth_set_nth /= (gtn_eqF i0) E.
Qed.

Definition odecode T (c : codec T) (b : bytes) : option T := if decode c b is Ok x then Some x else None.

Lemma decodeE T (c : codec T) b : decode c b = if odecode c b is Some x then Ok x else Err Generic.
Proof. by rewrite /odecode /decode; case: dec => [[]|]. Qed.

Lemma mapM_decode T (c : codec T) bs :
  mapM (decode c) bs = if size (pmap (odecode c) bs) == size bs then Ok (pmap (odecode c) bs) else Err Generic.
Proof.
elim: bs => //= b bs IH; rewrite decodeE IH; case: (odecode c b) => [x|] /=.
  by rewrite eqSS; case: ifP.
have := count_size (odecode c) bs; rewrite -size_pmap; case: eqP => [|//]; lia.
Qed.

Lemma crashing_set A n d f ms (P : nat -> pproc A) : d < n ->
  Cfg (set_nth PHalt (procs (init (mkseq P n))) d (pcrash f ms (nth PHalt (procs (init (mkseq P n))) d)))
      (qs (init (mkseq P n))) = init (crashing n d f ms P).
Proof.
move=> dn; rewrite /init /=; congr (Cfg _ _); apply: (@eq_from_nth _ PHalt).
  by rewrite size_set_nth !size_mkseq (maxn_idPr dn).
rewrite size_set_nth size_mkseq (maxn_idPr dn) => i il; rewrite nth_set_nth /= !nth_mkseq //.
by case: eqP => [->|].
Qed.

(*** theorems ***)

(** C41: whatever the order of arrival, the king obtains all messages in party order, with its own
    at index 0, and the others obtain nothing. *)
Lemma c41_king_collects n ord sid (b : nat -> bytes) : 0 < n ->
  every_schedule (mkseq (fun p => pthread sid (client_send_or_king_receive n p ord (b p))) n) predT
    (fun p => if p == 0 then Some (Full (mkseq b n)) else None).
Proof.
move=> n0; apply: prog_schedules => //.
case E: (client_send_or_king_receive n 0 ord (b 0)) => [|||st K|] //.
have Est : st = nseq n None by move: E => [<-].
rewrite Est in E.
apply: (@KP_gather _ _ _ _ _ b K (fun p => CRet (Ok (if p == 0 then Some (Full (mkseq b n)) else None)))) => //.
- by move=> p pI; rewrite /client_send_or_king_receive; have -> : (p == 0) = false by lia.
- move=> d nd; rewrite -(csokr_full n0 E); congr K; apply: (@eq_from_nth _ None); rewrite !size_mkseq // => i il.
  by rewrite !nth_mkseq //; have -> : (i == d) = (i == n) by lia.
exact: KP_ret.
Qed.

(** C41, serialized: the king obtains the values sent and the ids [0 .. n-1]. *)
Lemma c41_king_collects_values T (c : codec T) n ord sid (x : nat -> T) thr : 0 < n ->
  hash_ok ord -> thr <= n.-1 -> (forall i, i < n -> decode c (enc c (x i)) = Ok (x i)) ->
  every_schedule (mkseq (fun p => pthread sid (csokr_ser c n p ord (x p) thr)) n) predT
    (fun p => if p == 0 then Some (Received (mkseq x n) (iota 0 n)) else None).
Proof.
move=> n0 Ho Ht Hd; apply: prog_schedules => //.
case E: (csokr_ser c n 0 ord (x 0) thr) => [|||st K|] //.
have Est : st = nseq n None by move: E => [<-].
rewrite Est in E.
apply: (@KP_gather _ _ _ _ _ (fun p => enc c (x p)) K
  (fun p => CRet (Ok (if p == 0 then Some (Received (mkseq x n) (iota 0 n)) else None)))) => //.
- by move=> p pI; rewrite /csokr_ser /client_send_or_king_receive; have -> : (p == 0) = false by lia.
- move=> d nd; have d0 : d != 0 by lia.
  by rewrite (csokr_king n0 d0 Ho Ht Hd E) /received_from ltnNge nd.
exact: KP_ret.
Qed.

(** C42: in any execution, with any programs of the other parties, premature timeouts and failures,
    when the king's call returns: it has taken at most one message from each party; if it has one
    from each, it returns the decoded values in party order, or an error if one of them cannot be
    decoded; otherwise it returns the decodable ones with their senders, in some order, or a
    protocol error if there are fewer than [thr]. *)
Lemma c42_timeouts (T : eqType) (c : codec T) n ord out thr sid s
    (c0 c' : cfg (option (received T))) r :
  hash_ok ord -> size (procs c0) = n ->
  nth PHalt (procs c0) 0 = pthread sid (csokr_ser c n 0 ord out thr) ->
  run s c0 = Some c' -> nth PHalt (procs c') 0 = PRet r ->
  let heard := (0, enc c out) :: [seq (i, b) | i <- iota 1 n.-1, b <- got s c0 sid i 0] in
  let good := pmap (fun m => if decode c m.2 is Ok x then Some (m.1, x) else None) heard in
  (forall i, 0 < i < n -> size (got s c0 sid i 0) <= 1) /\
  if size heard == n then
    r = if size good == n then Ok (Some (Received [seq m.2 | m <- good] (iota 0 n))) else Err Generic
  else if size good < thr then r = Err (Protocol 0)
  else exists xs ids, [/\ r = Ok (Some (Received xs ids)), size xs = size ids
                        & perm_eq (zip ids xs) good].
Proof.
move=> Ho Hn E0 R Er heard good; rewrite /pthread in E0.
have n0 : 0 < n.
  by rewrite -Hn ltnNge; apply/negP => H; move: E0; rewrite nth_default.
have [st [K E]] : exists st K, csokr_ser c n 0 ord out thr = CGather st K by do 2!eexists.
rewrite E in E0.
move: (E); rewrite /csokr_ser /client_send_or_king_receive /= => -[Est EK].
have [||st' [H1 H2 H3 H4]] := @trace_gather _ sid K 0 s c0 c' st r _ _ E0 R Er.
- move=> st1; rewrite -EK /=; case: ifP => _ /=.
    by case: (mapM _ _) => [xs|e|] /=; eexists.
  by case: ifP => _ /=; eexists.
- by rewrite -Est size_nseq Hn.
have st0 : nth None st' 0 = None by rewrite H3 // -Est nth_nseq if_same.
have ss : size st' = n by rewrite H2 -Est size_nseq.
have Eg i : got s c0 sid i 0 = seq_of_opt (nth None st' i).
  by rewrite -H4 -Est nth_nseq if_same cats0.
split; first by move=> i _; rewrite Eg; case: nth.
have Eh := @store_comprehension n st' (fun i => got s c0 sid i 0) (enc c out) n0 ss (fun i _ => Eg i).
suff S : forall hd gd, hd = heard ->
    gd = pmap (fun m => if decode c m.2 is Ok x then Some (m.1, x) else None) hd ->
    if size hd == n then
      r = if size gd == n then Ok (Some (Received [seq m.2 | m <- gd] (iota 0 n))) else Err Generic
    else if size gd < thr then r = Err (Protocol 0)
    else exists xs ids, [/\ r = Ok (Some (Received xs ids)), size xs = size ids
                        & perm_eq (zip ids xs) gd].
  exact: (S heard good erefl erefl).
move=> hd gd Ehd Egd; move: H1; rewrite -EK st0 /=; rewrite /= -/heard -Ehd {Ehd} in Eh.
clear heard good; move: Eh; set ret := set_nth _ _ _ _; set ids := store_ids ret => Eh.
have -> : size hd = size ids by rewrite -Eh size_map.
case: ifP => /eqP Hs.
  have Ei : ids = iota 0 n.
    apply/eqP; rewrite -size_subseq_leqif ?size_iota ?Hs //.
    by rewrite /ids /store_ids /ret size_set_nth ss (maxn_idPr _) // filter_subseq.
  rewrite -Ei; set bs := [seq store_get ret x | x <- ids].
  have Hg : [seq m.2 | m <- gd] = pmap (odecode c) bs.
    rewrite Egd -Eh /bs; elim: (ids) => //= i l IH; rewrite /odecode.
    by case: decode => //= x; rewrite IH.
  have Hgs : size gd = size (pmap (odecode c) bs) by rewrite -Hg size_map.
  rewrite /= mapM_decode -/bs Hgs Hg {2}/bs size_map Hs.
  by case: ifP => _ /= [<-].
rewrite /=; set rs' := pmap _ _.
have Hp : perm_eq rs' gd.
  rewrite /rs' Egd -Eh; apply: perm_pmap; apply: perm_map; exact: Ho.
rewrite (perm_size Hp); case: ifP => _ /= [<-] //.
by exists [seq m.2 | m <- rs'], [seq m.1 | m <- rs']; split => //; rewrite ?size_map // zip_unzip.
Qed.

(** C43: with at least [n] strings of the same length as entry 0 for the parties, every party obtains its entry. *)
Lemma c43_king_distributes n sid (outs : seq bytes) : 0 < n -> n <= size outs ->
  (forall i, i < n -> size (nth [::] outs i) = size (nth [::] outs 0)) ->
  every_schedule
    (mkseq (fun p => pthread sid (client_receive_or_king_send n p (if p == 0 then Some outs else None))) n)
    predT (nth [::] outs).
Proof.
move=> n0 so Hs; apply: prog_schedules => //.
apply: (@KP_scatter _ _ _ _ _ (nth [::] outs) (fun p b => CRet (Ok b)) (fun p => CRet (Ok (nth [::] outs p)))) => //.
- exact: crokss_king.
- by case=> [|p] //.
exact: KP_ret.
Qed.

(** C43: a party other than the king may not supply data, and the king has to. *)
Lemma c43_wrong_role n me outs : me != 0 ->
  client_receive_or_king_send n me (Some outs) = CRet (Err BadInput) /\
  client_receive_or_king_send n 0 None = CRet (Err BadInput).
Proof. by rewrite /client_receive_or_king_send => ->. Qed.

(** C43: the king reports the first party [i] whose string has another length than entry 0, after
    sending to the parties with smaller ids only. *)
Lemma c43_length_mismatch n (outs : seq bytes) i : 0 < i < n -> i < size outs ->
  (forall j, j < i -> size (nth [::] outs j) = size (nth [::] outs 0)) ->
  size (nth [::] outs i) <> size (nth [::] outs 0) ->
  client_receive_or_king_send n 0 (Some outs) =
  sends (nth [::] outs) (iota 1 i.-1) (CRet (Err (Protocol i))).
Proof.
move=> iI so H Hi; have [i0 il] : 0 < i <= n /\ n - i = (n - i.+1).+1 by lia.
rewrite (crokss_prefix i0) ?il /=; last by move=> j ji; split; [apply: ltn_trans so|apply: H].
by rewrite (vget_nth [::] so) /= (introF eqP Hi).
Qed.

(** C43: it panics, after sending what there is, when there are fewer strings than parties. *)
Lemma c43_too_few n (outs : seq bytes) : 0 < size outs < n ->
  (forall j, j < size outs -> size (nth [::] outs j) = size (nth [::] outs 0)) ->
  client_receive_or_king_send n 0 (Some outs) =
  sends (nth [::] outs) (iota 1 (size outs).-1) (CRet Panic).
Proof.
move=> iI H; have [i0 il] : 0 < size outs <= n /\ n - size outs = (n - (size outs).+1).+1 by lia.
rewrite (crokss_prefix i0) ?il /=; last by move=> j ji; split; [|apply: H].
by rewrite (vget_panic (leqnn _)).
Qed.

Lemma c43_none n : client_receive_or_king_send n 0 (Some [::]) = CRet Panic.
Proof. by []. Qed.

(** C44: if one schedule without premature timeouts and failures ends, then all such schedules can
    be completed, with the same number of steps and the same final state. *)
Lemma c44_schedule_independence A (c d : cfg A) s0 :
  (forall p, separate (nth PHalt (procs c) p)) ->
  all clean s0 -> run s0 c = Some d -> final d ->
  forall s c', all clean s -> run s c = Some c' ->
  exists s', [/\ all clean s', run s' c' = Some d & size s + size s' = size s0].
Proof.
move=> S cs0 R0 T s c' cs R; have [s' [H1 H2 H3]] := run_confluent S cs0 cs R0 T R.
by exists s'; split.
Qed.

(** C44: hence two complete schedules agree. *)
Lemma c44_same_end A (c d d' : cfg A) s s' :
  (forall p, separate (nth PHalt (procs c) p)) ->
  all clean s -> run s c = Some d -> final d ->
  all clean s' -> run s' c = Some d' -> final d' -> d = d' /\ size s = size s'.
Proof.
move=> S cs R T cs' R' T'.
have [[|a s2] [H1 H2 H3]] := c44_schedule_independence S cs R T cs' R'.
  by move: H2 => /= [->]; split => //; rewrite -H3 addn0.
by move: H1 H2 => /= /andP[ca _]; rewrite T'.
Qed.

(** C44: crashes.  In whatever execution and at whatever moment party [d] stops, this is described
    by a crash point [(f, ms)]: with it the same schedule leads to the same messages in flight and
    the same states of the others, and from then on [d] sends nothing on any stream, whatever
    happens. *)
Lemma c44_every_stop_is_a_crash A n (P : nat -> pproc A) d s e : d < n ->
  run s (init (mkseq P n)) = Some e ->
  exists f ms e', [/\ run s (init (crashing n d f ms P)) = Some e', qs e' = qs e,
    forall p, p != d -> nth PHalt (procs e') p = nth PHalt (procs e) p &
    forall s' sid to, sent s' e' sid d to = [::]].
Proof.
move=> dn R; have dn' : d < size (procs (init (mkseq P n))) by rewrite size_mkseq.
have [f [ms [e' [R' H1 H2 H3 _]]]] := crash_run dn' R.
exists f, ms, e'; split => //; last by move=> *; apply: mute_sent.
by rewrite -crashing_set.
Qed.

(** C44: conversely, whatever the crashing party does before it stops, and whatever the others do,
    is what happens in an execution in which [d] does not crash but the others stop waiting. *)
Lemma c44_a_crash_only_stops A n (P : nat -> pproc A) d f ms s e' : d < n ->
  run s (init (crashing n d f ms P)) = Some e' ->
  exists s0 e, [/\ run s0 (init (mkseq P n)) = Some e, qs e = qs e' &
    forall p, p != d -> nth PHalt (procs e) p = nth PHalt (procs e') p].
Proof.
move=> dn; rewrite -crashing_set // => R.
have dn' : d < size (procs (init (mkseq P n))) by rewrite size_mkseq.
have [s0 [e [H1 H2 H3]]] := crash_only_stops dn' (or_intror (ex_intro _ f (ex_intro _ ms erefl))) R.
by exists s0, e; split => // p np; rewrite H3.
Qed.

(** C45: without premature timeouts, the messages collected in every round are those of that round,
    for any number of rounds on the same stream and in every schedule. *)
Lemma c45_rounds_separate n ord sid k (b : nat -> nat -> bytes) : 0 < n ->
  every_schedule (mkseq (fun p => pthread sid (rounds n p ord (mkseq (b p) k))) n) predT
    (fun p => mkseq (fun i => if p == 0 then Some (Full (mkseq (b^~ i) n)) else None) k).
Proof.
move=> n0; apply: prog_schedules => //; rewrite /mkseq.
elim: (iota 0 k) => [|i s IH] /=; first exact: KP_ret.
case E: (client_send_or_king_receive n 0 ord (b 0 i)) => [|||st K|] //.
have Est : st = nseq n None by move: E => [<-].
rewrite Est in E.
pose v p := if p == 0 then Some (Full [seq b q i | q <- iota 0 n]) else None.
apply: (@king_prog_bind _ _ n _ (fun p => client_send_or_king_receive n p ord (b p i))
  (fun p r => do! rs := rounds n p ord [seq b p i | i <- s] in CRet (Ok (r :: rs))) v) => //.
  apply: (@KP_gather _ _ _ _ _ (b^~ i) K (fun p => CRet (Ok (v p)))) => //.
  - by move=> p pI; rewrite /client_send_or_king_receive /v; have -> : (p == 0) = false by lia.
  - move=> d nd; rewrite -(@csokr_full n ord (b^~ i) K n0 E); congr K.
    apply: (@eq_from_nth _ None); rewrite !size_mkseq // => j jl.
    by rewrite !nth_mkseq //; have -> : (j == d) = (j == n) by lia.
  exact: KP_ret.
apply: (king_prog_bind n0 IH); exact: KP_ret.
Qed.

(** C45: a message that arrives after the timeout of its round is taken for the message of the next
    round: here party 1 sends [1] and then [2], and the king's second collection contains [1]. *)
Lemma c45_late_message_refuted :
  let prog p := pthread 0 (rounds 2 p id [:: [:: p]; [:: p.+1]]) in
  exists s d, run s (init (mkseq prog 2)) = Some d /\
    nth PHalt (procs d) 0
    = PRet (Ok [:: Some (Partial [:: (0, [:: 0])]); Some (Full [:: [:: 1]; [:: 1]])]).
Proof.
pose king k : action := (0, LThread 0 k); pose party1 : action := (1, LThread 0 KOp).
exists [:: king KTimeout; party1; king (KArrive 1); king KGathered; (0, LJoin)].
by eexists; split; vm_compute.
Qed.

(** C52: a vector is recovered from its serialization, whatever follows. *)
Lemma c52_vector_round_trip T (c : codec T) m (s : seq T) rest : codec_ok c m ->
  size s < 256 ^ 8 -> dec (vec_codec c) (enc (vec_codec c) s ++ rest) = Some (s, rest).
Proof. by move=> H ss; apply: (dec_vecK H). Qed.

(** C52: the size depends on the length only. *)
Lemma c52_vector_size T (c : codec T) m (s : seq T) : codec_ok c m ->
  size (enc (vec_codec c) s) = 8 + size s * m.
Proof. by move=> H; apply: (size_enc_vec H). Qed.

(** C52: a truncated serialization is rejected. *)
Lemma c52_truncated T (c : codec T) m (s : seq T) k : codec_ok c m ->
  size s < 256 ^ 8 -> k < size (enc (vec_codec c) s) ->
  dec (vec_codec c) (take k (enc (vec_codec c) s)) = None.
Proof. by move=> H ss; rewrite (size_enc_vec H); apply: (dec_vec_short H). Qed.

(** C53: on every stream what was sent (after what was already in flight) is what was received
    followed by what is still in flight, in order; for every schedule. *)
Lemma c53_fifo A (c c' : cfg A) s sid from to : run s c = Some c' ->
  from < size (procs c) -> to < size (procs c) ->
  queue c sid from to ++ sent s c sid from to = got s c sid from to ++ queue c' sid from to.
Proof.
elim: s c => [|a s IH] c /=; first by case=> <-; rewrite cats0.
case E: (step a c) => [c1|] // R fl tl.
rewrite catA (step_stream sid E fl tl) -!catA; congr (_ ++ _).
by apply: IH => //; rewrite (step_size E).
Qed.

(** C53: a step of a thread bound to stream [sid] changes no other stream, and on stream [sid] only
    queues to or from the party that acts. *)
Lemma c53_isolation A (c c' : cfg A) p la sid from to : step (p, la) c = Some c' ->
  from < size (procs c) -> to < size (procs c) ->
  (match nth PHalt (procs c) p, la with
   | PJoin B ts k, LThread j _ => (nth (0, CHalt) ts j).1 != sid
   | _, _ => true
   end) || (from != p) && (to != p) ->
  queue c' sid from to = queue c sid from to.
Proof.
move=> E fl tl H; have := step_stream sid E fl tl.
have -> : sent_by (p, la) c sid from to = [::].
  rewrite /sent_by; case: la H {E} => // j [] // H.
  case: (altP (from =P p)) => [->|fp] in H *; last first.
    case: (nth PHalt _ from) => // B ts k; case: (nth _ ts j) => s' [] // *.
    by rewrite eq_sym (negbTE fp).
  case: (nth PHalt _ p) H => // B ts k; rewrite orbF; case: (nth _ ts j) => s' [] //= t b k' H.
  by rewrite (negbTE H) !andbF.
have -> : takes (p, la) c sid from to = false.
  rewrite /takes; case: la H {E} => // j kd H.
  case: (altP (to =P p)) => [->|fp] in H *; last first.
    by case: kd {H} => //; case: (nth PHalt _ to) => // B ts k; case: (nth _ ts j) => s' [] // *;
      rewrite eq_sym (negbTE fp).
  rewrite andbF orbF in H; case: (nth PHalt _ p) H => [r|B ts k|].
  - by case: kd.
  - by case: kd => // [|id]; case: (nth _ ts j) => s' [] //= x y H; rewrite (negbTE H) !andbF.
  by case: kd.
by rewrite cats0 => ->.
Qed.
