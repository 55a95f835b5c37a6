(** King rounds in which some parties are silent from the start. *)
From mathcomp Require Import all_ssreflect.
From mathcomp Require Import zify.
From Verif Require Import Base ModelNet ModelProto SpecNet.
From Verif Require Import NetProofs KingProofs KingFail RoundProofs SetupProofs.
Set Implicit Arguments.
Unset Strict Implicit.
Unset Printing Implicit Defensive.

Lemma channel_fails A n sid (T T' : nat -> cproc A) Q' v : 0 < n ->
  chreach n T (fun _ _ => [::]) T' Q' ->
  (forall p, p < n -> blocked n Q' p (T' p)) -> T' 0 = CRet v -> stopped (CRet v : cproc A) ->
  king_fails (mkseq (fun p => pthread sid (T p)) n) v.
Proof.
move=> n0 R blk T0 sv; set ps := mkseq _ n.
have sps : size ps = n by rewrite size_mkseq.
have nps p : p < n -> nth PHalt ps p = pthread sid (T p) by move=> pn; rewrite nth_mkseq.
have q0 s f t : queue (init ps) s f t = [::] by rewrite /queue nth_nil.
pose kk (p : nat) (rs : seq A) : pproc A := PRet (if rs is [:: r] then Ok r else Panic).
have Hp p : p < n -> predT p -> nth PHalt (procs (init ps)) p =
    PJoin (phase [:: sid] ((fun p _ => T p) p)) (kk p).
  by move=> pn _; rewrite /= nps.
have [||d [[[s0 cs0 R0] sd] Hd _ Hq _]] := chreach_lift (isT : uniq [:: sid]) (isT : 0 < size [:: sid]) R
    (c := init ps) sps Hp (fun p _ _ => erefl).
- by move=> p _ /negP[].
- by move=> f t fn tn; rewrite q0.
rewrite /= in Hq.
have Hd0 p : p < n -> nth PHalt (procs d) p = pthread sid (T' p).
  by move=> pn; rewrite Hd //= /phase /mkseq /= /updT eqxx.
pose d' := Cfg (set_nth PHalt (procs d) 0 (PRet v)) (qs d).
have sd' : size (procs d') = n by rewrite size_set_nth sd; apply/maxn_idPr.
have Hd' p : p < n -> nth PHalt (procs d') p = if p == 0 then PRet v else pthread sid (T' p).
  by move=> pn; rewrite /= nth_set_nth /=; case: eqP => // _; rewrite Hd0.
have fin (c : cfg A) : size (procs c) = n -> (forall f t, f < n -> t < n -> queue c sid f t = Q' f t) ->
    (forall p, p < n -> (exists r, nth PHalt (procs c) p = PRet r) \/
                         nth PHalt (procs c) p = pthread sid (T' p)) -> final c.
  move=> sc Qc Hc [p la] cl; rewrite /step; case: (ltnP p n) => pn; last by rewrite nth_default ?sc.
  case: (Hc p pn) => [[r ->]//|->] /=; move: (blk p pn).
  case: (T' p) => [[w|e|]|to b K|f K|st K|] //= => [_|_|[fn fp Q0]|_].
  + by case: la cl => [[|j] [||||]||j].
  + by case: la cl => [[|j] [||||]||j].
  + case: la cl => [[|j] k||j] //= cl; case: k cl => //= _.
    by rewrite sc fn fp /= Qc // Q0.
  by case: la cl => [[|j] [||||]||j].
have Fd : final d by apply: fin => // p pn; right; apply: Hd0.
exists d, d'; split => //.
- by rewrite /step Hd0 //= T0 /d'; case: (v) sv.
- apply: fin => // [f t fn tn|p pn]; first by rewrite -Hq // /queue sd' sd.
  by rewrite Hd' //; case: eqP => _; [left; eexists|right].
- by rewrite Hd'.
move=> s c cs Rs.
have Sep : separate_cfg (init ps) := separate_pthread _ _ _.
have [s' [cs' R' _]] := run_confluent Sep cs0 cs R0 Fd Rs.
split; first by exists s'.
move=> p r; rewrite sps => pI; have pn : p < n by lia.
have p0 : (p == 0) = false by lia.
split; last by rewrite Hd' // p0.
by move=> /(run_returned R'); rewrite Hd0.
Qed.

Section Few.
Variables (T U B : Type) (c : codec T) (c' : codec U) (n sid : nat) (ord : hash_order).
Variables (x : nat -> T) (thr : nat) (king : received T -> res (seq U)) (R : nat -> U -> cproc B).
Variable dead : pred nat.
Hypotheses (n_gt0 : 0 < n) (ordP : hash_ok ord) (king_lives : ~~ dead 0).
Hypothesis xK : forall i, i < n -> decode c (enc c (x i)) = Ok (x i).

Definition alive := [seq i <- iota 0 n | ~~ dead i].
Definition alive_ids := if size alive == n then iota 0 n else ord alive.
Definition from_alive := Received [seq x i | i <- alive_ids] alive_ids.

Definition few_prog p : cproc B :=
  do! rs := csokr_ser c n p ord (x p) thr in
  do! outs := clift (king_map king rs) in
  do! v := crokss_ser c' n p outs in R p v.

Let store := mkseq (fun i => if (i == 0) || dead i then None else Some (enc c (x i))) n.

Lemma size_alive : 0 < size alive <= n.
Proof.
rewrite /alive size_filter; apply/andP; split.
  by rewrite -has_count; apply/hasP; exists 0; rewrite // mem_iota n_gt0.
by rewrite -[X in _ <= X](size_iota 0 n) count_size.
Qed.

Lemma alive_full : size alive = n -> alive = iota 0 n.
Proof.
move=> E; apply/eqP; rewrite -size_subseq_leqif ?filter_subseq //.
by rewrite E size_iota.
Qed.

Lemma store_ids_alive b : store_ids (set_nth None store 0 (Some b)) = alive.
Proof.
rewrite /store_ids size_set_nth size_mkseq (maxn_idPr n_gt0).
apply/eq_in_filter => i; rewrite mem_iota add0n => /andP[_ il].
rewrite nth_set_nth /= nth_mkseq //; case: eqP => [->|_] /=; first by rewrite king_lives.
by case: (dead i).
Qed.

Lemma store_get_alive i : i \in alive ->
  store_get (set_nth None store 0 (Some (enc c (x 0)))) i = enc c (x i).
Proof.
rewrite mem_filter mem_iota add0n => /andP[nl il].
rewrite /store_get nth_set_nth /=; case: eqP => [->//|/eqP i0].
by rewrite nth_mkseq // (negbTE i0) (negbTE nl).
Qed.

Lemma perm_alive : perm_eq alive_ids alive.
Proof.
rewrite /alive_ids; case: eqP => [/alive_full ->//|_]; exact: ordP.
Qed.

Lemma king_store K : csokr_ser c n 0 ord (x 0) thr = CGather (nseq n None) K ->
  K store = CRet (if (size alive < n) && (size alive < thr) then Err (Protocol 0)
                  else Ok (Some from_alive)).
Proof.
have [s0 sn] := andP size_alive.
rewrite /csokr_ser /client_send_or_king_receive /= => -[<-].
have E0 : nth None store 0 = None by rewrite nth_mkseq.
rewrite E0 [odflt _ None]/= store_ids_alive /from_alive /alive_ids.
case: eqP => [E|/eqP E].
  rewrite E ltnn /=.
  have -> : [seq store_get (set_nth None store 0 (Some (enc c (x 0)))) x0 | x0 <- iota 0 n]
     = [seq enc c (x i) | i <- iota 0 n].
    by apply/eq_in_map => i iI; rewrite store_get_alive // alive_full.
  have -> : mapM (decode c) [seq enc c (x i) | i <- iota 0 n] = Ok (mkseq x n).
    have : {subset iota 0 n <= iota 0 n} by [].
    rewrite /mkseq; elim: {1 3 4}(iota 0 n) => //= i s IH Hs.
    rewrite xK; last by have := Hs i (mem_head _ _); rewrite mem_iota; lia.
    by rewrite /= IH // => j jI; apply: Hs; rewrite inE jI orbT.
  by [].
have -> : size alive < n by lia.
rewrite /=; set rs := pmap _ _.
have Hin i : i \in ord alive -> i \in alive by rewrite (perm_mem (ordP _)).
have -> : rs = [seq (i, x i) | i <- ord alive].
  rewrite /rs; elim: (ord alive) Hin => // i s IH Hin.
  have it := Hin i (mem_head _ _).
  rewrite [map _ _]/= [pmap _ _]/= store_get_alive // xK; last first.
    by move: it; rewrite mem_filter mem_iota add0n => /andP[_ il].
  by rewrite /= IH // => j jI; apply: Hin; rewrite inE jI orbT.
rewrite size_map (perm_size (ordP _)); case: ifP => _ //=.
by rewrite -!map_comp /= (eq_map (f2 := x)) // (eq_map (f2 := id)) ?map_id.
Qed.

Let kc p b := cbind (clift (decode c' b)) (R p).

Lemma few_peer p : 0 < p -> few_prog p = CSend 0 (enc c (x p)) (CRecv 0 (kc p)).
Proof.
move=> p0; have p0' : (p == 0) = false by lia.
by rewrite /few_prog /csokr_ser /client_send_or_king_receive p0' /crokss_ser /client_receive_or_king_send /= p0'.
Qed.

Let prog p := if dead p then CHalt else few_prog p.

Lemma few_gather : exists K, [/\ prog 0 = CGather (nseq n None) K,
  K store = (if (size alive < n) && (size alive < thr) then CRet (Err (Protocol 0))
             else do! outs := clift (rmap Some (king from_alive)) in
                  do! v := crokss_ser c' n 0 outs in R 0 v) &
  chreach n prog (fun _ _ => [::])
    (fun p => if p == 0 then K store else if dead p then CHalt else CRecv 0 (kc p)) (fun _ _ => [::])].
Proof.
case E: (csokr_ser c n 0 ord (x 0) thr) => [|||st K|] //.
have Est : st = nseq n None by move: E => [<-].
rewrite {}Est in E; have EK := king_store E.
pose K' st := do! rs := K st in do! outs := clift (king_map king rs) in
  do! v := crokss_ser c' n 0 outs in R 0 v.
have P0 : prog 0 = CGather (nseq n None) K' by rewrite /prog (negbTE king_lives) /few_prog E.
have Pp p : 0 < p < n -> prog p = CSend 0 (enc c (x p)) (CRecv 0 (kc p)) \/ prog p = CHalt.
  case/andP=> p0 _; rewrite /prog; case: (dead p); first by right.
  by left; rewrite few_peer.
have hal p : 0 < p < n -> halted (prog p) = dead p.
  by case/andP=> p0 _; rewrite /prog; case: (dead p) => //; rewrite few_peer.
exists K'; split => //.
  by rewrite /K' EK; case: ifP.
have R1 := gather_run n_gt0 (Q := fun _ _ => [::]) P0 Pp (fun _ _ => erefl).
apply: chreach_trans R1 (ch_refl _ _) => // p pn; case: (altP (p =P 0)) => [_|p0].
  congr K'; apply: (@eq_from_nth _ None); rewrite !size_mkseq // => i il.
  rewrite !nth_mkseq //; case: eqP => //= /eqP i0; rewrite hal //; lia.
by rewrite hal //; lia.
Qed.
Lemma few_fail v :
  ((size alive < n) && (size alive < thr) /\ v = Err (Protocol 0)) \/
  (((size alive < n) && (size alive < thr) = false) /\ king from_alive = Panic /\ v = Panic) ->
  king_fails (with_silent n sid dead few_prog) v.
Proof.
move=> Hv; have [K [P0 EK R1]] := few_gather.
have {}EK : K store = CRet v.
  by rewrite EK; case: Hv => [[-> ->]|[-> [-> ->]]].
have vE : stopped (CRet v : cproc B) by case: Hv => [[_ ->]|[_ [_ ->]]].
set T' := (fun p => if p == 0 then _ else _) in R1.
have blk p : p < n -> blocked n (fun _ _ => [::]) p (T' p).
  move=> pn; rewrite /T'; case: (altP (p =P 0)) => [_|p0]; first by rewrite EK; case: (v) vE.
  by case: (dead p) => //; split => //; rewrite eq_sym.
have := channel_fails sid n_gt0 R1 blk; rewrite -/(with_silent n sid dead few_prog).
by apply => //; rewrite /T' EK.
Qed.

Lemma few_ok (ans : nat -> U) (vals : nat -> B) :
  (size alive < n) && (size alive < thr) = false ->
  king from_alive = Ok (mkseq ans n) ->
  (forall i, i < n -> decode c' (enc c' (ans i)) = Ok (ans i)) ->
  (forall i, i < n -> size (enc c' (ans i)) = size (enc c' (ans 0))) ->
  (forall p, p < n -> ~~ dead p -> R p (ans p) = CRet (Ok (vals p))) ->
  every_schedule (with_silent n sid dead few_prog) (predC dead) vals.
Proof.
move=> Ht Hk aK aS HR; have [K [P0 EK R1]] := few_gather.
set outs := [seq enc c' a | a <- mkseq ans n].
have so : size outs = n by rewrite size_map size_mkseq.
have no i : i < n -> nth [::] outs i = enc c' (ans i).
  by move=> il; rewrite (nth_map (ans 0)) ?size_mkseq // nth_mkseq.
have {}EK : K store = sends (nth [::] outs) (iota 1 n.-1) (CRet (Ok (vals 0))).
  rewrite EK Ht Hk /= /crokss_ser [omap _ _]/= -/outs crokss_king ?so //; last first.
    by move=> i il; rewrite !no ?aS.
  by rewrite !cbind_sends /= no // aK //= HR.
set T1 := (fun p => if p == 0 then _ else _) in R1.
have T10 : T1 0 = sends (nth [::] outs) (iota 1 n.-1) (CRet (Ok (vals 0))) by rewrite /T1 eqxx EK.
have T1p p : 0 < p < n -> T1 p = if dead p then CHalt else CRecv 0 (kc p).
  by move=> pI; rewrite /T1; have -> : (p == 0) = false by lia.
have [||Q2 [R2 [HQ2 HQ2']]] := @send_run _ n n_gt0 _ _ _ kc T1 (fun _ _ => [::]) (iota_uniq 1 _) _ T10.
- by move=> p; rewrite mem_iota; lia.
- move=> p; rewrite mem_iota => pI; rewrite T1p; last by lia.
  by case: ifP; [left|right].
set T2 := (X in chreach _ _ _ X _) in R2.
apply: (@channel_every _ n sid _ T2 Q2 (predC dead) vals n_gt0 (chreach_trans R1 R2) _ _).1.
- move=> p pn /= lp; rewrite /T2; case: (altP (p =P 0)) => [->//|p0]; have pI : 0 < p < n by lia.
  rewrite T1p // (negbTE lp) mem_iota; have -> : 0 < p < 1 + n.-1 by lia.
  by rewrite -[~~ halted _]/true /= /kc no // aK //= HR.
- move=> p pn /=; rewrite negbK => dp; rewrite /T2; have p0 : p != 0 by apply: contraL dp => /eqP ->.
  rewrite (negbTE p0) T1p ?dp ?andbF //; lia.
Qed.
End Few.
