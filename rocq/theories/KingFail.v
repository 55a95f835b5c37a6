(** Executions in which the king panics. *)
From mathcomp Require Import all_ssreflect.
From mathcomp Require Import zify.
From Verif Require Import Base ModelNet SpecNet NetProofs KingProofs.
Set Implicit Arguments.
Unset Strict Implicit.
Unset Printing Implicit Defensive.

Lemma run_returned A s (c c' : cfg A) p r : run s c = Some c' ->
  nth PHalt (procs c) p = PRet r -> nth PHalt (procs c') p = PRet r.
Proof.
elim: s c => [|a s IH] c /=; first by move=> [<-].
case E: (step a c) => [c1|] // R H; apply: IH R _.
move: E; rewrite /step; case: a => q la; case E: (pstep _ _ _ _ _ _) => [[x o]|] // [<-] /=.
by rewrite nth_set_nth /=; case: eqP E => // <-; rewrite H.
Qed.

Lemma king_panics A n sid (progs : nat -> cproc A) K msgs kc : 0 < n ->
  progs 0 = CGather (nseq n None) K ->
  (forall p, 0 < p < n -> progs p = CSend 0 (msgs p) (CRecv 0 (kc p))) ->
  K (store_without n msgs n) = CRet Panic ->
  king_dies (mkseq (fun p => pthread sid (progs p)) n).
Proof.
move=> n0 P0 Pp HK; set ps := mkseq _ n.
have sps : size ps = n by rewrite size_mkseq.
have nps p : p < n -> nth PHalt ps p = pthread sid (progs p) by move=> pn; rewrite nth_mkseq.
have q0 s f t : queue (init ps) s f t = [::] by rewrite /queue nth_nil.
have R := gather_run n0 (T := progs) (Q := fun _ _ => [::]) P0
  (fun p pI => or_introl (Pp p pI)) (fun _ _ => erefl).
pose kk (p : nat) (rs : seq A) : pproc A := PRet (if rs is [:: r] then Ok r else Panic).
have Hp p : p < n -> predT p -> nth PHalt (procs (init ps)) p =
    PJoin (phase [:: sid] ((fun p _ => progs p) p)) (kk p).
  by move=> pn _; rewrite /= nps.
have [||d [[Rd sd] Hd _ Hq Hq']] := chreach_lift (isT : uniq [:: sid]) (isT : 0 < size [:: sid]) R
    (c := init ps) sps Hp (fun p _ _ => erefl).
- by move=> p _ /negP[].
- by move=> f t fn tn; rewrite q0.
rewrite /= in Hq Hq'.
pose T' p := if p == 0 then CRet Panic else CRecv 0 (kc p).
have Hd0 p : p < n -> nth PHalt (procs d) p = PJoin [:: (sid, T' p)] (kk p).
  move=> pn; rewrite Hd //= /phase /mkseq /= /updT eqxx /T'; case: eqP => [->|/eqP p0]; last first.
    by rewrite Pp //; lia.
  congr (PJoin [:: (_, _)] _); rewrite -HK; congr K; apply: (@eq_from_nth _ None); rewrite !size_mkseq //.
  move=> i il; rewrite !nth_mkseq //; case: eqP => //= /eqP i0.
  by rewrite Pp ?lt0n ?i0 //=; have -> : (i == n) = false by lia.
have Qd s f t : f < n -> t < n -> queue d s f t = [::].
  by move=> fn tn; case: (altP (s =P sid)) => [->|ns]; rewrite ?Hq ?Hq'.
pose d' := Cfg (set_nth PHalt (procs d) 0 (PRet Panic)) (qs d).
have sd' : size (procs d') = n by rewrite size_set_nth sd; apply/maxn_idPr.
have Hd' p : p < n -> nth PHalt (procs d') p = if p == 0 then PRet Panic else PJoin [:: (sid, T' p)] (kk p).
  by move=> pn; rewrite /= nth_set_nth /=; case: eqP => // _; rewrite Hd0.
have Qd' s f t : f < n -> t < n -> queue d' s f t = [::].
  by move=> fn tn; rewrite -(Qd s f t fn tn) /queue sd' sd.
have fin (c : cfg A) : size (procs c) = n -> (forall s f t, f < n -> t < n -> queue c s f t = [::]) ->
    (forall p, p < n -> (exists r, nth PHalt (procs c) p = PRet r) \/
                         nth PHalt (procs c) p = PJoin [:: (sid, T' p)] (kk p)) -> final c.
  move=> sc Qc Hc [p la] cl; rewrite /step; case: (ltnP p n) => pn; last first.
    by rewrite nth_default ?sc.
  case: (Hc p pn) => [[r ->]//|->] /=.
  case: la cl => [[|j] k||j] //= cl; last by rewrite /T'; case: (p == 0).
  rewrite /T'; case: eqP => [_|/eqP p0]; first by case: k cl.
  case: k cl => //= _; rewrite sc n0 /= eq_sym p0 Qc //.
exists d, d'; split.
- by apply: fin => // p pn; right; apply: Hd0.
- rewrite /step Hd0 //= /d'; congr (Some (Cfg _ _)).
- by apply: fin => // p pn; rewrite Hd' //; case: eqP => _; [left; eexists|right].
- by rewrite Hd'.
move=> s c cs Rs; have [s0 cs0 R0] := Rd.
have Fd : final d by apply: fin => // p pn; right; apply: Hd0.
have Sep : separate_cfg (init ps).
  move=> p /=; case: (ltnP p n) => pn; last by rewrite nth_default ?sps.
  by rewrite nps.
have [s' [cs' R' _]] := run_confluent Sep cs0 cs R0 Fd Rs.
split; first by exists s'.
move=> p r; rewrite sps => pI; have pn : p < n by lia.
have p0 : (p == 0) = false by lia.
split; last by rewrite Hd' // p0.
by move=> /(run_returned R'); rewrite Hd0.
Qed.
