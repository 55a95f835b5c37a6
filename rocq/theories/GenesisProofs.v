(** The genesis round of the local test network. *)
From mathcomp Require Import all_ssreflect.
From mathcomp Require Import zify.
From Verif Require Import Base ModelNet ModelWire ModelSetup SpecNet SpecWire.
From Verif Require Import NetProofs KingProofs KingFail RoundProofs NetThm WireProofs SetupProofs.
Set Implicit Arguments.
Unset Strict Implicit.
Unset Printing Implicit Defensive.

Lemma u32_size x : size (enc u32_codec x) = 4.
Proof. exact: size_le_bytes. Qed.

Lemma u32K x : x < 256 ^ 4 -> decode u32_codec (enc u32_codec x) = Ok x.
Proof.
move=> lt_x; have sx := u32_size x; have vx : le_value (enc u32_codec x) = x by exact: le_bytesK.
move: (enc _ _) sx vx {lt_x} => b sb vb.
by rewrite /decode /= sb -[4 < 4]/false take_oversize ?sb // vb.
Qed.

Lemma genesis_prog n ord : 0 < n -> n <= 256 ^ 4 -> hash_ok ord ->
  king_prog n (fun d => n <= d) (fun p => genesis n p ord) id.
Proof.
move=> n0 nb ordP.
have dn i : i < n -> decode u32_codec (enc u32_codec i) = Ok i.
  by move=> il; apply: u32K; apply: leq_trans il nb.
apply: (@king_round _ _ u32_codec u32_codec n _ ord id 0 (fun r => Ok (shares r)) id _
  (fun _ v => clift (Ok v)) id n0 _ ordP (leq0n _) dn dn _ _ _).
- by move=> d; lia.
- by move=> i il; rewrite !u32_size.
- by move=> d nd; rewrite /received_from ltnNge nd.
exact: KP_ret.
Qed.

Section Late.
Variables (cd : codec nat) (m n : nat) (ord : hash_order) (late : pred nat).
Hypotheses (n_gt0 : 0 < n) (cdK : forall i, i < n -> decode cd (enc cd i) = Ok i) (cd_size : forall i, size (enc cd i) = m) (ordP : hash_ok ord).
Hypotheses (king_on_time : ~~ late 0) (some_late : has late (iota 1 n.-1)).

Definition gen (me : nat) : cproc nat :=
  do! from_all := csokr_ser cd n me ord me 0 in
  do! out := clift (if from_all is Some r then Ok (Some (shares r)) else Ok None) in
  do! v := crokss_ser cd n me out in
  clift (Ok v).

Let on_time := [seq i <- iota 0 n | ~~ late i].
Let store := mkseq (fun i => if (i == 0) || late i then None else Some (enc cd i)) n.
Let ids := ord on_time.

Lemma size_on_time : 0 < size on_time < n.
Proof.
rewrite /on_time size_filter; apply/andP; split.
  by rewrite -has_count; apply/hasP; exists 0; rewrite // mem_iota n_gt0.
rewrite -[X in _ < X](size_iota 0 n) -(count_predC late) -[X in X < _]add0n ltn_add2r -has_count.
by case: n n_gt0 some_late => //= k _ ->; rewrite orbT.
Qed.

Lemma store_ids_late b : store_ids (set_nth None store 0 (Some b)) = on_time.
Proof.
rewrite /store_ids size_set_nth size_mkseq (maxn_idPr n_gt0).
apply/eq_in_filter => i; rewrite mem_iota add0n => /andP[_ il].
rewrite nth_set_nth /= nth_mkseq //; case: eqP => [->|_] /=; first by rewrite king_on_time.
by case: (late i).
Qed.

Lemma store_get_late b i : i \in on_time -> b = enc cd 0 ->
  store_get (set_nth None store 0 (Some b)) i = enc cd i.
Proof.
rewrite mem_filter mem_iota add0n => /andP[nl il] ->.
rewrite /store_get nth_set_nth /=; case: eqP => [->//|/eqP i0].
by rewrite nth_mkseq // (negbTE i0) (negbTE nl).
Qed.

Lemma gen_late K : gen 0 = CGather (nseq n None) K ->
  K store = sends (fun j => enc cd (nth 0 ids j)) (iota 1 (size on_time).-1) (CRet Panic).
Proof.
have [s0 sn] := andP size_on_time.
rewrite /gen /csokr_ser /client_send_or_king_receive /= => -[<-].
have E0 : nth None store 0 = None by rewrite nth_mkseq.
rewrite E0 [odflt _ None]/= store_ids_late.
have -> : (size on_time == n) = false by lia.
have Hin i : i \in ids -> i \in on_time by rewrite (perm_mem (ordP _)).
rewrite [cbind (CRet _) _]/= -/ids.
set rs := pmap _ _.
have -> : rs = [seq (i, i) | i <- ids].
  rewrite /rs; elim: (ids) Hin => // i s IH Hin.
  have it := Hin i (mem_head _ _).
  rewrite [map _ _]/= [pmap _ _]/= store_get_late // cdK; last first.
    by move: it; rewrite mem_filter mem_iota add0n => /andP[_ il].
  by rewrite /= IH // => j jI; apply: Hin; rewrite inE jI orbT.
rewrite /= -map_comp (eq_map (f2 := id)) // map_id.
rewrite /crokss_ser [omap _ _]/=.
have si : size ids = size on_time by rewrite (perm_size (ordP _)).
have no j : j < size ids -> nth [::] (map (enc cd) ids) j = enc cd (nth 0 ids j).
  by move=> jl; rewrite (nth_map 0).
have E := @c43_too_few n (map (enc cd) ids).
rewrite size_map si in E; rewrite E; first last.
- by move=> j jl; rewrite !no ?cd_size // si.
- by rewrite s0 sn.
rewrite !cbind_sends /=.
have : {subset iota 1 (size on_time).-1 <= iota 0 (size on_time)}.
  by move=> j; rewrite !mem_iota; lia.
elim: (iota 1 _) => // j js IH Hj; rewrite [LHS]/= [RHS]/=; congr CSend.
  by apply: no; have := Hj j (mem_head _ _); rewrite mem_iota si; lia.
by apply: IH => i iI; apply: Hj; rewrite inE iI orbT.
Qed.

Definition late_prog p := if late p then CHalt else gen p.

Lemma gen_peer p : 0 < p -> gen p =
  CSend 0 (enc cd p) (CRecv 0 (fun b => do! v := clift (decode cd b) in clift (Ok v))).
Proof.
move=> p0; have p0' : (p == 0) = false by lia.
by rewrite /gen /csokr_ser /client_send_or_king_receive p0' /crokss_ser /client_receive_or_king_send /= p0'.
Qed.

Lemma gen_late_panics : king_panics_last (mkseq (fun p => pthread 0 (late_prog p)) n).
Proof.
have [s0 sn] := andP size_on_time.
case E: (gen 0) => [|||st K|] //.
have Est : st = nseq n None by move: E => [<-].
rewrite {}Est in E.
have EK := gen_late E.
pose kc (_ : nat) b : cproc nat := do! v := clift (decode cd b) in clift (Ok v).
have P0 : late_prog 0 = CGather (nseq n None) K by rewrite /late_prog (negbTE king_on_time).
have Pp p : 0 < p < n -> late_prog p = CSend 0 (enc cd p) (CRecv 0 (kc p)) \/ late_prog p = CHalt.
  case/andP=> p0 _; rewrite /late_prog; case: (late p); first by right.
  by left; rewrite gen_peer.
have hal p : 0 < p < n -> halted (late_prog p) = late p.
  by case/andP=> p0 _; rewrite /late_prog; case: (late p) => //; rewrite gen_peer.
have R1 := gather_run n_gt0 (Q := fun _ _ => [::]) P0 Pp (fun _ _ => erefl).
set T1 := (X in chreach _ _ _ X _) in R1.
have T10 : T1 0 = sends (fun j => enc cd (nth 0 ids j)) (iota 1 (size on_time).-1) (CRet Panic).
  rewrite /T1 eqxx -EK; congr K; apply: (@eq_from_nth _ None); rewrite !size_mkseq // => i il.
  rewrite !nth_mkseq //; case: eqP => //= /eqP i0; rewrite hal //; lia.
have T1p p : 0 < p < n -> T1 p = if late p then CHalt else CRecv 0 (kc p).
  by move=> pI; rewrite /T1 hal //; have -> : (p == 0) = false by lia.
have [||Q2 [R2 [HQ2 HQ2']]] := @send_run _ n n_gt0 _ _ _ kc T1 (fun _ _ => [::]) (iota_uniq 1 _) _ T10.
- by move=> p; rewrite mem_iota; lia.
- move=> p; rewrite mem_iota => pI; rewrite T1p; last by lia.
  by case: ifP; [left|right].
set T2 := (X in chreach _ _ _ X _) in R2.
pose got_it p := [&& 0 < p, p < size on_time & ~~ late p].
have [|p pn|d [[[s1 cs1 R] sd] Fd Hl Hd]] := @channel_final _ n 0 _ T2 Q2 got_it (fun p => nth 0 ids p) n_gt0
  (chreach_trans R1 R2).
- move=> p pn /and3P[p0 ps lp]; have pI : 0 < p < n by lia.
  rewrite /T2 T1p // (negbTE lp) mem_iota add1n; have -> : (p == 0) = false by lia.
  have -> : (0 < p < (size on_time).-1.+1) by lia.
  rewrite -[~~ halted _]/true /= /kc cdK //.
  have : nth 0 ids p \in on_time.
    by rewrite -(perm_mem (ordP _)) mem_nth // (perm_size (ordP _)).
  by rewrite mem_filter mem_iota add0n => /andP[_ il].
- move=> ng; rewrite /T2; case: (altP (p =P 0)) => [//|p0]; have pI : 0 < p < n by lia.
  rewrite T1p //; case lp: (late p); first by rewrite /= andbF.
  have -> : (p \in iota 1 (size on_time).-1) = false.
    by move: ng; rewrite /got_it lp mem_iota; lia.
  rewrite andFb /blocked; split=> //; first by rewrite eq_sym.
  rewrite HQ2' // T1p // lp -[halted _]/false andbF //.
have E0 : nth PHalt (procs d) 0 = pthread 0 (CRet Panic) by rewrite Hd // /T2 eqxx.
exists d, (Cfg (set_nth PHalt (procs d) 0 (PRet Panic)) (qs d)); split=> //.
- by rewrite /step E0.
- by rewrite /= nth_set_nth.
move=> s c cs Rs.
have Sep : separate_cfg (init (mkseq (fun p => pthread 0 (late_prog p)) n)) := separate_pthread _ _ _.
have [s' [cs' R' _]] := run_confluent Sep cs1 cs R Fd Rs.
by exists s'.
Qed.

End Late.

Lemma genesis_late_panics n ord late : n <= 256 ^ 4 -> hash_ok ord -> ~~ late 0 ->
  has late (iota 1 n.-1) ->
  king_panics_last (mkseq (fun p => pthread 0 (if late p then CHalt else genesis n p ord)) n).
Proof.
move=> nb ordP l0 hl; have n0 : 0 < n by case: n hl {nb}.
apply: (@gen_late_panics u32_codec 4 n ord late n0 _ u32_size ordP l0 hl) => i il.
by apply: u32K; apply: leq_trans il nb.
Qed.
