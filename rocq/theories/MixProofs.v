(** King rounds in which some parties are silent and others send bytes that cannot be decoded. *)
From mathcomp Require Import all_ssreflect all_algebra.
From mathcomp Require Import zify.
From Verif Require Import Base ModelField ModelPss ModelNet ModelProto SpecNet SpecBytes.
From Verif Require Import NetProofs KingProofs KingFail RoundProofs SetupProofs FewProofs PssProofs ProtoProofs FewThm ModelNet.
Set Implicit Arguments.
Unset Strict Implicit.
Unset Printing Implicit Defensive.

Section Mixed.
Variables (T U B : Type) (c : codec T) (c' : codec U) (n sid : nat) (ord : hash_order).
Variables (x : nat -> T) (thr : nat) (king : received T -> res (seq U)) (R : nat -> U -> cproc B).
Variables (dead bad : pred nat) (w : nat -> bytes).
Hypotheses (n_gt0 : 0 < n) (ordP : hash_ok ord) (king_lives : ~~ dead 0) (king_good : ~~ bad 0).
Hypothesis xK : forall i, i < n -> decode c (enc c (x i)) = Ok (x i).
Hypothesis wbad : forall p, p < n -> bad p -> decode c (w p) = Err Generic.
Variable d0 : nat.
Hypotheses (d0n : d0 < n) (d0d : dead d0).

  Local Notation gone := (fun p => dead p || bad p).
  Local Notation heard := (alive n gone).

Lemma heardE : heard = [seq i <- alive n dead | ~~ bad i].
Proof. by rewrite /alive -filter_predI; apply: eq_filter => i; rewrite /= negb_or andbC. Qed.

Lemma alive_lt : size (alive n dead) < n.
Proof.
have H : ~~ all (predC dead) (iota 0 n).
  by apply/allPn; exists d0; rewrite ?mem_iota //= d0d.
move: H; rewrite all_count size_iota /alive size_filter ltn_neqAle => ->.
by rewrite -[X in (_ <= X)%N](size_iota 0 n) count_size.
Qed.

Lemma heard_lt : size heard < n.
Proof. by apply: leq_ltn_trans alive_lt; rewrite heardE size_filter count_size. Qed.

(** the order in which the king sees the messages it can decode *)
Definition ord_good : hash_order := fun s =>
  if s == heard then [seq i <- ord (alive n dead) | ~~ bad i] else s.

Lemma ord_goodP : hash_ok ord_good.
Proof.
move=> s; rewrite /ord_good; case: eqP => [->|_//].
by rewrite heardE perm_filter.
Qed.

Lemma ids_good : alive_ids n ord_good gone = [seq i <- ord (alive n dead) | ~~ bad i].
Proof.
by rewrite /alive_ids /ord_good eqxx; have -> : (size heard == n) = false by have := heard_lt; lia.
Qed.

Let msg p := if bad p then w p else enc c (x p).
Let store := mkseq (fun i => if (i == 0) || dead i then None else Some (msg i)) n.

Lemma mix_store_ids b : store_ids (set_nth None store 0 (Some b)) = alive n dead.
Proof.
rewrite /store_ids size_set_nth size_mkseq (maxn_idPr n_gt0).
apply/eq_in_filter => i; rewrite mem_iota add0n => /andP[_ il].
rewrite nth_set_nth /= nth_mkseq //; case: eqP => [->|_] /=; first by rewrite king_lives.
by case: (dead i).
Qed.

Lemma mix_store_get i : i \in alive n dead ->
  store_get (set_nth None store 0 (Some (enc c (x 0)))) i = msg i.
Proof.
rewrite mem_filter mem_iota add0n => /andP[nl il].
rewrite /store_get nth_set_nth /=; case: eqP => [->|/eqP i0]; first by rewrite /msg (negbTE king_good).
by rewrite nth_mkseq // (negbTE i0) (negbTE nl).
Qed.

Lemma mix_king_store K : csokr_ser c n 0 ord (x 0) thr = CGather (nseq n None) K ->
  K store = CRet (if size heard < thr then Err (Protocol 0)
                  else Ok (Some (from_alive n ord_good x gone))).
Proof.
rewrite /csokr_ser /client_send_or_king_receive /= => -[<-].
have E0 : nth None store 0 = None by rewrite nth_mkseq.
rewrite E0 [odflt _ None]/= mix_store_ids /from_alive ids_good.
have -> : (size (alive n dead) == n) = false by have := alive_lt; lia.
rewrite /=; set rs := pmap _ _.
have Hin i : i \in ord (alive n dead) -> i \in alive n dead by rewrite (perm_mem (ordP _)).
have -> : rs = [seq (i, x i) | i <- [seq i <- ord (alive n dead) | ~~ bad i]].
  rewrite /rs; elim: (ord (alive n dead)) Hin => // i s IH Hin.
  have it := Hin i (mem_head _ _).
  have il : i < n by move: it; rewrite mem_filter mem_iota add0n => /andP[_ /andP[]].
  have IH' := IH (fun j jI => Hin j (mem_behead (s := i :: s) jI)).
  rewrite [map _ (i :: s)]/= [pmap _ _]/= mix_store_get // /msg [filter _ _]/=.
  by case bi: (bad i); rewrite ?wbad ?xK //= IH'.
have Es : size [seq i <- ord (alive n dead) | ~~ bad i] = size heard.
  by rewrite heardE; apply: perm_size; rewrite perm_filter.
rewrite size_map Es; case: ifP => _ //=.
by rewrite -!map_comp /= (eq_map (f2 := x)) // (eq_map (f2 := id)) ?map_id.
Qed.

Let kc p b := cbind (clift (decode c' b)) (R p).

Definition mix_prog p : cproc B :=
  if bad p then sending w p (few_prog c c' n ord x thr king R p) else few_prog c c' n ord x thr king R p.

Lemma mix_peer p : 0 < p -> mix_prog p = CSend 0 (msg p) (CRecv 0 (kc p)).
Proof.
move=> p0; have p0' : (p == 0) = false by rewrite gtn_eqF.
rewrite /mix_prog /msg /sending p0' /few_prog /csokr_ser /client_send_or_king_receive p0'.
by rewrite /crokss_ser /client_receive_or_king_send /= p0'; case: (bad p).
Qed.

Let prog p := if dead p then CHalt else mix_prog p.

Lemma mix_gather : exists K, [/\ prog 0 = CGather (nseq n None) K,
  K store = (if size heard < thr then CRet (Err (Protocol 0))
             else do! outs := clift (rmap Some (king (from_alive n ord_good x gone))) in
                  do! v := crokss_ser c' n 0 outs in R 0 v) &
  chreach n prog (fun _ _ => [::])
    (fun p => if p == 0 then K store else if dead p then CHalt else CRecv 0 (kc p)) (fun _ _ => [::])].
Proof.
case E: (csokr_ser c n 0 ord (x 0) thr) => [|||st K|] //.
have Est : st = nseq n None by move: E => [<-].
rewrite {}Est in E; have EK := mix_king_store E.
pose K' st := do! rs := K st in do! outs := clift (king_map king rs) in
  do! v := crokss_ser c' n 0 outs in R 0 v.
have P0 : prog 0 = CGather (nseq n None) K'.
  by rewrite /prog (negbTE king_lives) /mix_prog (negbTE king_good) /few_prog E.
have Pp p : 0 < p < n -> prog p = CSend 0 (msg p) (CRecv 0 (kc p)) \/ prog p = CHalt.
  case/andP=> p0 _; rewrite /prog; case: (dead p); first by right.
  by left; rewrite mix_peer.
have hal p : 0 < p < n -> halted (prog p) = dead p.
  by case/andP=> p0 _; rewrite /prog; case: (dead p) => //; rewrite mix_peer.
exists K'; split => //.
  by rewrite /K' EK; case: ifP.
have R1 := gather_run n_gt0 (Q := fun _ _ => [::]) P0 Pp (fun _ _ => erefl).
apply: chreach_trans R1 (ch_refl _ _) => // p pn; case: (altP (p =P 0)) => [_|p0].
  congr K'; apply: (@eq_from_nth _ None); rewrite !size_mkseq // => i il.
  rewrite !nth_mkseq //; case: eqP => //= /eqP i0; rewrite hal //; lia.
by rewrite hal //; lia.
Qed.

Lemma mix_fail v :
  (size heard < thr /\ v = Err (Protocol 0)) \/
  ((size heard < thr) = false /\ king (from_alive n ord_good x gone) = Panic /\ v = Panic) ->
  king_fails (with_silent n sid dead mix_prog) v.
Proof.
move=> Hv; have [K [P0 EK R1]] := mix_gather.
have {}EK : K store = CRet v.
  by rewrite EK; case: Hv => [[-> ->]|[-> [-> ->]]].
have vE : stopped (CRet v : cproc B) by case: Hv => [[_ ->]|[_ [_ ->]]].
set T' := (fun p => if p == 0 then _ else _) in R1.
have blk p : p < n -> blocked n (fun _ _ => [::]) p (T' p).
  move=> pn; rewrite /T'; case: (altP (p =P 0)) => [_|p0]; first by rewrite EK; case: (v) vE.
  by case: (dead p) => //; split => //; rewrite eq_sym.
have := channel_fails sid n_gt0 R1 blk; rewrite -/(with_silent n sid dead mix_prog).
by apply => //; rewrite /T' EK.
Qed.

Lemma mix_ok (ans : nat -> U) (vals : nat -> B) :
  (size heard < thr) = false ->
  king (from_alive n ord_good x gone) = Ok (mkseq ans n) ->
  (forall i, i < n -> decode c' (enc c' (ans i)) = Ok (ans i)) ->
  (forall i, i < n -> size (enc c' (ans i)) = size (enc c' (ans 0))) ->
  (forall p, p < n -> ~~ dead p -> R p (ans p) = CRet (Ok (vals p))) ->
  every_schedule (with_silent n sid dead mix_prog) (predC dead) vals.
Proof.
move=> Ht Hk aK aS HR; have [K [P0 EK R1]] := mix_gather.
set outs := [seq enc c' a | a <- mkseq ans n].
have so : size outs = n by rewrite size_map size_mkseq.
have no i : i < n -> nth [::] outs i = enc c' (ans i).
  by move=> il; rewrite (nth_map (ans 0)) ?size_mkseq // nth_mkseq.
have {}EK : K store = sends (nth [::] outs) (iota 1 n.-1) (CRet (Ok (vals 0))).
  rewrite EK Ht Hk /= /crokss_ser [omap _ _]/= -/outs crokss_king ?so //; last first.
    by move=> i il; rewrite !no ?aS.
  by rewrite !cbind_sends /= no // aK //= HR.
set T1 := (fun p => if p == 0 then _ else _) in R1.
have T10 : T1 0 = sends (nth [::] outs) (iota 1 n.-1) (CRet (Ok (vals 0))) by rewrite /T1 eqxx EK.
have T1p p : 0 < p < n -> T1 p = if dead p then CHalt else CRecv 0 (kc p).
  by move=> pI; rewrite /T1; have -> : (p == 0) = false by lia.
have [||Q2 [R2 [HQ2 HQ2']]] := @send_run _ n n_gt0 _ _ _ kc T1 (fun _ _ => [::]) (iota_uniq 1 _) _ T10.
- by move=> p; rewrite mem_iota; lia.
- move=> p; rewrite mem_iota => pI; rewrite T1p; last by lia.
  by case: ifP; [left|right].
set T2 := (X in chreach _ _ _ X _) in R2.
apply: (@channel_every _ n sid _ T2 Q2 (predC dead) vals n_gt0 (chreach_trans R1 R2) _ _).1.
- move=> p pn /= lp; rewrite /T2; case: (altP (p =P 0)) => [->//|p0]; have pI : 0 < p < n by lia.
  rewrite T1p // (negbTE lp) mem_iota; have -> : 0 < p < 1 + n.-1 by lia.
  by rewrite -[~~ halted _]/true /= /kc no // aK //= HR.
- move=> p pn /=; rewrite negbK => dp; rewrite /T2; have p0 : p != 0 by apply: contraL dp => /eqP ->.
  rewrite (negbTE p0) T1p ?dp ?andbF //; lia.
Qed.
End Mixed.

(** ** the same for the protocols: [prog] is one round, [king] may be called with any order *)
Section Proto.
Variables (F : fftField) (pp : pss F).
  Local Notation n := (p_n pp).
Variables (T U B : Type) (c : codec T) (c' : codec U) (sid : nat) (ord : hash_order) (x : nat -> T).
Variables (king : received T -> res (seq U)) (R : nat -> U -> cproc B) (prog : nat -> cproc B).
Variables (dead bad : pred nat) (w : nat -> bytes).
Hypotheses (ok : pp_ok pp) (Ho : hash_ok ord).
Hypothesis king_ok : ~~ (dead 0 || bad 0).
Hypothesis some_dead : live_count n dead < n.
Hypothesis wbad : forall p, p < n -> bad p -> decode c (w p) = Err Generic.

  Local Notation gone := (fun p => dead p || bad p).
  Local Notation live := (live_count n gone).
Let ps := with_garbled n sid dead bad w prog.

Lemma somebody : exists2 d, d < n & dead d.
Proof.
have : ~~ all (predC dead) (iota 0 n) by rewrite all_count size_iota; move: some_dead; rewrite /live_count; lia.
by case/allPn => d; rewrite mem_iota add0n => /andP[_ dn] /negPn; exists d.
Qed.

Lemma psE : (forall p, p < n -> prog p = few_prog c c' n ord x (p_t pp) king R p) ->
  ps = with_silent n sid dead (mix_prog c c' n ord x (p_t pp) king R bad w).
Proof.
by move=> Ep; apply/eq_in_map => p; rewrite mem_iota add0n => /andP[_ lt_p]; rewrite /mix_prog Ep.
Qed.

Lemma mix_fails (dbg : bool) lim :
  (forall i, i < n -> decode c (enc c (x i)) = Ok (x i)) ->
  (dbg -> p_t pp <= live <= lim -> forall o, hash_ok o ->
    king (Received [seq x i | i <- alive_ids n o gone] (alive_ids n o gone)) = Panic) ->
  (forall p, p < n -> prog p = few_prog c c' n ord x (p_t pp) king R p) ->
  (live < p_t pp -> king_fails ps (Err (Protocol 0))) /\
  (dbg -> p_t pp <= live <= lim -> king_fails ps Panic).
Proof.
move=> xK Hk Ep; have n0 : 0 < n := ltnW (n_gt1 ok).
have [d dn dd] := somebody; have [k0 b0] := norP king_ok.
have oP := ord_goodP n dead bad Ho.
rewrite psE //; have sa := size_aliveE pp gone; split=> [lt_k|g lt_k].
  by apply: (mix_fail c' sid R n0 Ho k0 b0 xK wbad dn dd); left; rewrite sa.
apply: (mix_fail c' sid R n0 Ho k0 b0 xK wbad dn dd); right; rewrite sa; split; last by split=> //; apply: Hk.
by apply/negbTE; rewrite -leqNgt; case/andP: lt_k.
Qed.

Lemma mix_yields (ans : nat -> U) (vals : nat -> B) : p_t pp <= live ->
  (forall i, i < n -> decode c (enc c (x i)) = Ok (x i)) ->
  (forall o, hash_ok o -> king (Received [seq x i | i <- alive_ids n o gone] (alive_ids n o gone)) = Ok (mkseq ans n)) ->
  (forall i, i < n -> decode c' (enc c' (ans i)) = Ok (ans i)) ->
  (forall i, i < n -> size (enc c' (ans i)) = size (enc c' (ans 0))) ->
  (forall p, p < n -> R p (ans p) = CRet (Ok (vals p))) ->
  (forall p, p < n -> prog p = few_prog c c' n ord x (p_t pp) king R p) ->
  every_schedule ps (predC dead) vals.
Proof.
move=> le_t xK Hk aK aS HR Ep; have n0 : 0 < n := ltnW (n_gt1 ok).
have [d dn dd] := somebody; have [k0 b0] := norP king_ok.
have oP := ord_goodP n dead bad Ho.
rewrite psE //; apply: (mix_ok sid n0 Ho k0 b0 xK wbad dn dd _ (Hk _ oP) aK aS).
  by rewrite (size_aliveE pp gone); apply/negbTE; rewrite -leqNgt.
by move=> p lt_p _; apply: HR.
Qed.
End Proto.
