(** Set-up of the networks. *)
From mathcomp Require Import all_ssreflect.
From mathcomp Require Import zify.
From Verif Require Import Base ModelNet ModelWire ModelSetup SpecNet SpecWire.
From Verif Require Import NetProofs KingProofs CrashProofs KingFail RoundProofs NetThm WireProofs.
Set Implicit Arguments.
Unset Strict Implicit.
Unset Printing Implicit Defensive.

(** ** The production network *)

Section Runs.
Variables (B : Type) (n : nat).
Hypothesis n_gt0 : 0 < n.
Implicit Types (T : nat -> cproc B) (Q : nat -> nat -> seq bytes).

Lemma reach_to T Q T1 Q1 T0 Q0 T' Q' : chreach n T1 Q1 T0 Q0 ->
  (forall p, p < n -> T p = T1 p) -> (forall f t, f < n -> t < n -> Q f t = Q1 f t) ->
  (forall p, p < n -> T0 p = T' p) -> (forall f t, f < n -> t < n -> Q0 f t = Q' f t) ->
  chreach n T Q T' Q'.
Proof.
move=> R H1 H2 H3 H4; apply: chreach_trans (chreach_ext H1 H2 R) _; exact: ch_refl.
Qed.

(** the king receives one message from each of [cs] *)
Lemma recv_each_run S (f : S -> nat -> bytes -> res S) (K : S -> cproc B) (m : nat -> bytes)
    (k : nat -> cproc B) cs s s' T Q :
  uniq cs -> (forall c, c \in cs -> 0 < c < n) ->
  T 0 = cbind (recv_each f s cs) K ->
  (forall c, c \in cs -> T c = CSend 0 (m c) (k c) /\ Q c 0 = [::]) ->
  foldM (fun s c => f s c (m c)) s cs = Ok s' ->
  chreach n T Q (fun p => if p == 0 then K s' else if p \in cs then k p else T p) Q.
Proof.
elim: cs s T Q => [|c cs IH] s T Q /=.
  move=> _ _ T0 _ [<-]; apply: ch_refl => // p _; by case: eqP => // ->.
case/andP=> ncs ucs Hcs T0 Hs.
case E: (f s c (m c)) => [s1|e|] //= Ef.
have [c0 cn] := andP (Hcs c (mem_head _ _)); have [Tc Qc] := Hs c (mem_head _ _).
have c00 : (c == 0) = false by rewrite eqn0Ngt c0.
apply: (@ch_step _ _ c KOp (k c) (QPush 0 (m c))) => //.
  by rewrite Tc /= n_gt0 /= eq_sym c00.
apply: (@ch_step _ _ 0 KOp (cbind (recv_each f s1 cs) K) (QPop c)) => //.
  by rewrite /updT eq_sym c00 T0 /= cn c00 /= !eqxx /= Qc /= E.
have H1 p : p \in cs -> (p == c) = false by move=> pc; apply/negP => /eqP Ep; rewrite -Ep pc in ncs.
have H0 p : p \in cs -> (p == 0) = false.
  by move=> pc; have := Hcs p; rewrite inE pc orbT => /(_ isT); lia.
apply: (reach_to (IH s1 (updT (updT T c (k c)) 0 (cbind (recv_each f s1 cs) K)) Q ucs _ _ _ Ef)) => //.
- by move=> p pc; apply: Hcs; rewrite inE pc orbT.
- by move=> p pc; rewrite /updT (H0 p pc) (H1 p pc); apply: Hs; rewrite inE pc orbT.
- by move=> f' t _ _ /=; case: (altP (f' =P c)) => [->|]; case: (altP (t =P 0)) => [->|] //=; rewrite ?Qc ?eqxx.
move=> p _; rewrite /updT inE; case: (altP (p =P 0)) => [//|p0].
by case: (altP (p =P c)) => [->|pc] //=; rewrite (negbTE ncs).
Qed.

End Runs.

Lemma send_eachE b cs : send_each b cs = sends (fun _ => b) cs (CRet (Ok tt)).
Proof. by elim: cs => //= c cs ->. Qed.

Section Prod.
Variables (k : nat) (ids : nat -> nat) (ord : hash_order).

Local Notation alive := (last_declared k ids).
Definition declared : seq (nat * nat) := rev [seq (ids c, c) | c <- iota 1 k & alive c].

Lemma inserts_declared :
  foldl (fun ps c => peers_insert ps (ids c) c) [::] (iota 1 k) = declared.
Proof.
rewrite /declared; elim: k => // j IH.
have Ei : iota 1 j.+1 = iota 1 j ++ [:: j.+1] by rewrite -(addn1 j) iotaD add1n addn1.
rewrite Ei foldl_cat IH /= /peers_insert filter_cat map_cat rev_cat /=.
have -> : last_declared j.+1 ids j.+1 by rewrite /last_declared subnn ltnSn.
congr (_ :: _); rewrite filter_rev; congr rev; rewrite filter_map -filter_predI; congr map.
apply: eq_in_filter => c; rewrite mem_iota add1n ltnS => cI /=.
rewrite /last_declared cI; have -> : 0 < c <= j.+1 by lia.
have -> : iota c.+1 (j.+1 - c) = iota c.+1 (j - c) ++ [:: j.+1].
  have -> : j.+1 - c = (j - c) + 1 by lia.
  by rewrite iotaD /= addSn subnKC //; lia.
by rewrite all_cat /= andbT andbC [_ == ids c]eq_sym.
Qed.

Lemma declared_values : [seq e.2 | e <- declared] = rev [seq c <- iota 1 k | alive c].
Proof. by rewrite /declared map_rev -map_comp map_id_in. Qed.

Lemma declared_keys : [seq e.1 | e <- declared] = rev [seq ids c | c <- iota 1 k & alive c].
Proof. by rewrite /declared map_rev -map_comp. Qed.

Lemma ids_inj c c' : alive c -> alive c' -> ids c = ids c' -> c = c'.
Proof.
move=> /andP[cI /allP Hc] /andP[cI' /allP Hc'] E; apply/eqP; rewrite eqn_leq; apply/andP; split.
  rewrite leqNgt; apply/negP => lt; have := Hc' c; rewrite mem_iota E eqxx; lia.
rewrite leqNgt; apply/negP => lt; have := Hc c'; rewrite mem_iota E eqxx; lia.
Qed.

Lemma lookup_declared c : alive c -> nth 0 [seq e.2 | e <- declared & e.1 == ids c] 0 = c.
Proof.
move=> ac; have -> : [seq e.2 | e <- declared & e.1 == ids c] = [:: c]; last by [].
rewrite /declared filter_rev map_rev filter_map -filter_predI -map_comp /=.
rewrite (eq_in_filter (a2 := pred1 c)); last first.
  move=> c' _ /=; apply/andP/eqP => [[/eqP E ac']|->]; last by rewrite eqxx.
  exact: ids_inj.
by rewrite filter_pred1_uniq ?iota_uniq // mem_iota add1n ltnS; case/andP: ac.
Qed.

Hypothesis ordP : hash_ok ord.

Lemma conns_perm : perm_eq (peers_values ord declared) [seq c <- iota 1 k | alive c].
Proof.
rewrite /peers_values; apply: perm_trans (perm_map _ (ordP _)) _.
rewrite declared_keys map_rev -map_comp perm_rev (@map_id_in _ _ [seq c <- iota 1 k | alive c]) // => c.
rewrite mem_filter => /andP[ac _]; exact: lookup_declared.
Qed.

End Prod.

(** the whole set-up *)
Lemma small4 : 0 < 256 ^ 4. Proof. by rewrite expn_gt0. Qed.

Lemma dec_sync p : (if p is Packet _ then false else true) -> dec_packet (enc_packet p) = Ok p.
Proof. by case: p => // _; rewrite -[enc_packet _]cats0 dec_enc_packet. Qed.

Lemma add_peers (msg : nat -> bytes) ids cs s :
  (forall c, c \in cs -> size (msg c) = 4 /\ be_value (msg c) = ids c) ->
  foldM (fun s c => add_peer s c (msg c)) s cs = Ok (foldl (fun ps c => peers_insert ps (ids c) c) s cs).
Proof.
elim: cs s => //= c cs IH s H; have [sm vm] := H c (mem_head _ _).
rewrite {1}/add_peer sm take_oversize ?sm // vm /= IH // => c' c'I.
by apply: H; rewrite inE c'I orbT.
Qed.

Lemma acks peers cs : foldM (fun s c => check_ack peers s c (enc_packet SynAck)) tt cs = Ok tt.
Proof.
have E c : check_ack peers tt c (enc_packet SynAck) = Ok tt.
  by rewrite /check_ack /recv_packet dec_sync.
by move: (enc_packet _) E => a E; elim: cs => //= c cs IH; rewrite E.
Qed.

Lemma prod_setup_run k ids ord : (forall c, 0 < c <= k -> ids c < 256 ^ 4) -> hash_ok ord ->
  exists T' Q', [/\
    chreach k.+1 (prod_setup k ids ord) (fun _ _ => [::]) T' Q',
    T' 0 = CRet (Ok (declared k ids)),
    forall p, 0 < p <= k -> last_declared k ids p -> T' p = CRet (Ok [:: (0, 0)]),
    forall p, 0 < p <= k -> ~~ last_declared k ids p ->
      (exists K, T' p = CRecv 0 K) /\ Q' 0 p = [::] &
    forall f t, Q' f t = [::]].
Proof.
move=> ids_small ordP.
pose msg c := be_bytes 4 (ids c).
pose wait (_ : nat) : cproc (seq (nat * nat)) := CRecv 0 (fun b =>
    do! p := clift (recv_packet b) in
    if p is Syn then CSend 0 (enc_packet SynAck) (CRet (Ok [:: (0, 0)]))
    else CRet (Err (Protocol 0))).
pose K0 peers := cbind (sync_king ord peers) (fun _ => clift (Ok peers)).
have E1 : foldM (fun s c => add_peer s c (msg c)) [::] (iota 1 k) = Ok (declared k ids).
  rewrite -inserts_declared; apply: add_peers => c; rewrite mem_iota => cI.
  by split; [exact: size_be_bytes|apply: be_bytesK; apply: ids_small; lia].
have I1 c : c \in iota 1 k -> 0 < c < k.+1 by rewrite mem_iota add1n.
have R1 : chreach k.+1 (prod_setup k ids ord) (fun _ _ => [::])
    (fun p => if p == 0 then K0 (declared k ids) else if p \in iota 1 k then wait p
              else prod_setup k ids ord p) (fun _ _ => [::]).
  apply: (@recv_each_run _ _ _ _ add_peer K0 msg wait (iota 1 k) [::]) => //; first exact: iota_uniq.
  by move=> c /I1 /andP[c0 _]; rewrite /prod_setup eqn0Ngt c0.
set T1 := (X in chreach _ _ _ X _) in R1.
have T1p p : 0 < p <= k -> T1 p = wait p.
  by move=> pI; rewrite /T1 eqn0Ngt mem_iota add1n ltnS pI; case/andP: pI => ->.
pose peers := declared k ids.
pose conns := peers_values ord peers.
have conns_mem p : p \in conns = last_declared k ids p.
  rewrite (perm_mem (conns_perm k ids ordP)) mem_filter mem_iota add1n ltnS.
  by rewrite /last_declared; case: (0 < p <= k); rewrite ?andbT ?andbF.
have conns_uniq : uniq conns by rewrite (perm_uniq (conns_perm k ids ordP)) filter_uniq ?iota_uniq.
have connsI p : p \in conns -> 0 < p <= k by rewrite conns_mem => /andP[].
pose K1 (_ : unit) : cproc (seq (nat * nat)) := clift (Ok peers).
have T10 : T1 0 = sends (fun _ => enc_packet Syn) conns (cbind (recv_each (check_ack peers) tt conns) K1).
  by rewrite /T1 eqxx /K0 /sync_king send_eachE -/conns !cbind_sends.
pose cont (p : nat) b : cproc (seq (nat * nat)) :=
    do! p := clift (recv_packet b) in
    if p is Syn then CSend 0 (enc_packet SynAck) (CRet (Ok [:: (0, 0)]))
    else CRet (Err (Protocol 0)).
have [||Q2 [R2 [HQ2 HQ2']]] := @send_run _ k.+1 (ltn0Sn k) _ _ _ cont T1 (fun _ _ => [::]) conns_uniq _ T10.
- by move=> p /connsI; rewrite ltnS.
- by move=> p /connsI /T1p ->; right.
set T2 := (X in chreach _ _ _ X _) in R2.
have T2p p : p \in conns -> T2 p = CSend 0 (enc_packet SynAck) (CRet (Ok [:: (0, 0)])).
  move=> pc; have pI := connsI p pc; have p0 : (p == 0) = false by lia.
  by rewrite /T2 pc (T1p _ pI) p0 -[halted _]/false -[~~ false]/true /cont /recv_packet dec_sync.
have T20 : T2 0 = cbind (recv_each (check_ack peers) tt conns) K1 by rewrite /T2 eqxx.
have E3 : foldM (fun s c => check_ack peers s c (enc_packet SynAck)) tt conns = Ok tt.
  exact: acks.
have R3 := @recv_each_run _ k.+1 (ltn0Sn k) _ (check_ack peers) K1 (fun _ => enc_packet SynAck)
  (fun _ => CRet (Ok [:: (0, 0)])) conns tt tt T2 Q2 conns_uniq _ T20 _ E3.
eexists; exists Q2; split.
- apply: chreach_trans R1 (chreach_trans R2 _); apply: R3 => c cc.
    by rewrite ltnS; apply: connsI.
  by rewrite T2p // HQ2 //; case/andP: (connsI c cc).
- by [].
- by move=> p /andP[p0 _] ap; rewrite eqn0Ngt p0 conns_mem ap.
- move=> p pI nap; have p0 : (p == 0) = false by lia.
  rewrite p0 conns_mem (negbTE nap) /T2 p0 conns_mem (negbTE nap) T1p //; split; first by eexists.
  by rewrite HQ2' // conns_mem (negbTE nap).
move=> f t; case: (posnP f) => [->|f0]; last by rewrite HQ2.
by apply: HQ2'; apply/negP => /andP[/connsI tI]; rewrite T1p.
Qed.

(** ** from one channel to the whole network *)
Definition blocked A n (Q : nat -> nat -> seq bytes) p (t : cproc A) : Prop :=
  match t with
  | CHalt | CRet (Err _) | CRet Panic => True
  | CRecv f _ => [/\ f < n, f != p & Q f p = [::]]
  | _ => False
  end.

Lemma channel_final A n sid (T T' : nat -> cproc A) Q' (live : pred nat) vals : 0 < n ->
  chreach n T (fun _ _ => [::]) T' Q' ->
  (forall p, p < n -> live p -> T' p = CRet (Ok (vals p))) ->
  (forall p, p < n -> ~~ live p -> blocked n Q' p (T' p)) ->
  let ps := mkseq (fun p => pthread sid (T p)) n in
  exists d : cfg A, [/\ reach (init ps) d /\ size (procs d) = n, final d,
    forall p, p < n -> live p -> nth PHalt (procs d) p = PRet (Ok (vals p)) &
    forall p, p < n -> ~~ live p -> nth PHalt (procs d) p = pthread sid (T' p)].
Proof.
move=> n0 R HT HD ps.
have sps : size ps = n by rewrite size_mkseq.
have nps p : p < n -> nth PHalt ps p = pthread sid (T p) by move=> pn; rewrite nth_mkseq.
have q0 s f t : queue (init ps) s f t = [::] by rewrite /queue nth_nil.
pose kk (p : nat) (rs : seq A) : pproc A := PRet (if rs is [:: r] then Ok r else Panic).
have Hp p : p < n -> predT p -> nth PHalt (procs (init ps)) p =
    PJoin (phase [:: sid] ((fun p _ => T p) p)) (kk p).
  by move=> pn _; rewrite /= nps.
have [||d1 [[Rd1 sd1] Hd1 _ Hq1 Hq1']] := chreach_lift (isT : uniq [:: sid]) (isT : 0 < size [:: sid]) R
    (c := init ps) sps Hp (fun p _ _ => erefl).
- by move=> p _ /negP[].
- by move=> f t fn tn; rewrite q0.
rewrite /= in Hq1 Hq1'.
have Hd p : p < n -> live p -> nth PHalt (procs d1) p = PJoin (phase [:: sid] (fun _ => T' p)) (kk p).
  by move=> pn lp; rewrite Hd1 //= /phase /mkseq /= /updT eqxx.
have [|d [[Rd sd] Hl Hnl Eq]] := join_run (rs := fun p => [:: vals p]) sd1 Hd.
  by move=> p pn lp; rewrite (@results_phase _ _ _ (fun _ => vals p)) // => i _; apply: HT.
have Qd s f t : f < n -> t < n -> queue d s f t = queue d1 s f t.
  by move=> fn tn; rewrite /queue Eq sd sd1.
have Hdl p : p < n -> ~~ live p -> nth PHalt (procs d) p = pthread sid (T' p).
  by move=> pn lp; rewrite Hnl // Hd1 //= /phase /mkseq /= /updT eqxx.
exists d; split=> //.
- by split=> //; exact: reach_trans Rd1 Rd.
- move=> [p la] cl; rewrite /step; case: (ltnP p n) => pn; last by rewrite nth_default ?sd.
  case: (boolP (live p)) => lp; first by rewrite Hl.
  rewrite Hdl // /=; move: (HD p pn lp).
  case: (T' p) => [[v|e|]|to b K|f K|st K|] //= => [_|_|[fn fp Q0]|_].
  + by case: la cl => [[|j] [||||]||j].
  + by case: la cl => [[|j] [||||]||j].
  + case: la cl => [[|j] k||j] //= cl; case: k cl => //= _.
    by rewrite sd fn fp /= Qd // Hq1 // Q0.
  by case: la cl => [[|j] [||||]||j].
Qed.

Lemma separate_pthread A n sid (T : nat -> cproc A) p :
  separate (nth PHalt (mkseq (fun p => pthread sid (T p)) n) p).
Proof.
by case: (ltnP p n) => pn; [rewrite nth_mkseq|rewrite nth_default // size_mkseq].
Qed.

Lemma channel_every A n sid (T T' : nat -> cproc A) Q' (live : pred nat) vals : 0 < n ->
  chreach n T (fun _ _ => [::]) T' Q' ->
  (forall p, p < n -> live p -> T' p = CRet (Ok (vals p))) ->
  (forall p, p < n -> ~~ live p -> blocked n Q' p (T' p)) ->
  let ps := mkseq (fun p => pthread sid (T p)) n in
  every_schedule ps live vals /\
  forall s c p r, all clean s -> run s (init ps) = Some c -> p < n -> ~~ live p ->
    nth PHalt (procs c) p <> PRet r.
Proof.
move=> n0 R HT HD ps; have [d [[[s0 cs0 R0] _] Fd Hl Hn]] := channel_final sid n0 R HT HD.
have Sep p : separate (nth PHalt ps p) := separate_pthread _ _ _ _.
split.
  apply: (confluent_every Sep (d := d)) => //; first by exists s0.
  by move=> p; rewrite size_mkseq; apply: Hl.
move=> s c p r cs Rs pn lp E.
have [s' [cs' R' _]] := run_confluent (Sep : separate_cfg (init ps)) cs0 cs R0 Fd Rs.
by have := run_returned R' E; rewrite Hn.
Qed.

(** ** what a party has received when it returns *)
Fixpoint nogather B (t : cproc B) : Prop :=
  match t with
  | CSend _ _ k => nogather k
  | CRecv _ k => forall b, nogather (k b)
  | CGather _ _ => False
  | _ => True
  end.

Lemma trace_receives A sid p s (c c' : cfg A) (t : cproc A) v : nogather t ->
  nth PHalt (procs c) p = pthread sid t -> run s c = Some c' ->
  nth PHalt (procs c') p = PRet (Ok v) ->
  exists2 tr, receives t tr (Ok v) & forall f, got s c sid f p = from_party f tr.
Proof.
move=> + E R Er; rewrite /pthread in E; elim: s c t E R => [|a s IH] c t E /=; first by case=> Ec; rewrite -Ec E in Er.
case E1: (step a c) => [c1|] // R; case: (altP (a.1 =P p)) => ap; last first.
  move=> /(IH c1 t (etrans (step_other E1 ap) E) R)[tr H1 H2].
  by exists tr => // f; rewrite takes_other // H2.
have Done w : nth PHalt (procs c1) p = PJoin [:: (sid, CRet w)]
    (fun rs => PRet (if rs is [:: r] then Ok r else Panic)) ->
    w = Ok v /\ forall f, got s c1 sid f p = [::].
  by move=> Ec1; have [-> H] := trace_done Ec1 R Er.
have Ret w : nth PHalt (procs c1) p = PRet w -> w = Ok v /\ forall f, got s c1 sid f p = [::].
  by move=> Ec1; have [-> H] := trace_ret sid Ec1 R Er.
move: E1; rewrite /step; case: a ap => q la /= ->; rewrite E /=.
case: la => [[|j] kd||[|j]] //=; last by rewrite nth_nil.
- case: t E => [r|to b k|f k|st k|] E; rewrite ?E /=; case: kd => //=.
  + case: ifP => _ [Ec1] ng.
      have [|tr H1 H2] := IH c1 k _ R ng; first by rewrite -Ec1 /= nth_set_nth /= eqxx.
      by exists tr; [constructor|move=> f; rewrite H2].
    by have [|//] := Done (Err Generic); rewrite -Ec1 /= nth_set_nth /= eqxx.
  + by case=> Ec1 _; have [|//] := Done (Err Generic); rewrite -Ec1 /= nth_set_nth /= eqxx.
  + case: ifP => [/andP[fn fp]|_]; last first.
      by case=> Ec1 _; have [|//] := Done (Err Generic); rewrite -Ec1 /= nth_set_nth /= eqxx.
    case Eq: (queue c sid f p) => [|b q'] // [Ec1] ng.
    have [|tr H1 H2] := IH c1 (k b) _ R (ng b); first by rewrite -Ec1 /= nth_set_nth /= eqxx.
    exists ((f, b) :: tr); first by constructor.
    move=> f'; rewrite !eqxx /= H2 /from_party /=; case: eqP => [<-|_] /=; last by [].
    by rewrite fn fp Eq /= take0.
  + by case=> Ec1 _; have [|//] := Done (Err Generic); rewrite -Ec1 /= nth_set_nth /= eqxx.
- case: t E => [[r|e|]|to b k|f k|st k|] //= E [Ec1] _.
  have [|[->] H] := Ret (Ok r); first by rewrite -Ec1 /= nth_set_nth /= eqxx.
  by exists [::]; [constructor|].
by case: t E => [[r|e|]|to b k|f k|st k|] //= E [Ec1] _;
  [have [|//] := Ret (Err e)|have [|//] := Ret Panic]; rewrite -?Ec1 /= ?nth_set_nth /= ?eqxx.
Qed.

Lemma receives_bind A B (m : cproc A) (f : A -> cproc B) tr v : nogather m ->
  receives (cbind m f) tr (Ok v) ->
  exists tr1 tr2 a, [/\ tr = tr1 ++ tr2, receives m tr1 (Ok a) & receives (f a) tr2 (Ok v)].
Proof.
elim: m tr => [[a|e|]|to b k IH|g k IH|st k IH|] tr /= ng; last by inversion 1.
- by move=> H; exists [::], tr, a; split => //; constructor.
- by inversion 1.
- by inversion 1.
- move=> H; inversion H as [|? ? ? ? ? H'|]; subst; have [tr1 [tr2 [a [-> H1 H2]]]] := IH _ ng H'.
  by exists tr1, tr2, a; split => //; constructor.
- move=> H; inversion H as [| |? b ? tr' ? H']; subst; have [tr1 [tr2 [a [-> H1 H2]]]] := IH b _ (ng b) H'.
  by exists ((g, b) :: tr1), tr2, a; split => //; constructor.
by case: ng.
Qed.

Lemma nogather_bind A B (m : cproc A) (f : A -> cproc B) :
  nogather m -> (forall a, nogather (f a)) -> nogather (cbind m f).
Proof. by elim: m => [[a|e|]|to b k IH|g k IH|st k IH|] //= ng H; auto. Qed.

Lemma nogather_recv_each S (f : S -> nat -> bytes -> res S) s cs : nogather (recv_each f s cs).
Proof.
elim: cs s => //= c cs IH s b.
by case: (f s c b) => //= s'.
Qed.

Lemma nogather_send_each b cs : nogather (send_each b cs).
Proof. by elim: cs. Qed.

Lemma receives_recv_each S (f : S -> nat -> bytes -> res S) s cs tr s' :
  receives (recv_each f s cs) tr (Ok s') ->
  [seq e.1 | e <- tr] = cs /\ foldM (fun s e => f s e.1 e.2) s tr = Ok s'.
Proof.
elim: cs s tr => [|c cs IH] s tr /= H; inversion H as [| |? b ? tr' ? H']; subst => //=.
case E: (f s c b) H' => [s1|e|] //= H'; last 2 first; try by inversion H'.
by have [<- E2] := IH _ _ H'.
Qed.

Lemma receives_send_each b cs tr u : receives (send_each b cs) tr (Ok u) -> tr = [::].
Proof. by elim: cs tr => [|c cs IH] tr /= H; inversion H as [|? ? ? ? ? H'|]; subst => //; apply: IH. Qed.

Lemma be_valueE b : be_value b = number b.
Proof.
rewrite /be_value /number -[X in le_value (rev X)]revK -[X in foldl _ _ X]revK revK foldl_rev.
by elim: (rev b) => //= x s ->; rewrite addnC.
Qed.

Lemma dec_tag b p : dec_packet b = Ok p -> (if p is Packet _ then false else true) ->
  take 4 b = if p is Syn then [:: 0; 0; 0; 0] else [:: 1; 0; 0; 0].
Proof.
rewrite /dec_packet; case: ltnP => // sb; have : size (take 4 b) = 4 by rewrite size_takel.
case: (take 4 b) => [|x0 [|x1 [|x2 [|x3 [|? ?]]]]] // _.
have lv : le_value [:: x0; x1; x2; x3] = x0 + 256 * (x1 + 256 * (x2 + 256 * x3)).
  by rewrite /= muln0 addn0.
rewrite lv; case: eqP => [E|_]; first by case=> <- _; congr [:: _; _; _; _]; lia.
case: eqP => [E|_]; first by case=> <- _; congr [:: _; _; _; _]; lia.
by case: eqP => // _; do 2 (case: ifP => // _); case=> <-.
Qed.

Lemma nogather_king k ord : nogather (king_setup k ord).
Proof.
apply: nogather_bind => [|peers]; first exact: nogather_recv_each.
apply: nogather_bind => [|[]] //; apply: nogather_bind => [|[]]; first exact: nogather_send_each.
exact: nogather_recv_each.
Qed.

Lemma from_party_cat f tr1 tr2 : from_party f (tr1 ++ tr2) = from_party f tr1 ++ from_party f tr2.
Proof. by rewrite /from_party filter_cat map_cat. Qed.

Lemma from_party_nth f tr : uniq [seq e.1 | e <- tr] ->
  from_party f tr = if f \in [seq e.1 | e <- tr]
                    then [:: nth [::] [seq e.2 | e <- tr] (index f [seq e.1 | e <- tr])] else [::].
Proof.
elim: tr => //= -[g b] tr IH /= /andP[ng U]; rewrite inE /from_party /= [f == g]eq_sym.
case: eqP => [E|/eqP ne] /=; last first.
  by rewrite -/(from_party f tr) IH.
by subst g; rewrite -/(from_party f tr) IH // (negbTE ng).
Qed.

Lemma fold_add_peers tr s s' : foldM (fun s e => add_peer s e.1 e.2) s tr = Ok s' ->
  all (fun e => 4 <= size e.2) tr /\
  s' = foldl (fun ps e => peers_insert ps (be_value (take 4 e.2)) e.1) s tr.
Proof.
elim: tr s => [|e tr IH] s /=; first by case=> ->.
by rewrite {1}/add_peer ltnNge; case: leqP => //= _ /IH[-> ->].
Qed.

Lemma fold_acks peers tr u : foldM (fun s e => check_ack peers s e.1 e.2) tt tr = Ok u ->
  all (fun e => take 4 e.2 == [:: 1; 0; 0; 0]) tr.
Proof.
elim: tr => //= e tr IH; rewrite {1}/check_ack /recv_packet.
case E: (dec_packet e.2) => [p|e'|] //=; case: p E => //= E /IH ->.
by rewrite (dec_tag E isT).
Qed.

Lemma fold_hello (hello : nat -> bytes) tr s : {in tr, forall e : nat * bytes, e.2 = hello e.1} ->
  foldl (fun ps e => peers_insert ps (be_value (take 4 e.2)) e.1) s tr =
  foldl (fun ps c => peers_insert ps (number (take 4 (hello c))) c) s [seq e.1 | e <- tr].
Proof.
elim: tr s => //= e tr IH s0 Hh; rewrite IH => [|e' e'I]; last by apply: Hh; rewrite inE e'I orbT.
by rewrite be_valueE Hh ?mem_head.
Qed.

Lemma king_trace ps sid k ord s c peers : hash_ok ord ->
  nth PHalt ps 0 = pthread sid (king_setup k ord) -> run s (init ps) = Some c ->
  nth PHalt (procs c) 0 = PRet (Ok peers) ->
  exists hello : nat -> bytes, let ids := fun c => number (take 4 (hello c)) in [/\
    forall c, 0 < c <= k -> 4 <= size (hello c),
    perm_eq peers [seq (ids c, c) | c <- iota 1 k & last_declared k ids c],
    forall c, 0 < c <= k -> exists2 ack, got s (init ps) sid c 0 = hello c :: ack &
      if last_declared k ids c then exists2 b, ack = [:: b] & take 4 b = [:: 1; 0; 0; 0]
      else ack = [::] &
    forall c, ~~ (0 < c <= k) -> got s (init ps) sid c 0 = [::]].
Proof.
move=> ordP E0 R Er; have [tr H Hg] := @trace_receives _ sid 0 s (init ps) c _ _ (nogather_king k ord) E0 R Er.
have [tr1 [tr2 [ps1 [Etr H1 H2]]]] := receives_bind (nogather_recv_each _ _ _) H.
have ng : nogather (sync_king ord ps1).
  by apply: nogather_bind => [|[]]; [exact: nogather_send_each|exact: nogather_recv_each].
have [tr3 [tr4 [[] [Etr2 H3 H4]]]] := receives_bind ng H2.
have [tr5 [tr6 [[] [Etr3 H5 H6]]]] := receives_bind (nogather_send_each _ _) H3.
have E5 := receives_send_each H5.
have [K1 /fold_add_peers[A1 Eps1]] := receives_recv_each H1.
have [K6 /fold_acks A6] := receives_recv_each H6.
have [Eps E4] : ps1 = peers /\ tr4 = [::] by inversion H4.
subst tr4 tr5 peers.
pose hello c := nth [::] [seq e.2 | e <- tr1] (index c [seq e.1 | e <- tr1]).
pose ids c := number (take 4 (hello c)).
have U1 : uniq [seq e.1 | e <- tr1] by rewrite K1 iota_uniq.
have I1 c' : (c' \in [seq e.1 | e <- tr1]) = (0 < c' <= k) by rewrite K1 mem_iota add1n ltnS.
have Eps' : ps1 = declared k ids.
  rewrite -inserts_declared -K1 Eps1.
  have : {in tr1, forall e, e.2 = hello e.1}.
    move=> e eI; rewrite /hello -[e](nth_index e eI) -[index e tr1]/(index e tr1).
    have il : index e tr1 < size tr1 by rewrite index_mem.
    set i := index e tr1 in il *.
    have <- : nth 0 [seq e.1 | e <- tr1] i = (nth e tr1 i).1 by rewrite (nth_map e).
    by rewrite index_uniq ?size_map // (nth_map e).
  exact: fold_hello.
exists hello; split.
- move=> c' cI; move/(all_nthP (0, [::])): A1 => /(_ (index c' [seq e.1 | e <- tr1])).
  have il : index c' [seq e.1 | e <- tr1] < size tr1 by rewrite -(size_map fst) index_mem I1.
  by move=> /(_ il); rewrite /hello (nth_map (0, [::])).
- by rewrite Eps' /declared perm_rev.
- move=> c' cI; rewrite Hg Etr from_party_cat from_party_nth // I1 cI -/(hello c') /=.
  eexists; first by [].
  have U6 : uniq [seq e.1 | e <- tr6].
    by rewrite K6 Eps' (perm_uniq (conns_perm k ids ordP)) filter_uniq ?iota_uniq.
  rewrite Etr2 Etr3 cats0 from_party_nth // K6 Eps' (perm_mem (conns_perm k ids ordP)).
  rewrite mem_filter mem_iota add1n ltnS cI andbT; rewrite cat0s -/ids; case al: (last_declared k ids c') => //.
  eexists; first reflexivity.
  have il : index c' (peers_values ord (declared k ids)) < size tr6.
    by rewrite -(size_map fst) K6 Eps' index_mem (perm_mem (conns_perm k ids ordP)) mem_filter al mem_iota add1n ltnS.
  move/(all_nthP (0, [::])): A6 => /(_ _ il) /eqP; by rewrite (nth_map (0, [::])).
move=> c' cI; rewrite Hg Etr from_party_cat from_party_nth // I1 (negbTE cI) Etr2 Etr3 cats0 cat0s.
rewrite cat0s from_party_nth K6 Eps'; last by rewrite (perm_uniq (conns_perm k ids ordP)) filter_uniq ?iota_uniq.
by rewrite (perm_mem (conns_perm k ids ordP)) mem_filter mem_iota add1n ltnS (negbTE cI) andbF.
Qed.

Lemma peer_trace ps sid p ios id s c v :
  nth PHalt ps p = pthread sid (peer_setup ios id) -> run s (init ps) = Some c ->
  nth PHalt (procs c) p = PRet (Ok v) ->
  [/\ ios = 1, v = [:: (0, 0)],
      exists2 b, got s (init ps) sid 0 p = [:: b] & take 4 b = [:: 0; 0; 0; 0] &
      forall f, 0 < f -> got s (init ps) sid f p = [::]].
Proof.
move=> E0 R Er.
have ng : nogather (peer_setup ios id).
  by rewrite /peer_setup; case: ifP => //= _ b; case: (recv_packet b) => //= -[].
have [tr H Hg] := @trace_receives _ sid p s (init ps) c _ _ ng E0 R Er.
move: H; rewrite /peer_setup; case: eqP => [->|_] /= H; last by inversion H.
inversion H as [|? ? ? ? ? H'|]; subst.
inversion H' as [| |? b ? tr' ? H'']; subst.
rewrite /recv_packet in H''; case E: (dec_packet b) H'' => [[||b']|e|] //= H''; try by inversion H''.
inversion H'' as [|? ? ? ? ? H3|]; subst; inversion H3; subst.
split=> //.
  by exists b; [rewrite Hg|rewrite (dec_tag E isT)].
by move=> f f0; rewrite Hg /from_party /= eq_sym eqn0Ngt f0.
Qed.
