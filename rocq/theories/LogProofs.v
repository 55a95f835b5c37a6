(** Protocols of the king, with the messages the parties receive. *)
From mathcomp Require Import all_ssreflect.
From mathcomp Require Import zify.
From Verif Require Import Base ModelNet ModelQap SpecNet SpecView NetProofs KingProofs RoundProofs.
Set Implicit Arguments.
Unset Strict Implicit.
Unset Printing Implicit Defensive.

(** [king_prog] with the messages received by the parties *)
Inductive king_log B (n : nat) (dok : pred nat) :
    (nat -> cproc B) -> (nat -> B) -> (nat -> seq bytes) -> Prop :=
| KL_ret P vals logs : (forall p, p < n -> P p = CRet (Ok (vals p))) ->
    (forall p, p < n -> logs p = [::]) -> king_log n dok P vals logs
| KL_gather P vals logs msgs K P' :
    P 0 = CGather (nseq n None) K ->
    (forall p, 0 < p < n -> P p = CSend 0 (msgs p) (P' p)) ->
    (forall d, dok d -> K (store_without n msgs d) = P' 0) ->
    king_log n dok P' vals logs -> king_log n dok P vals logs
| KL_scatter P vals logs outs kc P' logs' :
    P 0 = sends outs (iota 1 n.-1) (P' 0) ->
    (forall p, 0 < p < n -> P p = CRecv 0 (kc p)) ->
    (forall p, 0 < p < n -> kc p (outs p) = P' p) ->
    (forall p, p < n -> logs p = if p == 0 then logs' p else outs p :: logs' p) ->
    king_log n dok P' vals logs' -> king_log n dok P vals logs.

Section Logs.
Variables (n : nat) (dok : pred nat).

Lemma king_log_prog B (P : nat -> cproc B) vals logs : king_log n dok P vals logs -> king_prog n dok P vals.
Proof.
elim=> {P vals logs} [P vals logs HP _|P vals logs msgs K P' P0 Pp HK _ IH
  |P vals logs outs kc P' logs' P0 Pp Hkc _ _ IH].
- exact: KP_ret.
- exact: (@KP_gather _ _ _ _ _ msgs K P').
exact: (@KP_scatter _ _ _ _ _ outs kc P').
Qed.

Lemma clog_sends B outs ids (k : cproc B) log : clog (sends outs ids k) log = sends outs ids (clog k log).
Proof. by elim: ids => //= i ids ->. Qed.

(** the logging programs return the messages *)
Lemma king_log_clog B (P : nat -> cproc B) vals logs acc : king_log n dok P vals logs ->
  king_prog n dok (fun p => clog (P p) (acc p)) (fun p => (vals p, acc p ++ logs p)).
Proof.
move=> H; elim: H acc => {P vals logs} [P vals logs HP Hl|P vals logs msgs K P' P0 Pp HK _ IH
  |P vals logs outs kc P' logs' P0 Pp Hkc Hl _ IH] acc.
- by apply: KP_ret => p lt_p; rewrite HP // Hl // cats0.
- apply: (@KP_gather _ _ _ _ _ msgs (fun st => clog (K st) (acc 0)) (fun p => clog (P' p) (acc p))) => //.
  + by rewrite P0.
  + by move=> p lt_p; rewrite Pp.
  by move=> d dd; rewrite HK.
pose acc' p := if p == 0 then acc p else rcons (acc p) (outs p).
have E p : p < n -> acc p ++ logs p = acc' p ++ logs' p.
  by move=> lt_p; rewrite Hl // /acc'; case: eqP => // _; rewrite cat_rcons.
apply: (@KP_scatter _ _ _ _ _ outs (fun p b => clog (kc p b) (rcons (acc p) b))
  (fun p => clog (P' p) (acc' p))).
- by rewrite P0 clog_sends.
- by move=> p lt_p; rewrite Pp.
- by move=> p lt_p; rewrite Hkc // /acc' ifN //; lia.
by apply: king_prog_vals (IH acc') => p lt_p; rewrite E.
Qed.

Lemma king_log_ext B (P P' : nat -> cproc B) vals vals' logs logs' : 0 < n ->
  (forall p, p < n -> P p = P' p) -> (forall p, p < n -> vals p = vals' p) ->
  (forall p, p < n -> logs p = logs' p) ->
  king_log n dok P' vals' logs' -> king_log n dok P vals logs.
Proof.
move=> n0 E Ev El H; elim: H P vals logs E Ev El => {P' vals' logs'} [P' vals' lg' HP Hl|
  P' vals' lg' msgs K P'' P0 Pp HK H IH|P' vals' lg' outs kc P'' lg'' P0 Pp Hkc Hl H IH] P vals logs E Ev El.
- by apply: KL_ret => p pn; rewrite ?E ?El ?Hl // HP // Ev.
- apply: (@KL_gather _ _ _ _ _ _ msgs K P'') => //; first by rewrite E.
    by move=> p pI; rewrite E ?Pp //; lia.
  exact: IH.
apply: (@KL_scatter _ _ _ _ _ _ outs kc P'' lg'') => //; first by rewrite E.
- by move=> p pI; rewrite E ?Pp //; lia.
- by move=> p pn; rewrite El // Hl.
exact: IH.
Qed.

Lemma king_log_bind B C (P : nat -> cproc B) (R : nat -> B -> cproc C) v1 v2 l1 l2 : 0 < n ->
  king_log n dok P v1 l1 -> king_log n dok (fun p => R p (v1 p)) v2 l2 ->
  king_log n dok (fun p => cbind (P p) (R p)) v2 (fun p => l1 p ++ l2 p).
Proof.
move=> n0; elim=> {P v1 l1} [P vals logs HP Hl|P vals logs msgs K P' P0 Pp HK _ IH
  |P vals logs outs kc P' logs' P0 Pp Hkc Hl _ IH] H.
- by apply: king_log_ext H => // p pn; rewrite ?HP // Hl.
- apply: (@KL_gather _ _ _ _ _ _ msgs (fun st => cbind (K st) (R 0)) (fun p => cbind (P' p) (R p))).
  + by rewrite P0.
  + by move=> p pI; rewrite Pp.
  + by move=> d dd; rewrite HK.
  exact: IH.
apply: (@KL_scatter _ _ _ _ _ _ outs (fun p b => cbind (kc p b) (R p)) (fun p => cbind (P' p) (R p))
  (fun p => logs' p ++ l2 p)).
- by rewrite P0 cbind_sends.
- by move=> p pI; rewrite Pp.
- by move=> p pI; rewrite Hkc.
- by move=> p pn; rewrite Hl //; case: eqP.
exact: IH.
Qed.

End Logs.

(** one message of the king to every other party *)
Definition king_msgs (msg : nat -> bytes) (p : nat) : seq bytes := if p == 0 then [::] else [:: msg p].

Lemma king_round_log T U (c : codec T) (c' : codec U) n (dok : pred nat) ord (x : nat -> T) thr
    (king : received T -> res (seq U)) (ans : nat -> U) B (R : nat -> U -> cproc B) vals logs :
  0 < n -> (forall d, dok d -> d != 0) -> hash_ok ord -> thr <= n.-1 ->
  (forall i, i < n -> decode c (enc c (x i)) = Ok (x i)) ->
  (forall i, i < n -> decode c' (enc c' (ans i)) = Ok (ans i)) ->
  (forall i, i < n -> size (enc c' (ans i)) = size (enc c' (ans 0))) ->
  (forall d, dok d -> king (received_from x n d ord) = Ok (mkseq ans n)) ->
  king_log n dok (fun p => R p (ans p)) vals logs ->
  king_log n dok (fun p =>
    do! rs := csokr_ser c n p ord (x p) thr in
    do! outs := clift (if rs is Some r then rmap Some (king r) else Ok None) in
    do! v := crokss_ser c' n p outs in R p v) vals
    (fun p => king_msgs (fun p => enc c' (ans p)) p ++ logs p).
Proof.
move=> n0 dok0 Ho Ht Hd Hd' Hs Hk HR.
set outs := [seq enc c' a | a <- mkseq ans n].
have so : size outs = n by rewrite size_map size_mkseq.
have no i : i < n -> nth [::] outs i = enc c' (ans i).
  by move=> il; rewrite (nth_map (ans 0)) ?size_mkseq // nth_mkseq.
pose C p (v : U) := R p v.
pose P1 p := if p == 0 then sends (nth [::] outs) (iota 1 n.-1) (R 0 (ans 0))
             else CRecv 0 (fun b => cbind (clift (decode c' b)) (R p)).
case E: (csokr_ser c n 0 ord (x 0) thr) => [|||st K|] //.
have Est : st = nseq n None by move: E => [<-].
rewrite Est in E.
apply: (@KL_gather _ _ _ _ _ _ (fun p => enc c (x p))
  (fun st => cbind (K st) (fun rs =>
    do! outs := clift (if rs is Some r then rmap Some (king r) else Ok None) in
    do! v := crokss_ser c' n 0 outs in R 0 v)) P1).
- by rewrite E.
- move=> p pI; have p0 : (p == 0) = false by lia.
  by rewrite /csokr_ser /client_send_or_king_receive /P1 p0 /= /crokss_ser /= p0.
- move=> d dd; rewrite (csokr_king n0 (dok0 d dd) Ho Ht Hd E) /= Hk //= /crokss_ser.
  rewrite [omap _ _]/= -/outs crokss_king ?so //; last by move=> i il; rewrite !no ?Hs.
  by rewrite !cbind_sends /= no // Hd'.
apply: (@KL_scatter _ _ _ _ _ _ (nth [::] outs)
          (fun p b => cbind (clift (decode c' b)) (R p)) (fun p => R p (ans p)) logs) => //.
- by move=> p pI; rewrite /P1; have -> : (p == 0) = false by lia.
- by move=> p /andP[_ pn]; rewrite no //= Hd'.
by move=> p pn; rewrite /king_msgs; case: eqP => //= _; rewrite no.
Qed.

(** ** Protocols with several phases *)

Inductive party_log A (n : nat) (dok : pred nat) :
    (nat -> pproc A) -> (nat -> A) -> (nat -> seq (seq bytes)) -> Prop :=
| PL_ret P vals logs : (forall p, p < n -> P p = PRet (Ok (vals p))) ->
    (forall p, p < n -> logs p = [::]) -> party_log n dok P vals logs
| PL_join P vals logs B sids (progs : nat -> nat -> cproc B) (rs : nat -> nat -> B) lg k logs' :
    (forall p, p < n -> P p = PJoin (phase sids (progs p)) (k p)) -> uniq sids ->
    (forall j, j < size sids -> king_log n dok (progs^~ j) (rs^~ j) (lg^~ j)) ->
    (forall p, p < n -> logs p = mkseq (lg p) (size sids) ++ logs' p) ->
    party_log n dok (fun p => k p (mkseq (rs p) (size sids))) vals logs' -> party_log n dok P vals logs.

Section PartyLogs.
Variables (n : nat) (dok : pred nat).
Hypothesis n0 : 0 < n.

Lemma party_vals A (P : nat -> pproc A) vals vals' : (forall p, p < n -> vals' p = vals p) ->
  king_party n dok P vals -> king_party n dok P vals'.
Proof.
move=> E H; elim: H vals' E => {P vals} [P vals HP|P vals B sids progs rs k HP U Hkp Hk IH] vals' E.
  by apply: PP_ret => p pn; rewrite HP // E.
by apply: (@PP_join _ _ _ _ _ _ sids progs rs k) => //; apply: IH.
Qed.

Lemma party_same A (P P' : nat -> pproc A) vals : (forall p, p < n -> P p = P' p) ->
  king_party n dok P' vals -> king_party n dok P vals.
Proof.
move=> E H; case: H E => {P' vals} [P' vals HP E|P' vals B sids progs rs k HP U Hkp Hk E].
  by apply: PP_ret => p pn; rewrite E // HP.
by apply: PP_join U Hkp Hk => p pn; rewrite E // HP.
Qed.

Lemma party_log_plog A (P : nat -> pproc A) vals logs acc : party_log n dok P vals logs ->
  king_party n dok (fun p => plog (P p) (acc p)) (fun p => (vals p, acc p ++ logs p)).
Proof.
move=> H; elim: H acc => {P vals logs} [P vals logs HP Hl|
  P vals logs B sids progs rs lg k logs' HP U Hkp Hl _ IH] acc.
  by apply: PP_ret => p lt_p; rewrite HP // Hl // cats0.
apply: (@PP_join _ _ _ _ _ _ sids (fun p j => clog (progs p j) [::]) (fun p j => (rs p j, lg p j))
   (fun p rs => plog (k p [seq r.1 | r <- rs]) (acc p ++ [seq r.2 | r <- rs]))) => //.
- move=> p lt_p; rewrite HP //= /phase -map_comp; congr PJoin.
- by move=> j lt_j; apply: king_prog_vals (king_log_clog (fun=> [::]) (Hkp j lt_j)).
have H := IH (fun p => acc p ++ mkseq (lg p) (size sids)).
apply: (party_vals (vals := fun p => (vals p, (acc p ++ mkseq (lg p) (size sids)) ++ logs' p))) => [p lt_p|].
  by rewrite Hl // catA.
apply: (party_same _ H) => p lt_p.
by rewrite -!map_comp; congr (plog (k p _) (_ ++ _)); apply: eq_map.
Qed.

Lemma party_log_ext A (P P' : nat -> pproc A) vals vals' logs logs' :
  (forall p, p < n -> P p = P' p) -> (forall p, p < n -> vals p = vals' p) ->
  (forall p, p < n -> logs p = logs' p) ->
  party_log n dok P' vals' logs' -> party_log n dok P vals logs.
Proof.
move=> E Ev El H; elim: H P vals logs E Ev El => {P' vals' logs'} [P' vals' lg' HP Hl|
  P' vals' lg' B sids progs rs lg k logs' HP U Hkp Hl Hk IH] P vals logs E Ev El.
  by apply: PL_ret => p pn; rewrite ?E ?El ?Hl // HP // Ev.
apply: (@PL_join _ _ _ _ _ _ _ sids progs rs lg k logs') => //.
- by move=> p pn; rewrite E // HP.
- by move=> p pn; rewrite El // Hl.
exact: IH.
Qed.

Lemma party_log_bind A B (P : nat -> pproc A) (R : nat -> A -> pproc B) v1 v2 l1 l2 :
  party_log n dok P v1 l1 -> party_log n dok (fun p => R p (v1 p)) v2 l2 ->
  party_log n dok (fun p => pbind (P p) (R p)) v2 (fun p => l1 p ++ l2 p).
Proof.
elim=> {P v1 l1} [P v1 l1 HP Hl|P v1 l1 C sids progs rs lg k logs' HP U Hkp Hl _ IH] HR.
  by apply: party_log_ext HR => // p pn; rewrite ?HP // Hl.
apply: (@PL_join _ _ _ _ _ _ _ sids progs rs lg (fun p rs => pbind (k p rs) (R p))
  (fun p => logs' p ++ l2 p)) => //.
- by move=> p pn; rewrite HP.
- by move=> p pn; rewrite Hl // catA.
exact: IH.
Qed.

Lemma pthread_log A sid (t : nat -> cproc A) v lg : king_log n dok t v lg ->
  party_log n dok (fun p => pthread sid (t p)) v (fun p => [:: lg p]).
Proof.
move=> H; apply: (@PL_join _ _ _ _ _ _ _ [:: sid] (fun p _ => t p) (fun p _ => v p) (fun p _ => lg p)
  (fun p rs => PRet (if rs is [:: r] then Ok r else Panic)) (fun=> [::])) => //.
exact: PL_ret.
Qed.

Lemma try_join3_log A (t0 t1 t2 : nat -> cproc A) v0 v1 v2 l0 l1 l2 :
  king_log n dok t0 v0 l0 -> king_log n dok t1 v1 l1 -> king_log n dok t2 v2 l2 ->
  party_log n dok (fun p => try_join3 (t0 p) (t1 p) (t2 p)) (fun p => (v0 p, v1 p, v2 p))
    (fun p => [:: l0 p; l1 p; l2 p]).
Proof.
move=> H0 H1 H2.
apply: (@PL_join _ _ _ _ _ _ _ [:: 0; 1; 2]
  (fun p j => match j with 0 => t0 p | 1 => t1 p | _ => t2 p end)
  (fun p j => match j with 0 => v0 p | 1 => v1 p | _ => v2 p end)
  (fun p j => match j with 0 => l0 p | 1 => l1 p | _ => l2 p end)
  (fun p rs => PRet (if rs is [:: a; b; c] then Ok (a, b, c) else Panic)) (fun=> [::])) => //.
  by case=> [|[|[|j]]].
exact: PL_ret.
Qed.

End PartyLogs.

Lemma separate_plog A (x : pproc A) log : separate x -> separate (plog x log).
Proof.
elim: x log => [[a|e|]|B ts k IH|] log //= [U S]; split; last by move=> rs; apply: IH.
by rewrite -map_comp.
Qed.
