(** Protocols made of king rounds: every schedule, with or without one crash, ends alike. *)
From mathcomp Require Import all_ssreflect.
From mathcomp Require Import zify.
From Verif Require Import Base ModelNet SpecNet NetProofs.
Set Implicit Arguments.
Unset Strict Implicit.
Unset Printing Implicit Defensive.

Definition halted B (t : cproc B) : bool := if t is CHalt then true else false.
Definition clean_kind (a : kind) : bool :=
  match a with KTimeout | KFail => false | _ => true end.

(** ** One stream seen in isolation *)
Section Channel.
Variables (B : Type) (n : nat).
Implicit Types (T : nat -> cproc B) (Q : nat -> nat -> seq bytes).

Definition updT T p t : nat -> cproc B := fun i => if i == p then t else T i.
Definition updQ Q p op : nat -> nat -> seq bytes :=
  match op with
  | QNone => Q
  | QPush to b => fun f t => if (f == p) && (t == to) then rcons (Q f t) b else Q f t
  | QPop from => fun f t => if (f == from) && (t == p) then behead (Q f t) else Q f t
  end.

Inductive chreach : (nat -> cproc B) -> (nat -> nat -> seq bytes) ->
    (nat -> cproc B) -> (nat -> nat -> seq bytes) -> Prop :=
| ch_refl T Q T' Q' : (forall p, p < n -> T p = T' p) ->
    (forall f t, f < n -> t < n -> Q f t = Q' f t) -> chreach T Q T' Q'
| ch_step p a t op T Q T' Q' : p < n -> clean_kind a ->
    tstep n p (fun f => Q f p) (fun id => halted (T id)) a (T p) = Some (t, op) ->
    chreach (updT T p t) (updQ Q p op) T' Q' -> chreach T Q T' Q'.

Lemma chreach_ext T Q T0 Q0 T' Q' : (forall p, p < n -> T p = T0 p) ->
  (forall f t, f < n -> t < n -> Q f t = Q0 f t) ->
  chreach T0 Q0 T' Q' -> chreach T Q T' Q'.
Proof.
move=> ET EQ R; elim: R T Q ET EQ => {T0 Q0 T' Q'}.
  move=> T1 Q1 T' Q' HT HQ T Q ET EQ; apply: ch_refl => [p pn|f t fn tn].
    by rewrite ET // HT.
  by rewrite EQ // HQ.
move=> p a t op T1 Q1 T' Q' pn ca E _ IH T Q ET EQ.
apply: (@ch_step p a t op) => //.
  rewrite ET //; move: E; apply: tstep_frame => id.
    by move=> b q idn _; rewrite EQ // => ->; exists q.
  by move=> idn _; rewrite EQ // ET // => -> ->.
apply: IH => [i ilt|f g fn gn]; first by rewrite /updT; case: eqP => // _; apply: ET.
by case: (op) => [|to b|fr] /=; rewrite EQ.
Qed.

Lemma chreach_trans T Q T1 Q1 T2 Q2 :
  chreach T Q T1 Q1 -> chreach T1 Q1 T2 Q2 -> chreach T Q T2 Q2.
Proof.
elim=> {T Q T1 Q1}; first by move=> T Q T1 Q1 HT HQ; apply: chreach_ext.
by move=> p a t op T Q T1 Q1 pn ca E _ IH /IH H; exact: ch_step pn ca E H.
Qed.

(** truncations of a thread *)
Inductive cut_of : cproc B -> cproc B -> Prop :=
| cut_halt t : cut_of t CHalt
| cut_ret r : cut_of (CRet r) (CRet r)
| cut_send to b k k' : cut_of k k' -> cut_of (CSend to b k) (CSend to b k')
| cut_recv from k k' : (forall b, cut_of (k b) (k' b)) -> cut_of (CRecv from k) (CRecv from k')
| cut_gather st k k' : (forall s, cut_of (k s) (k' s)) -> cut_of (CGather st k) (CGather st k').

Lemma cut_refl t : cut_of t t.
Proof. by elim: t => *; constructor. Qed.

Lemma cut_crash m t : cut_of t (ccrash m t).
Proof.
by elim: t m => [r|to b k IH|from k IH|st k IH|] [|m] /=; constructor => *; apply: IH.
Qed.

(** the store of the king when the message of [d] is missing *)
Definition store_without (msgs : nat -> bytes) (d : nat) : seq (option bytes) :=
  mkseq (fun i => if (i == 0) || (i == d) then None else Some (msgs i)) n.

(** A protocol of the [n] parties on one stream, made of collections by the king and
    distributions by the king.  [dok d]: the king proceeds in the same way when the message of [d]
    is missing ([d = n]: nothing is missing).  [vals p] is the result of party [p]. *)
Inductive king_prog (dok : pred nat) : (nat -> cproc B) -> (nat -> B) -> Prop :=
| KP_ret P vals : (forall p, p < n -> P p = CRet (Ok (vals p))) -> king_prog dok P vals
| KP_gather P vals msgs K P' :
    P 0 = CGather (nseq n None) K ->
    (forall p, 0 < p < n -> P p = CSend 0 (msgs p) (P' p)) ->
    (forall d, dok d -> K (store_without msgs d) = P' 0) ->
    king_prog dok P' vals -> king_prog dok P vals
| KP_scatter P vals outs kc P' :
    P 0 = sends outs (iota 1 n.-1) (P' 0) ->
    (forall p, 0 < p < n -> P p = CRecv 0 (kc p)) ->
    (forall p, 0 < p < n -> kc p (outs p) = P' p) ->
    king_prog dok P' vals -> king_prog dok P vals.

(** queues between the king and the others are empty, except what a halted party did not read *)
Definition idle T Q := forall p, 0 < p < n -> Q p 0 = [::] /\ (halted (T p) \/ Q 0 p = [::]).

Hypothesis n_gt0 : 0 < n.

Lemma gather_run K msgs c T Q :
  T 0 = CGather (nseq n None) K ->
  (forall p, 0 < p < n -> T p = CSend 0 (msgs p) (c p) \/ T p = CHalt) ->
  (forall p, 0 < p < n -> Q p 0 = [::]) ->
  chreach T Q
    (fun p => if p == 0 then K (mkseq (fun i => if (i == 0) || halted (T i) then None
                                              else Some (msgs i)) n)
              else if halted (T p) then CHalt else c p) Q.
Proof.
move=> T0 Tp Q0.
(* after the first [i] parties have sent and been heard *)
have R i : 0 < i <= n -> chreach T Q
  (fun p => if p == 0 then CGather (mkseq (fun q => if (q == 0) || (i <= q) || halted (T q)
                                                    then None else Some (msgs q)) n) K
            else if (p < i) && ~~ halted (T p) then c p else T p) Q.
  elim: i => [//|i IH] /andP[_ iln]; case: (posnP i) => [->|ip].
    apply: ch_refl => // p pn; case: eqP => [->|/eqP p0]; last by rewrite ltnS leqn0 (negbTE p0).
    rewrite T0; congr CGather; apply: (@eq_from_nth _ None); rewrite ?size_nseq ?size_mkseq // => q qn.
    by rewrite nth_nseq nth_mkseq // qn; case: q qn.
  have {}IH := IH ltac:(lia); have inr : 0 < i < n by lia.
  case: (Tp _ inr) => [Ti|Ti]; last first.
    apply: chreach_trans IH _; apply: ch_refl => // p pn; case: eqP => [_|_].
      congr CGather; apply: eq_mkseq => q; case: (altP (q =P i)) => [->|qi].
        by rewrite Ti /= !orbT.
      by congr (if _ || _ then _ else _); lia.
    rewrite ltnS [p <= i]leq_eqVlt; case: (altP (p =P i)) => [->|_] //.
    by rewrite Ti /= andbF.
  apply: chreach_trans IH _.
  have i0 : (i == 0) = false by lia.
  apply: (@ch_step i KOp (c i) (QPush 0 (msgs i))).
    by lia.
    by [].
    by rewrite i0 ltnn /= Ti /= n_gt0 eq_sym i0.
  set st := mkseq _ n.
  apply: (@ch_step 0 (KArrive i) (CGather (set_nth None st i (Some (msgs i))) K) (QPop i)) => //.
    rewrite /updT /= eq_sym i0 /= nth_mkseq ?i0 ?leqnn ?orbT /=; last by lia.
    have -> : (0 < i < n) by []. 
    by rewrite !eqxx Q0.
  apply: ch_refl => [p pn|f t fn tn].
    rewrite /updT; case: (altP (p =P 0)) => [_|p0].
      congr CGather; apply: (@eq_from_nth _ None).
        by rewrite size_set_nth !size_mkseq; apply/maxn_idPr; lia.
      move=> q; rewrite size_set_nth size_mkseq => qn.
      have {}qn : q < n by move: qn; rewrite /maxn; case: ifP; lia.
      rewrite nth_set_nth /= !nth_mkseq //; case: (altP (q =P i)) => [->|qi].
        by rewrite i0 ltnn Ti.
      by congr (if _ || _ then _ else _); lia.
    case: (altP (p =P i)) => [->|pi]; first by rewrite ltnS leqnn Ti.
    by congr (if _ && _ then _ else _); lia.
  rewrite /=; case: (altP (f =P i)) => [->|_] //=; case: (altP (t =P 0)) => [->|_] //=.
  by rewrite Q0.
apply: chreach_trans (R n _) _; first by lia.
set st := mkseq _ n; set st' := mkseq _ n.
have Est : st = st'.
  apply: (@eq_from_nth _ None); rewrite !size_mkseq // => q qn; rewrite !nth_mkseq //.
  by rewrite [n <= q]leqNgt qn orbF.
apply: (@ch_step 0 KGathered (K st) QNone) => //.
  rewrite /=; case: ifP => // /allP[] id; rewrite mem_iota => idn.
  have id0 : (id == 0) = false by lia.
  rewrite id0 nth_mkseq /=; last by lia.
  rewrite id0 Q0 /=; last by lia.
  have -> : (n <= id) = false by lia.
  have -> : id < n by lia.
  by case H: (halted (T id)); rewrite //= H.
apply: ch_refl => // p pn; rewrite /updT Est; case: eqP => // /eqP p0.
by rewrite pn /=; case: (T p).
Qed.

Lemma send_run outs k ids c T Q : uniq ids -> (forall p, p \in ids -> 0 < p < n) ->
  T 0 = sends outs ids k ->
  (forall p, p \in ids -> T p = CHalt \/ T p = CRecv 0 (c p) /\ Q 0 p = [::]) ->
  exists Q', chreach T Q
    (fun p => if p == 0 then k else if (p \in ids) && ~~ halted (T p) then c p (outs p) else T p) Q'
    /\ (forall p f, 0 < f -> Q' f p = Q f p)
    /\ (forall p, ~~ ((p \in ids) && halted (T p)) -> Q' 0 p = Q 0 p).
Proof.
elim: ids T Q => [|id ids IH] T Q /=.
  move=> _ _ T0 _; exists Q; split => //; apply: ch_refl => // p pn.
  by case: eqP => // ->.
case/andP=> idn U Hids T0 HT.
have idI : 0 < id < n by apply: Hids; rewrite inE eqxx.
have id0 : (id == 0) = false by lia.
have st1 : tstep n 0 (fun f => Q f 0) (fun i => halted (T i)) KOp (T 0) =
    Some (sends outs ids k, QPush id (outs id)).
  by rewrite T0 /= id0; have -> : id < n by lia.
have Hids' p : p \in ids -> 0 < p < n by move=> pi; apply: Hids; rewrite inE pi orbT.
case: (HT id); rewrite ?inE ?eqxx //.
- move=> Tid; set T1 := updT T 0 (sends outs ids k).
  set Q1 := updQ Q 0 (QPush id (outs id)).
  have [||Q' [R [Q'1 Q'2]]] := IH T1 Q1 U Hids'; first by rewrite /T1 /updT eqxx.
    move=> p pi; have p0 : (p == 0) = false by have := Hids' _ pi; lia.
    rewrite /T1 /updT p0 /Q1 /=; have -> : (p == id) = false.
      by apply/negbTE/negP => /eqP E; move: idn; rewrite -E pi.
    by apply: HT; rewrite inE pi orbT.
  exists Q'; split; [|split].
  + apply: (@ch_step 0 KOp _ _ _ _ _ _ _ _ st1) => //; apply: chreach_trans R _.
    apply: ch_refl => // p pn; case: eqP => // /eqP/negbTE p0; rewrite /T1 /updT p0 inE.
    by case: (altP (p =P id)) => [->|//]; rewrite Tid /= !andbF.
  + by move=> p f f0; rewrite Q'1 // /Q1 /=; have -> : (f == 0) = false by lia.
  move=> p; rewrite inE => Hp; case: (altP (p =P id)) Hp => [->|pid] /= Hp.
    by move: Hp; rewrite Tid.
  rewrite Q'2 /Q1 /= ?(negbTE pid) //; apply: contra Hp => /andP[pi].
  have p0 : (p == 0) = false by have := Hids' _ pi; lia.
  by rewrite /T1 /updT p0 pi.
case=> Tid Q0; set T1 := updT (updT T 0 (sends outs ids k)) id (c id (outs id)).
have [||Q' [R [Q'1 Q'2]]] := IH T1 Q U Hids'; first by rewrite /T1 /updT eq_sym id0.
  move=> p pi; have p0 : (p == 0) = false by have := Hids' _ pi; lia.
  rewrite /T1 /updT p0; have -> : (p == id) = false.
    by apply/negbTE/negP => /eqP E; move: idn; rewrite -E pi.
  by apply: HT; rewrite inE pi orbT.
exists Q'; split; [|split] => //.
- apply: (@ch_step 0 KOp _ _ _ _ _ _ _ _ st1) => //.
  apply: (@ch_step id KOp (c id (outs id)) (QPop 0)).
    by lia.
    by [].
    by rewrite /updT id0 Tid /= n_gt0 eq_sym id0 !eqxx Q0.
  apply: chreach_trans (chreach_ext _ _ R) _.
  + by move=> p pn.
  + move=> f t fn tn /=; case: (altP (f =P 0)) => //= ->.
    by case: (altP (t =P id)) => // ->; rewrite Q0.
  apply: ch_refl => // p pn; case: eqP => // /eqP/negbTE p0; rewrite /T1 /updT p0 inE.
  case: (altP (p =P id)) => [->|//]; rewrite (negbTE idn) /= Tid //.
move=> p; rewrite inE => Hp; case: (altP (p =P id)) Hp => [->|pid] /= Hp.
  by apply: Q'2; rewrite (negbTE idn).
apply: Q'2; apply: contra Hp => /andP[pi].
have p0 : (p == 0) = false by have := Hids' _ pi; lia.
by rewrite /T1 /updT (negbTE pid) p0 pi.
Qed.

(** the protocol runs on one stream *)
Lemma king_prog_run (dok : pred nat) P vals : dok n -> king_prog dok P vals ->
  forall d T Q, d != 0 -> dok d ->
  (forall p, p < n -> p != d -> T p = P p) -> cut_of (P d) (T d) -> idle T Q ->
  exists T' Q', [/\ chreach T Q T' Q',
    forall p, p < n -> p != d -> T' p = CRet (Ok (vals p)),
    (d < n -> T' d = CRet (Ok (vals d)) \/ T' d = CHalt) & idle T' Q'].
Proof.
move=> dn0; elim=> {P vals}.
- move=> P vals HP d T Q d0 dd HT Hd I; exists T, Q; split => //; first exact: ch_refl.
    by move=> p pn pd; rewrite HT // HP.
  by move=> dn; move: Hd; rewrite HP // => Hd; inversion Hd; [right|left].
- move=> P vals msgs K P' P0 Pp HK _ IH d T Q d0 dd HT Hd I.
  have T0 : T 0 = CGather (nseq n None) K by rewrite HT // eq_sym.
  (* the continuations of the clients *)
  pose c p := if T p is CSend _ _ k then k else CHalt.
  have Hc p : 0 < p < n -> (T p = CSend 0 (msgs p) (c p) \/ T p = CHalt) /\
      cut_of (P' p) (c p) /\ (p != d -> T p = CSend 0 (msgs p) (c p) /\ c p = P' p).
    move=> pI; rewrite /c; case: (altP (p =P d)) => [Ep|pd].
      move: Hd; rewrite -Ep Pp // => Hd; inversion Hd as [| |to b k k' Hk E1 E2| |].
        by split; [right|split => //; constructor].
      by split; [left|split].
    rewrite HT ?Pp //; last by lia.
    by split; [left|split => //; apply: cut_refl].
  have R1 := @gather_run K msgs c T Q T0 (fun p pI => (Hc p pI).1) (fun p pI => (I p pI).1).
  set T1 := (fun p => if p == 0 then _ else _) in R1.
  have HT1 : T1 0 = P' 0.
    rewrite /T1 eqxx.
    have -> : mkseq (fun i => if (i == 0) || halted (T i) then None else Some (msgs i)) n =
              store_without msgs (if halted (T d) then d else n).
      apply: (@eq_from_nth _ None); rewrite !size_mkseq // => i iln; rewrite !nth_mkseq //.
      case: (posnP i) => [->|i0] //=.
      have iI : 0 < i < n by lia.
      case: (altP (i =P d)) => [Ei|id] /=.
        by rewrite -Ei; case: (halted (T i)); rewrite ?eqxx //; have -> : (i == n) = false by lia.
      have [-> _] := (Hc i iI).2.2 id.
      by rewrite /=; case: (halted (T d)); [rewrite (negbTE id)|have -> : (i == n) = false by lia].
    by apply: HK; case: (halted _).
  have T1p p : 0 < p < n -> T1 p = if halted (T p) then CHalt else c p.
    by move=> pI; rewrite /T1; have -> : (p == 0) = false by lia.
  pose T1' p := if p < n then T1 p else P' p.
  have [|||T' [Q'' [R3 H1 H2 H3]]] := IH d T1' Q d0 dd.
  - move=> p pn pd; rewrite /T1' pn; case: (posnP p) => [->//|p0].
    have pI : 0 < p < n by lia.
    by have [E1 E2] := (Hc p pI).2.2 pd; rewrite T1p // E1 /= E2.
  - rewrite /T1'; case: ifP => [dn|_]; last exact: cut_refl.
    have dI : 0 < d < n by lia.
    rewrite T1p //; case: ifP => _; first by constructor.
    by case: (Hc d dI).2.
  - move=> p pI; have [q1 q2] := I p pI; split => //; have [_ pn] := andP pI.
    rewrite /T1' pn T1p //; case: q2 => [->|->]; [by left|by right].
  exists T', Q''; split => //; apply: chreach_trans R1 _.
  by apply: chreach_ext R3 => // p pn; rewrite /T1' pn.
move=> P vals outs kc P' P0 Pp Hkc _ IH d T Q d0 dd HT Hd I.
have T0 : T 0 = sends outs (iota 1 n.-1) (P' 0) by rewrite HT // eq_sym.
pose kk p := if T p is CRecv _ k then k else fun _ => CHalt.
have Hc p : 0 < p < n -> (T p = CHalt \/ T p = CRecv 0 (kk p)) /\
    cut_of (P' p) (kk p (outs p)) /\
    (p != d -> T p = CRecv 0 (kk p) /\ kk p (outs p) = P' p).
  move=> pI; rewrite /kk; case: (altP (p =P d)) => [Ep|pd].
    move: Hd; rewrite -Ep Pp // => Hd; inversion Hd as [| | |fr k k' Hk E1 E2|].
      by split; [left|split => //; constructor].
    by split; [right|split => //; rewrite -Hkc].
  rewrite HT ?Pp //; last by lia.
  by split; [right|rewrite Hkc //; split => //; apply: cut_refl].
have U : uniq (iota 1 n.-1) by apply: iota_uniq.
have HU p : p \in iota 1 n.-1 -> 0 < p < n by rewrite mem_iota; lia.
have HTp p : p \in iota 1 n.-1 -> T p = CHalt \/ T p = CRecv 0 (kk p) /\ Q 0 p = [::].
  move=> /HU pI; have [[->|E] _] := Hc p pI; first by left.
  by right; split => //; case: (I p pI) => _ [|//]; rewrite E.
have [Q' [R2 [Q'1 Q'2]]] := @send_run outs (P' 0) (iota 1 n.-1) kk T Q U HU T0 HTp.
set T2 := (fun p => if p == 0 then _ else _) in R2.
have T2p p : 0 < p < n -> T2 p = if halted (T p) then CHalt else kk p (outs p).
  move=> pI; rewrite /T2; have -> : (p == 0) = false by lia.
  rewrite mem_iota; have -> : (0 < p) && (p < 1 + n.-1) by lia.
  by case: (T p).
pose T2' p := if p < n then T2 p else P' p.
have [|||T' [Q'' [R3 H1 H2 H3]]] := IH d T2' Q' d0 dd.
- move=> p pn pd; rewrite /T2' pn; case: (posnP p) => [->|p0]; first by rewrite /T2 eqxx.
  have pI : 0 < p < n by lia.
  by have [E1 E2] := (Hc p pI).2.2 pd; rewrite T2p // E1 /= E2.
- rewrite /T2'; case: ifP => [dn|_]; last exact: cut_refl.
  have dI : 0 < d < n by lia.
  rewrite T2p //; case: ifP => _; first by constructor.
  by case: (Hc d dI).2.
- move=> p pI; have [_ pn] := andP pI; rewrite /T2' pn; split.
    by rewrite Q'1; [case: (I p pI)|lia].
  rewrite T2p //; case: ifP => [|nh]; [by left|right].
  by rewrite Q'2 ?nh ?andbF //; case: (I p pI) => _ [|//]; rewrite nh.
exists T', Q''; split => //; apply: chreach_trans R2 _.
by apply: chreach_ext R3 => // p pn; rewrite /T2' pn.
Qed.

End Channel.

(** ** Composition on one stream *)

Lemma king_prog_ext B n dok (P P' : nat -> cproc B) vals : 0 < n ->
  (forall p, p < n -> P p = P' p) -> king_prog n dok P' vals -> king_prog n dok P vals.
Proof.
move=> n0 E H; case: H E => {P' vals}
  [P' vals HP|P' vals msgs K P'' P0 Pp HK H|P' vals outs kc P'' P0 Pp Hkc H] E.
- by apply: KP_ret => p pn; rewrite E // HP.
- apply: (@KP_gather _ _ _ _ _ msgs K P'') => //; first by rewrite E.
  by move=> p pI; rewrite E; [apply: Pp|lia].
apply: (@KP_scatter _ _ _ _ _ outs kc P'') => //; first by rewrite E.
by move=> p pI; rewrite E; [apply: Pp|lia].
Qed.

Lemma king_prog_vals B n dok (P : nat -> cproc B) vals vals' :
  (forall p, p < n -> vals p = vals' p) -> king_prog n dok P vals -> king_prog n dok P vals'.
Proof.
move=> E H; elim: H vals' E => {P vals}
  [P vals HP|P vals msgs K P'' P0 Pp HK _ IH|P vals outs kc P'' P0 Pp Hkc _ IH] vals' E.
- by apply: KP_ret => p pn; rewrite -E // HP.
- by apply: (@KP_gather _ _ _ _ _ msgs K P'') => //; apply: IH.
by apply: (@KP_scatter _ _ _ _ _ outs kc P'') => //; apply: IH.
Qed.

Lemma cbind_sends B C outs ids (k : cproc B) (f : B -> cproc C) :
  cbind (sends outs ids k) f = sends outs ids (cbind k f).
Proof. by elim: ids => //= id ids ->. Qed.

Lemma king_prog_bind B C n dok (P : nat -> cproc B) (R : nat -> B -> cproc C) v1 v2 : 0 < n ->
  king_prog n dok P v1 -> king_prog n dok (fun p => R p (v1 p)) v2 ->
  king_prog n dok (fun p => cbind (P p) (R p)) v2.
Proof.
move=> n0; elim=> {P v1}
  [P vals HP|P vals msgs K P' P0 Pp HK _ IH|P vals outs kc P' P0 Pp Hkc _ IH] H.
- by apply: king_prog_ext H => // p pn; rewrite HP.
- apply: (@KP_gather _ _ _ _ _ msgs (fun st => cbind (K st) (R 0)) (fun p => cbind (P' p) (R p))).
  + by rewrite P0.
  + by move=> p /Pp ->.
  + by move=> d /HK ->.
  exact: IH.
apply: (@KP_scatter _ _ _ _ _ outs (fun p b => cbind (kc p b) (R p)) (fun p => cbind (P' p) (R p))).
- by rewrite P0 cbind_sends.
- by move=> p /Pp ->.
- by move=> p /Hkc ->.
exact: IH.
Qed.

(** ** The whole network *)

Definition reach A (c c' : cfg A) := exists2 s, all clean s & run s c = Some c'.

Lemma reach_refl A (c : cfg A) : reach c c.
Proof. by exists [::]. Qed.

Lemma reach_trans A (c1 c2 c3 : cfg A) : reach c1 c2 -> reach c2 c3 -> reach c1 c3.
Proof.
case=> s1 c_1 r1 [s2 c_2 r2]; exists (s1 ++ s2); first by rewrite all_cat c_1.
by rewrite run_cat r1.
Qed.

Lemma reach_step A a (c c1 c2 : cfg A) : clean a -> step a c = Some c1 -> reach c1 c2 -> reach c c2.
Proof. by move=> ca E [s cs R]; exists (a :: s); rewrite /= ?ca ?E. Qed.

(** threads of a phase *)
Definition phase B (sids : seq nat) (th : nat -> cproc B) : seq (nat * cproc B) :=
  mkseq (fun i => (nth 0 sids i, th i)) (size sids).

Lemma nth_phase B sids (th : nat -> cproc B) i : i < size sids ->
  nth (0, CHalt) (phase sids th) i = (nth 0 sids i, th i).
Proof. by move=> H; rewrite nth_mkseq. Qed.

Lemma set_phase B sids (th : nat -> cproc B) j t : j < size sids ->
  set_nth (0, CHalt) (phase sids th) j (nth 0 sids j, t) = phase sids (updT th j t).
Proof.
move=> js; apply: (@eq_from_nth _ (0, CHalt)).
  by rewrite size_set_nth !size_mkseq; apply/maxn_idPr.
move=> i; rewrite size_set_nth size_mkseq => H.
have {}H : i < size sids by move: H; rewrite /maxn; case: ifP => // _; lia.
by rewrite nth_set_nth /= !nth_phase // /updT; case: eqP => [->|].
Qed.

Lemma eq_phase B sids (th th' : nat -> cproc B) : (forall i, i < size sids -> th i = th' i) ->
  phase sids th = phase sids th'.
Proof.
move=> E; apply: (@eq_from_nth _ (0, CHalt)); rewrite !size_mkseq // => i H.
by rewrite !nth_phase // E.
Qed.

Lemma silent_halted A B sids (th : nat -> cproc B) (k : seq B -> pproc A) j :
  uniq sids -> j < size sids -> halted (th j) -> silent (PJoin (phase sids th) k) (nth 0 sids j).
Proof.
move=> U js H /=; apply/andP; split.
  apply/(has_nthP (0, CHalt)); exists j; first by rewrite size_mkseq.
  by rewrite nth_phase //=; case: (th j) H.
apply/negP => /(has_nthP (0, CHalt))[i]; rewrite size_mkseq => il.
rewrite nth_phase //= => /andP[]; rewrite nth_uniq // => /eqP->.
by case: (th j) H.
Qed.

Lemma chreach_lift A B n j sids (k : nat -> seq B -> pproc A) (sync : pred nat) T Q T' Q' :
  uniq sids -> j < size sids -> chreach n T Q T' Q' ->
  forall (c : cfg A) (Th : nat -> nat -> cproc B), size (procs c) = n ->
  (forall p, p < n -> sync p -> nth PHalt (procs c) p = PJoin (phase sids (Th p)) (k p)) ->
  (forall p, p < n -> sync p -> Th p j = T p) ->
  (forall p, p < n -> ~~ sync p -> T p = CHalt /\ silent (nth PHalt (procs c) p) (nth 0 sids j)) ->
  (forall f t, f < n -> t < n -> queue c (nth 0 sids j) f t = Q f t) ->
  exists c', [/\ reach c c' /\ size (procs c') = n,
    forall p, p < n -> sync p -> nth PHalt (procs c') p = PJoin (phase sids (updT (Th p) j (T' p))) (k p),
    forall p, p < n -> ~~ sync p -> nth PHalt (procs c') p = nth PHalt (procs c) p,
    forall f t, f < n -> t < n -> queue c' (nth 0 sids j) f t = Q' f t &
    forall s f t, f < n -> t < n -> s != nth 0 sids j -> queue c' s f t = queue c s f t].
Proof.
move=> U js; elim=> {T Q T' Q'} [T Q T' Q' ET EQ|p a t op T Q T' Q' pn ca E _ IH] c Th Hn HP HT Hd HQ.
  exists c; split => //; first by split => //; apply: reach_refl.
    move=> p pn sp; rewrite HP //; congr PJoin; apply: eq_phase => i _.
    by rewrite /updT; case: eqP => // ->; rewrite HT // ET.
  by move=> f t fn tn; rewrite HQ // EQ.
have sp : sync p.
  by apply/negPn/negP => /(Hd p pn)[Tp _]; move: E; rewrite Tp; case: (a).
set sid := nth 0 sids j in Hd HQ IH *.
have E' : tstep n p (fun f => queue c sid f p)
    (fun id => silent (nth PHalt (procs c) id) sid) a (Th p j) = Some (t, op).
  rewrite HT //; move: E; apply: tstep_frame => id.
    by move=> b q idn _; rewrite -HQ // => ->; exists q.
  move=> idn _ h; rewrite -HQ // => ->; split => //.
  case: (boolP (sync id)) => [sid'|/Hd[]//].
  by rewrite HP //; apply: silent_halted => //; rewrite HT.
set c1 := Cfg (set_nth PHalt (procs c) p (PJoin (phase sids (updT (Th p) j t)) (k p)))
              (apply_q n p (sid, op) (qs c)).
have S1 : step (p, LThread j a) c = Some c1.
  rewrite /step Hn HP //= size_mkseq js nth_phase // E' /c1 /sid.
  by congr (Some (Cfg (set_nth _ _ _ (PJoin _ _)) _)); rewrite -set_phase.
have n1 : size (procs c1) = n by rewrite /c1 /= size_set_nth Hn; apply/maxn_idPr.
have q1 s f g : f < n -> g < n -> queue c1 s f g =
    if s == sid then updQ (queue c sid) p op f g else queue c s f g.
  move=> fn gn; rewrite /queue n1 Hn /c1 /=.
  have H1 : forall s f, (sid, op) = (s, QPop f) -> f < n.
    by move=> ? ? [_ Eo]; move: E; rewrite Eo; case/tstep_pop.
  have H2 : forall s t b, (sid, op) = (s, QPush t b) -> t < n.
    by move=> ? ? ? [_ Eo]; move: E; rewrite Eo; case/tstep_push.
  rewrite (nth_apply_q _ _ pn fn gn H1 H2) [sid == s]eq_sym.
  case: eqP => [->|_]; last by case: (op).
  case: (op) => [|to b|fr] //=; first by rewrite [p == f]eq_sym [to == g]eq_sym.
  by rewrite [fr == f]eq_sym [p == g]eq_sym.
have [||||c' [[Rc n'] HP' Hd' HQ' Ho']] := IH c1 (fun q => if q == p then updT (Th p) j t else Th q) n1.
- move=> q qn sq; rewrite /c1 /= nth_set_nth /=; case: eqP => [->|_] //.
  exact: HP.
- by move=> q qn sq; rewrite /updT; case: (altP (q =P p)) => [_|_]; rewrite ?eqxx ?HT.
- move=> q qn sq; have qp : (q == p) = false by apply/negbTE/negP => /eqP E0; move: sq; rewrite E0 sp.
  by rewrite /updT qp /c1 /= nth_set_nth /= qp; apply: Hd.
- move=> f g fn gn; rewrite q1 // eqxx.
  by case: (op) => [|to b|fr] /=; rewrite HQ.
exists c'; split => //; first by split => //; apply: reach_step S1 Rc.
- move=> q qn sq; rewrite HP' //; congr PJoin; apply: eq_phase => i _.
  by rewrite /updT; case: (altP (q =P p)) => [->|_]; case: (i == j).
- move=> q qn sq; rewrite Hd' // /c1 /= nth_set_nth /=.
  by case: eqP => // E0; move: sq; rewrite E0 sp.
by move=> s f g fn gn ss; rewrite Ho' // q1 // (negbTE ss).
Qed.

(** a crashed party that cannot do anything any more *)
Definition dead A (x : pproc A) : bool :=
  match x with
  | PRet _ => false
  | PHalt => true
  | PJoin B ts k => has (fun st => stopped st.2) ts && ~~ has (fun st => running st.2) ts
  end.

Lemma dead_silent A (x : pproc A) sid : dead x -> silent x sid.
Proof.
case: x => //= B ts k /andP[-> /=]; apply: contra; apply: sub_has => st.
by case/andP.
Qed.

Lemma dead_step A n me rd gone a (x : pproc A) : dead x -> clean (me, a) ->
  pstep n me rd gone a x = None.
Proof.
case: x => //= B ts k /andP[hs hr]; case: a => [j a||j] //= _.
  case: ifP => // js; case N: (nth _ ts j) => [s t].
  case E: (tstep _ _ _ _ _ _) => [[t' op]|] //; case/negP: hr.
  by apply/(has_nthP (0, CHalt)); exists j => //; rewrite N; apply: tstep_running E.
by case E: results => [rs|] //; rewrite (results_stopped E) in hs.
Qed.

Section Phase.
Variables (A B : Type) (n : nat) (sids : seq nat) (progs : nat -> nat -> cproc B)
  (rs : nat -> nat -> B) (k : nat -> seq B -> pproc A) (d : nat) (sync dok : pred nat).
Hypothesis n_gt0 : 0 < n.
Hypothesis U : uniq sids.
Hypothesis d0 : d != 0.
Hypothesis sync_d : forall p, p != d -> sync p.
Hypothesis dok_n : dok n.
Hypothesis dok_d : dok d.
Hypothesis kp : forall j, j < size sids -> king_prog n dok (progs^~ j) (rs^~ j).

Lemma phase_threads (c : cfg A) (Th : nat -> nat -> cproc B) :
  size (procs c) = n ->
  (forall p, p < n -> sync p -> nth PHalt (procs c) p = PJoin (phase sids (Th p)) (k p)) ->
  (forall p i, p < n -> p != d -> i < size sids -> Th p i = progs p i) ->
  (forall i, d < n -> sync d -> i < size sids -> cut_of (progs d i) (Th d i)) ->
  (forall p, p < n -> ~~ sync p -> dead (nth PHalt (procs c) p)) ->
  (forall s p, 0 < p < n -> queue c s p 0 = [::] /\ (sync p -> queue c s 0 p = [::])) ->
  forall j, j <= size sids -> exists c' Th', [/\ reach c c' /\ size (procs c') = n,
    forall p, p < n -> sync p -> nth PHalt (procs c') p = PJoin (phase sids (Th' p)) (k p),
    (forall p, p < n -> ~~ sync p -> dead (nth PHalt (procs c') p)) /\
    (forall s p, 0 < p < n -> queue c' s p 0 = [::]),
    (forall s p, 0 < p < n -> sync p ->
      (exists2 i, i < j & nth 0 sids i = s /\ halted (Th' p i)) \/ queue c' s 0 p = [::]) &
    (forall p i, p < n -> j <= i -> Th' p i = Th p i) /\
    (forall p i, p < n -> i < j -> p != d -> Th' p i = CRet (Ok (rs p i))) /\
    (forall i, d < n -> sync d -> i < j -> Th' d i = CRet (Ok (rs d i)) \/ Th' d i = CHalt)].
Proof.
move=> Hn HP HT Hcut Hdead HQ; elim=> [_|j IH js].
  exists c, Th; split => //; first by split => //; apply: reach_refl.
    by split => // s p pI; case: (HQ s p pI).
  by move=> s p pI sp; right; case: (HQ s p pI) => _ /(_ sp).
have [c1 [Th1 [[R1 n1] HP1 [Hd1 Hq1] Hq1' [Hge [Hlt Hltd]]]]] := IH (ltnW js).
pose T p := if (p < n) && sync p then Th1 p j else if p < n then CHalt else progs p j.
pose Q f t := queue c1 (nth 0 sids j) f t.
have TT p : p < n -> sync p -> T p = Th1 p j by rewrite /T => -> ->.
have TN p : p < n -> ~~ sync p -> T p = CHalt by rewrite /T => -> /negbTE->.
have Tp p : p < n -> p != d -> T p = progs p j.
  by move=> pn pd; rewrite TT ?sync_d // Hge // HT.
have Td : cut_of (progs d j) (T d).
  rewrite /T; case: (ltnP d n) => [dn|] /=; last by move=> _; apply: cut_refl.
  case: ifP => sd; last by constructor.
  by rewrite Hge //; apply: Hcut.
have I : idle n T Q.
  move=> p pI; split; first exact: Hq1.
  have pn : p < n by lia.
  case: (boolP (sync p)) => sp; last by left; rewrite TN.
  case: (Hq1' (nth 0 sids j) p pI sp) => [[i ij [Es _]]|]; last by right.
  by move/eqP: Es; rewrite nth_uniq ?(ltn_trans ij) // ltn_eqF.
have [T' [Q' [Rch HT' Hd' I']]] := king_prog_run n_gt0 dok_n (kp js) d0 dok_d Tp Td I.
have Hsil p : p < n -> ~~ sync p -> T p = CHalt /\ silent (nth PHalt (procs c1) p) (nth 0 sids j).
  by move=> pn sp; split; [apply: TN|apply: dead_silent; apply: Hd1].
have [c2 [[R2 n2] HP2 Hdd HQ2 HQo]] :=
  chreach_lift U js Rch n1 HP1 (fun p pn sp => esym (TT p pn sp)) Hsil (fun f t _ _ => erefl).
exists c2, (fun p => updT (Th1 p) j (T' p)); split => //.
- by split => //; apply: reach_trans R1 R2.
- split; first by move=> p pn sp; rewrite Hdd //; apply: Hd1.
  move=> s p pI; case: (altP (s =P nth 0 sids j)) => [->|ss].
    by rewrite HQ2 //; [case: (I' p pI)|lia].
  by rewrite HQo //; [apply: Hq1|lia].
- move=> s p pI sp; have pn : p < n by lia.
  case: (altP (s =P nth 0 sids j)) => [->|ss].
    rewrite HQ2 //; case: (I' p pI) => _ [h|]; last by right.
    by left; exists j => //; rewrite /updT eqxx.
  rewrite HQo //; case: (Hq1' s p pI sp) => [[i ij [Es h]]|]; last by right.
  left; exists i; first by lia.
  by rewrite /updT ltn_eqF.
split; [|split].
- move=> p i pn ji; rewrite /updT gtn_eqF //.
  by rewrite Hge // ltnW.
- move=> p i pn; rewrite ltnS leq_eqVlt /updT; case: (altP (i =P j)) => [->|_] /= H pd.
    by apply: HT'.
  exact: Hlt.
move=> i dn sd; rewrite ltnS leq_eqVlt /updT; case: (altP (i =P j)) => [->|_] /= H.
  exact: Hd'.
exact: Hltd.
Qed.

End Phase.

Lemma results_phase B sids (th : nat -> cproc B) rs :
  (forall i, i < size sids -> th i = CRet (Ok (rs i))) ->
  results (phase sids th) = Some (mkseq rs (size sids)).
Proof.
move=> H; have E : forall s, {subset s <= iota 0 (size sids)} ->
    results [seq (nth 0 sids i, th i) | i <- s] = Some [seq rs i | i <- s].
  elim=> //= i s IH Hs.
  rewrite H; last by have := Hs i; rewrite inE eqxx mem_iota => /(_ isT); lia.
  by rewrite IH // => x xs; apply: Hs; rewrite inE xs orbT.
exact: E.
Qed.

Lemma join_run A B n (ts : nat -> seq (nat * cproc B)) (k : nat -> seq B -> pproc A) rs
    (S : pred nat) (c : cfg A) :
  size (procs c) = n ->
  (forall p, p < n -> S p -> nth PHalt (procs c) p = PJoin (ts p) (k p)) ->
  (forall p, p < n -> S p -> results (ts p) = Some (rs p)) ->
  exists c', [/\ reach c c' /\ size (procs c') = n,
    forall p, p < n -> S p -> nth PHalt (procs c') p = k p (rs p),
    forall p, p < n -> ~~ S p -> nth PHalt (procs c') p = nth PHalt (procs c) p &
    qs c' = qs c].
Proof.
move=> Hn HP Hr.
have H i : i <= n -> exists c', [/\ reach c c' /\ size (procs c') = n,
    forall p, p < n -> nth PHalt (procs c') p =
      if (p < i) && S p then k p (rs p) else nth PHalt (procs c) p & qs c' = qs c].
  elim: i => [_|i IH il]; first by exists c; split => //; split => //; apply: reach_refl.
  have [c1 [[R1 n1] HP1 Hq1]] := IH (ltnW il).
  case: (boolP (S i)) => Si; last first.
    exists c1; split => // p pn; rewrite HP1 // ltnS [p <= i]leq_eqVlt.
    by case: (altP (p =P i)) => [->|//]; rewrite (negbTE Si) !andbF.
  have E1 : step (i, LJoin) c1 = Some (Cfg (set_nth PHalt (procs c1) i (k i (rs i))) (qs c1)).
    by rewrite /step HP1 // ltnn /= HP //= Hr.
  exists (Cfg (set_nth PHalt (procs c1) i (k i (rs i))) (qs c1)); split => //.
    split; last by rewrite /= size_set_nth n1; apply/maxn_idPr.
    by apply: reach_trans R1 _; apply: reach_step E1 _; [|apply: reach_refl].
  move=> p pn; rewrite /= nth_set_nth /=; case: (altP (p =P i)) => [->|pi].
    by rewrite ltnSn Si.
  by rewrite HP1 // ltnS [p <= i]leq_eqVlt (negbTE pi).
have [c' [R' HP' Hq]] := H n (leqnn n); exists c'; split => // p pn Sp.
  by rewrite HP' // pn Sp.
by rewrite HP' // (negbTE Sp) andbF.
Qed.

(** A protocol of the [n] parties: phases of king protocols on different streams. *)
Inductive king_party A (n : nat) (dok : pred nat) : (nat -> pproc A) -> (nat -> A) -> Prop :=
| PP_ret P vals : (forall p, p < n -> P p = PRet (Ok (vals p))) -> king_party n dok P vals
| PP_join P vals B sids (progs : nat -> nat -> cproc B) (rs : nat -> nat -> B) k :
    (forall p, p < n -> P p = PJoin (phase sids (progs p)) (k p)) -> uniq sids ->
    (forall j, j < size sids -> king_prog n dok (progs^~ j) (rs^~ j)) ->
    king_party n dok (fun p => k p (mkseq (rs p) (size sids))) vals -> king_party n dok P vals.

(** truncations of a party *)
Fixpoint pcut A (x x' : pproc A) : Prop :=
  x' = PHalt \/
  match x with
  | PRet r => x' = PRet r
  | PHalt => False
  | PJoin B ts k => exists ts' k', [/\ x' = PJoin ts' k', size ts' = size ts,
      forall i, i < size ts -> (nth (0, CHalt) ts' i).1 = (nth (0, CHalt) ts i).1 /\
                               cut_of (nth (0, CHalt) ts i).2 (nth (0, CHalt) ts' i).2 &
      forall rs, pcut (k rs) (k' rs)]
  end.

Lemma pcut_refl A (x : pproc A) : pcut x x.
Proof.
elim: x => [r|B ts k IH|]; [by right| |by left].
by right; exists ts, k; split => // i _; split => //; apply: cut_refl.
Qed.

Lemma pcut_crash A f ms (x : pproc A) : pcut x (pcrash f ms x).
Proof.
elim: x f => [r|B ts k IH|] [|f] /=; try by [right|left].
  right; exists [seq ((nth (0, CHalt) ts j).1, ccrash (ms j) (nth (0, CHalt) ts j).2)
                 | j <- iota 0 (size ts)], (fun _ => PHalt); split => //.
  - by rewrite size_map size_iota.
  - move=> i il; rewrite (nth_map 0) ?size_iota // nth_iota //=; split => //.
    exact: cut_crash.
  by move=> rs; case: (k rs) => *; left.
right; exists ts, (fun rs => pcrash f ms (k rs)); split => // i _; split => //.
exact: cut_refl.
Qed.

Lemma pcut_halt A (x : pproc A) : pcut x PHalt.
Proof. by case: x => *; left. Qed.

Lemma king_party_run A n (dok : pred nat) (P : nat -> pproc A) vals : 0 < n -> dok n ->
  king_party n dok P vals ->
  forall d (c : cfg A), d != 0 -> dok d -> size (procs c) = n ->
  (forall p, p < n -> p != d -> nth PHalt (procs c) p = P p) ->
  (d < n -> dead (nth PHalt (procs c) d) \/
     pcut (P d) (nth PHalt (procs c) d) /\ (forall s, queue c s 0 d = [::])) ->
  (forall s p, 0 < p < n -> queue c s p 0 = [::] /\ (p != d -> queue c s 0 p = [::])) ->
  exists c', [/\ reach c c' /\ size (procs c') = n,
    forall p, p < n -> p != d -> nth PHalt (procs c') p = PRet (Ok (vals p)) &
    d < n -> dead (nth PHalt (procs c') d) \/ nth PHalt (procs c') d = PRet (Ok (vals d))].
Proof.
move=> n0 dn0; elim=> {P vals} [P vals HP|P vals B sids progs rs k HP U Hkp _ IH] d c d0 dd Hn Hc Hd HQ.
  exists c; split; first by split => //; apply: reach_refl.
    by move=> p pn pd; rewrite Hc // HP.
  move=> dn; case: (Hd dn) => [|[]]; first by left.
  by rewrite HP //= => -[] ->; [left|right].
pose alive := (d < n) && ~~ dead (nth PHalt (procs c) d).
pose sync p := (p != d) || alive.
have sync_d p : p != d -> sync p by rewrite /sync => ->.
have sync_dE : sync d = alive by rewrite /sync eqxx.
(* the threads of the crashing party *)
have [Th [k' [HTh HT Hcut Hk]]] : exists (Th : nat -> nat -> cproc B) k',
  [/\ forall p, p < n -> sync p -> nth PHalt (procs c) p = PJoin (phase sids (Th p)) (k' p),
      forall p i, p < n -> p != d -> i < size sids -> Th p i = progs p i,
      forall i, d < n -> sync d -> i < size sids -> cut_of (progs d i) (Th d i) &
      forall p, p < n -> sync p -> (p != d -> k' p = k p) /\
        forall rs, pcut (k p rs) (k' p rs)].
  case: (boolP alive) => al; last first.
    exists progs, k; split => //.
    - move=> p pn; case: (altP (p =P d)) => [->|pd _]; first by rewrite sync_dE (negbTE al).
      by rewrite Hc // HP.
    - by move=> i _; rewrite sync_dE (negbTE al).
    by move=> p _ _; split => // ?; apply: pcut_refl.
  have [dn nd] := andP al; case: (Hd dn) => [|[]]; first by rewrite (negbTE nd).
  rewrite (HP d dn) /= => -[E|]; first by move: nd; rewrite E.
  case=> ts' [kd [E Es Ht Hk]] Hqd; rewrite size_mkseq in Es Ht.
  exists (fun p => if p == d then fun i => (nth (0, CHalt) ts' i).2 else progs p),
         (fun p => if p == d then kd else k p); split.
  - move=> p pn _; case: (altP (p =P d)) => [->|pd]; last by rewrite Hc // HP.
    rewrite E; congr PJoin; apply: (@eq_from_nth _ (0, CHalt)); rewrite ?size_mkseq // => i.
    rewrite Es => il; rewrite nth_phase //; have [] := Ht i il; rewrite nth_phase //= => <- _.
    by case: (nth _ ts' i).
  - by move=> p i pn pd; rewrite (negbTE pd).
  - by move=> i _ _ il; rewrite eqxx; have [_] := Ht i il; rewrite nth_phase.
  move=> p pn _; case: (altP (p =P d)) => [->|pd]; first by [].
  by split => // ?; apply: pcut_refl.
have Hdead p : p < n -> ~~ sync p -> dead (nth PHalt (procs c) p).
  move=> pn; rewrite /sync negb_or negbK => /andP[/eqP Ep]; rewrite /alive -Ep pn /=.
  by rewrite negbK.
have HQ' s p : 0 < p < n -> queue c s p 0 = [::] /\ (sync p -> queue c s 0 p = [::]).
  move=> pI; have [q1 q2] := HQ s p pI; split => //.
  case: (altP (p =P d)) => [Ep|pd _]; last exact: q2.
  rewrite Ep sync_dE => /andP[dn nd]; case: (Hd dn) => [|[_]]; first by rewrite (negbTE nd).
  by [].
have [c1 [Th1 [[R1 n1] HP1 [Hd1 Hq1] Hq1' [_ [Hlt Hltd]]]]] :=
  phase_threads n0 U d0 sync_d dn0 dd Hkp Hn HTh HT Hcut Hdead HQ' (leqnn (size sids)).
pose fin := all (fun i => ~~ halted (Th1 d i)) (iota 0 (size sids)).
pose S p := (p != d) || (alive && fin).
have HS p : p < n -> S p -> sync p.
  by move=> pn; rewrite /S /sync; case: (p != d) => //= /andP[].
have Hr p : p < n -> S p -> results (phase sids (Th1 p)) = Some (mkseq (rs p) (size sids)).
  move=> pn Sp; apply: results_phase => i il; case: (altP (p =P d)) => [Ep|pd]; last exact: Hlt.
  move: Sp; rewrite /S Ep eqxx /= => /andP[al /allP/(_ i)]; rewrite mem_iota => /(_ il).
  have dn : d < n by case/andP: al.
  by have := Hltd i dn; rewrite sync_dE => /(_ al il)[] ->.
have [c2 [[R2 n2] HP2 HN2 Hq2]] := join_run n1 (fun p pn Sp => HP1 p pn (HS p pn Sp)) Hr.
have Eq s f t : queue c2 s f t = queue c1 s f t by rewrite /queue n1 n2 Hq2.
have [|||c3 [[R3 n3] HP3 Hd3]] := IH d c2 d0 dd n2.
- move=> p pn pd; rewrite HP2 /S ?pd //.
  by have [/(_ pd)-> _] := Hk p pn (sync_d p pd).
- move=> dn; case: (boolP (alive && fin)) => [/andP[al fi]|naf].
    have Sd : S d by rewrite /S al fi orbT.
    right; rewrite HP2 //; split; first by have [] := Hk d dn (HS d dn Sd).
    move=> s; rewrite Eq; have dI : 0 < d < n by lia.
    have sd : sync d by rewrite sync_dE.
    case: (Hq1' s d dI sd) => // -[i il [_ h]].
    by move/allP: fi => /(_ i); rewrite mem_iota h => /(_ il).
  have NSd : ~~ S d by rewrite /S eqxx.
  left; rewrite HN2 //; case: (boolP alive) => al; last first.
    by apply: Hd1 => //; rewrite sync_dE.
  have sd : sync d by rewrite sync_dE.
  rewrite HP1 //=; apply/andP; split.
    move: naf; rewrite al /= -has_predC => /hasP[i]; rewrite mem_iota => il /= /negbNE h.
    apply/(has_nthP (0, CHalt)); exists i; rewrite ?size_mkseq // nth_phase //=.
    by case: (Th1 d i) h.
  apply/negP => /(has_nthP (0, CHalt))[i]; rewrite size_mkseq => il; rewrite nth_phase //=.
  by case: (Hltd i dn sd il) => ->.
- move=> s p pI; rewrite !Eq; split; first exact: Hq1.
  move=> pd; have pn : p < n by lia.
  case: (Hq1' s p pI (sync_d p pd)) => // -[i il [_]].
  by rewrite Hlt.
exists c3; split => //; split => //.
exact: reach_trans R1 (reach_trans R2 R3).
Qed.

(** ** Every schedule *)

Definition failed A (x : pproc A) : bool :=
  if x is PJoin B ts k then has (fun st => stopped st.2) ts else false.

Lemma pstep_failed A n me rd gone a (x x' : pproc A) o : clean (me, a) ->
  pstep n me rd gone a x = Some (x', o) -> failed x -> failed x'.
Proof.
case: x => [v|B ts k|] //=; case: a => [j a||j] //= ca.
- case: ifP => // jts; case N: (nth _ ts j) => [s t].
  case E: (tstep _ _ _ _ _ _) => [[t' op]|] // [<- _] /=.
  rewrite !(has_nth_split (0, CHalt) _ jts) N /= !has_set_nth //=.
  by case/or3P=> [->|H|->]; rewrite ?orbT //; move: (tstep_running E) H; case: (t).
by case E: results => [rs|] //; rewrite (results_stopped E).
Qed.

Lemma run_failed A s (c c' : cfg A) p : all clean s -> run s c = Some c' ->
  failed (nth PHalt (procs c) p) -> failed (nth PHalt (procs c') p).
Proof.
elim: s c => [|a s IH] c /=; first by move=> _ [<-].
case/andP=> ca cs; case E: (step a c) => [c1|] // R f; apply: IH R _ => //.
move: E ca; rewrite /step; case: a => q la; case E: (pstep _ _ _ _ _ _) => [[x o]|] // [<-] ca /=.
rewrite nth_set_nth /=; case: eqP f => // -> f; exact: pstep_failed ca E f.
Qed.

Lemma confluent_every A (ps : seq (pproc A)) (live : pred nat) vals (d : cfg A) :
  (forall p, separate (nth PHalt ps p)) ->
  reach (init ps) d -> final d ->
  (forall p, p < size ps -> live p -> nth PHalt (procs d) p = PRet (Ok (vals p))) ->
  every_schedule ps live vals.
Proof.
move=> S [s0 cs0 R0] T Hv; exists (size s0), d; split => // s c cs R.
have [s' [cs' R' Es]] := @run_confluent A s0 s (init ps) c d S cs0 cs R0 T R.
split; first by exists s'.
move=> p j pn lp; have := Hv p pn lp; have := @run_failed _ s' c d p cs' R'.
rewrite /step /failed; case: (nth PHalt (procs c) p) => [r|B ts k|] //=.
case N: (nth _ ts j) => [sd t] Hf E; rewrite E in Hf.
have Hs : stopped t -> j < size ts -> False.
  move=> st jl; suff : false by [].
  by apply: Hf; apply/(has_nthP (0, CHalt)); exists j => //; rewrite N.
case: (ltnP j (size ts)) => [jl|jl]; last by move: N; rewrite nth_default // => -[_ <-].
by case: t Hs {N} => [[v|e|]|? ? ?|? ?|? ?|] //= /(_ isT jl).
Qed.

Lemma separate_crash A f ms (x : pproc A) : separate x -> separate (pcrash f ms x).
Proof.
elim: x f => [r|B ts k IH|] [|f] //= [U S]; split => //; last by move=> rs; apply: IH.
rewrite -map_comp (eq_map (f2 := fun j => nth 0 [seq st.1 | st <- ts] j)); last first.
  move=> j /=; case: (ltnP j (size ts)) => jl; first by rewrite (nth_map (0, CHalt)).
  by rewrite !nth_default ?size_map.
by have := mkseq_nth 0 [seq st.1 | st <- ts]; rewrite /mkseq size_map => ->.
Qed.

Theorem king_party_schedules A n (dok : pred nat) (P : nat -> pproc A) vals d f ms :
  0 < n -> d != 0 -> dok n -> dok d -> (forall p, separate (P p)) -> king_party n dok P vals ->
  every_schedule (crashing n d f ms P) (fun p => p != d) vals.
Proof.
move=> n0 d0 dn0 dd S K; set ps := crashing n d f ms P.
have Hn : size (procs (init ps)) = n by rewrite /= size_mkseq.
have nthP p : p < n -> nth PHalt ps p = if p == d then pcrash f ms (P p) else P p.
  by move=> pn; rewrite nth_mkseq.
have q0 s g t : queue (init ps) s g t = [::] by rewrite /queue nth_nil.
have [|||c [[R Sc] Hl Hd]] := king_party_run n0 dn0 K d0 dd Hn.
- by move=> p pn pd; rewrite /= nthP // (negbTE pd).
- by move=> dn; right; split => //=; rewrite nthP // eqxx; apply: pcut_crash.
- by move=> s p pI; rewrite !q0.
apply: confluent_every R _ _.
- move=> p; case: (ltnP p n) => pn; last by rewrite nth_default // size_mkseq.
  by rewrite nthP //; case: eqP => // _; apply: separate_crash.
- case=> p a ca; rewrite /step; case: (ltnP p n) => pn; last by rewrite nth_default ?Sc.
  case: (altP (p =P d)) => [Ep|pd]; last by rewrite Hl.
  subst p; case: (Hd pn) => [dde|->] //.
  by rewrite dead_step.
by move=> p; rewrite size_mkseq => pn pd; apply: Hl.
Qed.
