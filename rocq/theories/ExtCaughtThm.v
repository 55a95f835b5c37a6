(** Debug builds: what the king does with wrong shares of the QAP. *)
From mathcomp Require Import all_ssreflect all_algebra.
From mathcomp Require Import zify.
From Verif Require Import Base ModelField ModelUtils ModelPss ModelPack ModelFft ModelNet.
From Verif Require Import ModelProto ModelQap ModelProve Spec SpecNet SpecProto SpecTamper SpecExtCaught.
From Verif Require Import NetProofs JoinProofs KingProofs RoundProofs LogProofs PartyProofs.
From Verif Require Import FieldProofs UtilsProofs PssProofs PackProofs FftProofs ProtoProofs DegProofs.
From Verif Require Import NetThm PssThm ProtoThm QapProofs ExtProofs GrothThm ProveProofs ProveThm.
From Verif Require Import KingFail TamperProofs TamperFft TamperThm ProveTamperThm ExtTamperThm.
Set Implicit Arguments.
Unset Strict Implicit.
Unset Printing Implicit Defensive.
Import GRing.Theory.
Local Open Scope ring_scope.

Local Notation Fm F := [lmodType F of F^o].

(** ** a phase in which the king's thread [j] panics *)
Definition dies_at B (n : nat) (progs : nat -> cproc B) : Prop :=
  exists K msgs kc, [/\ progs 0%N = CGather (nseq n None) K,
    forall p, (0 < p < n)%N -> progs p = CSend 0 (msgs p) (CRecv 0 (kc p)) &
    K (store_without n msgs n) = CRet Panic].

Lemma dies_at_ext B n (f g : nat -> cproc B) : (0 < n)%N -> (forall p, (p < n)%N -> f p = g p) ->
  dies_at n f -> dies_at n g.
Proof.
move=> n0 E [K [msgs [kc [H0 Hp HK]]]]; exists K, msgs, kc; split=> // [|p /andP[p0 lp]].
  by rewrite -E.
by rewrite -E // Hp // p0.
Qed.

Section Stuck.
Variables (n j sid : nat).
Hypothesis n0 : (0 < n)%N.

Definition stuck A (c : cfg A) : Prop :=
  [/\ size (procs c) = n,
      forall p, (p < n)%N -> exists B (ts : seq (nat * cproc B)) k,
        [/\ nth PHalt (procs c) p = PJoin ts k, (j < size ts)%N, uniq [seq st.1 | st <- ts],
            (nth (0%N, CHalt) ts j).1 = sid &
            if p == 0%N then (nth (0%N, CHalt) ts j).2 = CRet Panic
            else exists kc, (nth (0%N, CHalt) ts j).2 = CRecv 0 kc] &
      forall p, (0 < p < n)%N -> queue c sid 0 p = [::]].

Lemma tstep_range B me rd gone a (t t' : cproc B) o : (me < n)%N -> tstep n me rd gone a t = Some (t', o) ->
  (forall f, o = QPop f -> (f < n)%N) /\ (forall to b, o = QPush to b -> (to < n)%N).
Proof.
move=> lm; case: t => [r|to b k|from k|st k|] //=; case: a => [|id| | |] //=.
- by case: ifP => [/andP[lt _] [_ <-]|_ [_ <-]]; split=> // ? ? [<- _].
- by case=> _ <-; split.
- case: ifP => [/andP[lt _]|_ [_ <-]]; last by split.
  by case: (rd _) => // b _ [_ <-]; split=> // ? [<-].
- by case=> _ <-; split.
- case: ifP => // /andP[/andP[/andP[_ lt] _] _].
  by case: (rd _) => // b _ [_ <-]; split=> // ? [<-].
- by case: ifP => // _ [_ <-]; split.
- by case=> _ <-; split.
Qed.

Lemma stuck_step A a (c d : cfg A) : clean a -> stuck c -> step a c = Some d -> stuck d.
Proof.
case: a => q la cl [sc Hp Hq] E; have lq : (q < n)%N.
  by rewrite -sc; move: E; rewrite /step; case E: (pstep _ _ _ _ _ _) => [r|] // _; apply: pstep_lt E.
have sd : size (procs d) = n by rewrite (step_size E).
have [B [ts [k [Ets lj U Es Hj]]]] := Hp q lq.
move: E; rewrite /step Ets; case: la cl => [i a cl| _|//]; rewrite [pstep _ _ _ _ _ _]/=; last first.
  case Er: (results ts) => [rs|] // _; have [v Ev] := results_nth Er lj.
  by move: Hj; rewrite Ev; case: ifP => // _ [].
case: ifP => // li; case N: (nth _ ts i) => [sid' t]; rewrite sc.
case E: (tstep _ _ _ _ _ _) => [[t' o]|] // [Ed]; subst d.
have ij : i != j.
  apply/eqP=> Eij; subst i; rewrite N /= in Hj Es; subst sid'.
  case: ifP Hj => [_ Et|q0 [kc Et]]; rewrite Et in E; first by case: a E {cl}.
  case: a E cl => //= E _; move: E; rewrite n0 eq_sym q0 /=.
  by rewrite Hq // lt0n q0.
have [R1 R2] := tstep_range lq E.
have nsid : sid' != sid.
  apply/eqP => Esid; have := @nth_uniq _ 0%N [seq st.1 | st <- ts] i j; rewrite size_map => /(_ li lj U).
  by rewrite !(nth_map (0%N, CHalt)) // N Es /= Esid eqxx (negPf ij).
split=> //.
- move=> p lp; rewrite /= nth_set_nth /=; case: (altP (p =P q)) => [->|npq]; last exact: Hp.
  exists B, (set_nth (0%N, CHalt) ts i (sid', t')), k.
  have Ej : nth (0%N, CHalt) (set_nth (0%N, CHalt) ts i (sid', t')) j = nth (0%N, CHalt) ts j.
    by rewrite nth_set_nth /= eq_sym (negPf ij).
  rewrite Ej; split=> //; first by rewrite size_set_nth; lia.
  by rewrite (map_set_nth1 t' li N).
move=> p pI; have /andP[_ lp] := pI; rewrite /queue sd -[qs (Cfg _ _)]/(apply_q n q (sid', o) (qs c)) nth_apply_q //.
- by case: o {E R1 R2 sd} => [|to b|f]; rewrite ?(negPf nsid) /= -sc; apply: Hq.
- by move=> s f [_ Eo]; apply: R1 Eo.
- by move=> s to b [_ Eo]; apply: R2 Eo.
Qed.

Lemma stuck_run A s (c d : cfg A) : all clean s -> stuck c -> run s c = Some d -> stuck d.
Proof.
elim: s c => [|a s IH] c; first by move=> _ H [<-].
have Er : run (a :: s) c = if step a c is Some e then run s e else None by [].
rewrite Er [all _ _]/= => /andP[ca cs] H; case E: (step a c) => [e|] // R.
by apply: IH cs _ R; apply: stuck_step E.
Qed.

End Stuck.

(** protocols of several phases one of which kills the king *)
Inductive dying A (n : nat) : (nat -> pproc A) -> Prop :=
| DY_here P B sids (progs : nat -> nat -> cproc B) k j :
    (forall p, (p < n)%N -> P p = PJoin (phase sids (progs p)) (k p)) -> uniq sids ->
    (j < size sids)%N -> dies_at n (progs^~ j) -> dying n P
| DY_next P B sids (progs : nat -> nat -> cproc B) (rs : nat -> nat -> B) k :
    (forall p, (p < n)%N -> P p = PJoin (phase sids (progs p)) (k p)) -> uniq sids ->
    (forall j, (j < size sids)%N -> king_prog n (fun d => (d != 0%N) && (n <= d)%N) (progs^~ j) (rs^~ j)) ->
    dying n (fun p => k p (mkseq (rs p) (size sids))) -> dying n P.

Lemma stuck_reach A B n sids j (Th : nat -> nat -> cproc B) (k : nat -> seq B -> pproc A) (c : cfg A) :
  uniq sids -> (j < size sids)%N -> (0 < n)%N -> dies_at n (fun p => Th p j) -> size (procs c) = n ->
  (forall p, (p < n)%N -> nth PHalt (procs c) p = PJoin (phase sids (Th p)) (k p)) ->
  (forall s p, (0 < p < n)%N -> queue c s p 0 = [::] /\ queue c s 0 p = [::]) ->
  exists2 c', reach c c' & stuck n j (nth 0%N sids j) c'.
Proof.
move=> U lj n0 [K [msgs [kc [P0 Pp HK]]]] sc Hc q0.
have G := gather_run n0 (T := fun p => Th p j) (Q := queue c (nth 0%N sids j)) P0
  (fun p pI => or_introl (Pp p pI)) (fun p pI => (q0 _ p pI).1).
have [||c1 [[R0 sc1] Hc1 _ Hq1 _]] := chreach_lift U lj G (c := c) (sync := predT) sc
    (fun p lp _ => Hc p lp) (fun p _ _ => erefl).
- by move=> p _ /negP[].
- by [].
exists c1 => //; split=> // [p lp|p /andP[p0 lp]]; last first.
  by rewrite Hq1 //; have [|_] := q0 (nth 0%N sids j) p; rewrite ?p0.
exists B, (phase sids (updT (Th p) j (if p == 0%N then CRet Panic else CRecv 0 (kc p)))), (k p).
rewrite nth_phase // size_mkseq /= /updT eqxx; split=> //.
- rewrite Hc1 //; congr (PJoin (phase _ (updT _ _ _)) _); case: eqP => [p0|/eqP p0].
    rewrite -HK; congr K; apply: (@eq_from_nth _ None); rewrite !size_mkseq // => i il.
    rewrite !nth_mkseq //; case: eqP => //= /eqP i0.
    by rewrite Pp ?lt0n ?i0 //=; have -> : (i == n) = false by lia.
  by rewrite Pp //; lia.
- by rewrite /phase /mkseq -map_comp -[map _ _]/(mkseq (nth 0%N sids) _) mkseq_nth.
by case: (p == 0%N) => //; exists (kc p).
Qed.

Lemma dying_reach A n (P : nat -> pproc A) : (0 < n)%N -> dying n P -> forall c : cfg A,
  size (procs c) = n -> (forall p, (p < n)%N -> nth PHalt (procs c) p = P p) ->
  (forall s p, (0 < p < n)%N -> queue c s p 0 = [::] /\ queue c s 0 p = [::]) ->
  exists j sid, exists2 c', reach c c' & stuck n j sid c'.
Proof.
move=> n0; elim=> {P} [P B sids progs k j HP U lj Hd|P B sids progs rs k HP U Hk _ IH] c sc Hc q0.
  have [c' R S] := stuck_reach U lj n0 Hd sc (fun p lp => etrans (Hc p lp) (HP p lp)) q0.
  by exists j, (nth 0%N sids j), c'.
have nn : n != 0%N by lia.
have dn : (n != 0%N) && (n <= n)%N by rewrite nn leqnn.
have [||||||c1 [Th1 [[R1 n1] HP1 [_ Hq1] Hq1' [_ [Hlt _]]]]] :=
  phase_threads n0 U (d := n) (sync := predT) nn _ dn dn Hk sc (k := k) (Th := progs) _ _ _ _ _ (leqnn (size sids)).
- by [].
- by move=> p lp _; rewrite Hc // HP.
- by [].
- by move=> i; rewrite ltnn.
- by [].
- by move=> s p pI; have [? ?] := q0 s p pI.
have Hr p : (p < n)%N -> predT p -> results (phase sids (Th1 p)) = Some (mkseq (rs p) (size sids)).
  by move=> lp _; apply: results_phase => i il; apply: Hlt => //; lia.
have [c2 [[R2 n2] HP2 _ Hq2]] := join_run n1 HP1 Hr.
have Eq s f t : queue c2 s f t = queue c1 s f t by rewrite /queue n1 n2 Hq2.
have [||j [sid [c' R3 S]]] := IH c2 n2.
- by move=> p lp; apply: HP2.
- move=> s p pI; rewrite !Eq Hq1 //; split=> //; case: (Hq1' s p pI isT) => // -[i il [_]].
  by rewrite Hlt //; lia.
by exists j, sid, c' => //; apply: reach_trans R1 (reach_trans R2 R3).
Qed.

Lemma dying_panics A n (P : nat -> pproc A) : (0 < n)%N -> dying n P -> (forall p, separate (P p)) ->
  king_panics_first (mkseq P n).
Proof.
move=> n0 D Sp; set ps := mkseq P n; have sps : size (procs (init ps)) = n by rewrite size_mkseq.
have Sep : separate_cfg (init ps).
  move=> p; case: (ltnP p n) => lp; last by rewrite nth_default ?sps.
  by rewrite /= nth_mkseq.
have Hps p : (p < n)%N -> nth PHalt (procs (init ps)) p = P p by move=> lp; rewrite /= nth_mkseq.
have q0 sd f t : queue (init ps) sd f t = [::] by rewrite /queue nth_nil.
have [j [sid [c1 [s0 cs0 R0] S1]]] := dying_reach n0 D sps Hps (fun s p _ => conj (q0 s p 0%N) (q0 s 0%N p)).
move=> s c cs R; have [s1 [s2 [e [cs1 cs2 R1 R2]]]] := run_join (c := init ps) Sep cs0 cs R0 R.
have Se := stuck_run n0 cs1 S1 R1; split.
  move=> p r E; have [se He _] := Se; have := run_returned R2 E.
  case: (ltnP p n) => lp; last by rewrite nth_default ?se.
  by have [B' [ts [k' [-> _ _ _ _]]]] := He p lp.
have [se He _] := Se; have [B' [ts [k' [E lj' _ _ Ej]]]] := He 0%N n0.
exists s2, j; case Ed: (step (0%N, LAbort j) e) => [d'|]; last first.
  by move: Ed; rewrite /step E [pstep _ _ _ _ _ _]/=; case: (nth _ ts j) Ej => sd t /= ->.
exists e, d'; split=> //; move: Ed; rewrite /step E [pstep _ _ _ _ _ _]/=.
by case: (nth _ ts j) Ej => sd t /= -> [<-] /=; rewrite nth_set_nth.
Qed.

Lemma dying_bind A B n (P : nat -> pproc A) (R : nat -> A -> pproc B) : dying n P ->
  dying n (fun p => pbind (P p) (R p)).
Proof.
elim=> {P} [P C sids progs k j HP U lj Hd|P C sids progs rs k HP U Hk _ IH].
  by apply: (@DY_here _ _ _ _ sids progs (fun p rs => pbind (k p rs) (R p)) j) => // p lp; rewrite HP.
by apply: (@DY_next _ _ _ _ sids progs rs (fun p rs => pbind (k p rs) (R p))) => // p lp; rewrite HP.
Qed.

Lemma dying_eq A n (P P' : nat -> pproc A) : (forall p, (p < n)%N -> P' p = P p) -> dying n P -> dying n P'.
Proof.
move=> E D; case: D E => {P} [P C sids progs k j HP U lj Hd|P C sids progs rs k HP U Hk D] E.
  by apply: (@DY_here _ _ _ _ sids progs k j) => // p lp; rewrite E // HP.
by apply: (@DY_next _ _ _ _ sids progs rs k) => // p lp; rewrite E // HP.
Qed.

Lemma dying_after A B n (P : nat -> pproc A) (R : nat -> A -> pproc B) v :
  king_party n (fun d => (d != 0%N) && (n <= d)%N) P v ->
  dying n (fun p => R p (v p)) -> dying n (fun p => pbind (P p) (R p)).
Proof.
elim=> {P v} [P v HP|P v C sids progs rs k HP U Hkp _ IH] D.
  by apply: dying_eq D => p lp; rewrite HP.
apply: (@DY_next _ _ _ _ sids progs rs (fun p rs => pbind (k p rs) (R p))) => //; last exact: IH.
by move=> p lp; rewrite HP.
Qed.

Lemma dying_thread A n (t : nat -> cproc A) : dies_at n t -> dying n (fun p => pthread 0 (t p)).
Proof.
by move=> D; apply: (@DY_here _ _ _ _ [:: 0%N] (fun p _ => t p) _ 0%N).
Qed.

Lemma dies_at_bind A B n (t : nat -> cproc A) (R : nat -> A -> cproc B) : dies_at n t ->
  dies_at n (fun p => cbind (t p) (R p)).
Proof.
move=> [K [msgs [kc [P0 Pp HK]]]].
exists (fun st => cbind (K st) (R 0%N)), msgs, (fun p b => cbind (kc p b) (R p)); split.
- by rewrite P0.
- by move=> p pI; rewrite Pp.
by rewrite HK.
Qed.

(** ** rounds *)
Lemma round_dies_at T U B (c : codec T) (c' : codec U) n ord (x : nat -> T) thr
    (king : received T -> res (seq U)) (R : nat -> U -> cproc B) :
  (0 < n)%N -> (thr <= n.-1)%N -> hash_ok ord ->
  (forall i, (i < n)%N -> ModelNet.decode c (enc c (x i)) = Ok (x i)) ->
  king (received_from x n n ord) = Panic ->
  dies_at n (fun p =>
    (do! rs := csokr_ser c n p ord (x p) thr in
     do! outs := clift (king_map king rs) in
     do! v := crokss_ser c' n p outs in R p v)).
Proof.
move=> n0 Ht Ho Hd Ek.
case E: (csokr_ser c n 0 ord (x 0%N) thr) => [|||st K|] //.
have Est : st = nseq n None by move: E => [<-].
rewrite Est in E.
have HK : K (store_without n (fun i => enc c (x i)) n) = CRet (Ok (Some (received_from x n n ord))).
  by apply: csokr_king E => //; rewrite -lt0n.
pose rest p (o : option (received T)) :=
  do! outs := clift (king_map king o) in do! v := crokss_ser c' n p outs in R p v.
exists (fun st => cbind (K st) (rest 0%N)), (fun i => enc c (x i)),
  (fun p b => do! w := clift (ModelNet.decode c' b) in R p w); split.
- by rewrite E.
- move=> p /andP[p0 lt_p]; rewrite /csokr_ser /client_send_or_king_receive.
  by rewrite -[p]prednK.
rewrite HK; transitivity (rest 0%N (Some (received_from x n n ord))) => //.
by rewrite /rest /king_map Ek.
Qed.

Section Transform.
Variable F : fftField.
Variables (pp : pss F) (ok : pp_ok pp) (lam b : nat).
Hypothesis El : p_l pp = (2 ^ lam)%N.
  Local Notation l := (p_l pp).
  Local Notation n := (p_n pp).
  Local Notation m := (2 ^ b)%N.
  Local Notation k := (b + lam)%N.
Variables (cF : codec F) (mb : nat).
Hypotheses (cF_ok : codec_ok cF mb) (m_small : (m < 256 ^ 8)%N).

Lemma fft2_dies_at rearrange g gen (masks : nat -> fft_mask F) (x : nat -> seq F) r ord :
  (2 ^ k)%N.-primitive_root gen -> masks_ok pp lam b rearrange g gen masks ->
  (forall p, (p < n)%N -> size (x p) = m) -> unbalanced (T := Fm F) pp x m -> hash_ok ord ->
  dies_at n (fun p => fft2_with_rearrange true pp n p ord cF (x p) (masks p) rearrange g gen r).
Proof.
move=> pr [v [Hin Hout]] sx bal Ho; have l0 := pp_l_gt0 ok; have En := ppn ok; have n1 := n_gt1 ok.
have [sz Eu _] := masked (T := Fm F) ok sx Hin.
set z := fun p => zipmap +%R (x p) (fm_in (masks p)) in sz Eu.
have Ek : fft2_king true pp m m rearrange g gen r (received_from z n n ord) = Panic.
  by rewrite (fft2_king_any ok El) // Eu bal.
apply: dies_at_ext (@round_dies_at _ _ _ (vec_codec cF) (vec_codec cF) n ord z (p_t pp) _
  (fun p w => clift (Ok (zipmap +%R w (fm_out (masks p))))) _ _ Ho _ Ek) => //.
- by lia.
- by move=> p lp; rewrite /fft2_with_rearrange sx // -/(z p) sz.
- by lia.
- by rewrite (ppt ok); lia.
by move=> i lt_i; apply: (decode_vec cF_ok); rewrite sz.
Qed.

Variable dom : domain F.
Hypothesis Edom : domain_new F (2 ^ k) = Some dom.

Lemma d_ifft_dies_at rearrange g (masks : nat -> fft_mask F) (x : nat -> seq F) r ord :
  masks_ok pp lam b rearrange g (d_gen_inv dom) masks -> (forall p, (p < n)%N -> size (x p) = m) ->
  unbalanced (T := Fm F) pp x m -> hash_ok ord ->
  dies_at n (fun p => d_ifft true pp n p ord cF (x p) (masks p) rearrange dom g r).
Proof.
move=> Hm sx bal Ho; have pr := dom_prim_inv Edom; have n1 := n_gt1 ok.
have [sx' Ux' _] := scale_any (size_inv_neq0 Edom) sx.
have [y [Ey sy Uy _]] := fft1_any ok El m_small pr sx'; rewrite -Ux' -Uy in bal.
apply: dies_at_ext (fft2_dies_at r pr Hm sy bal Ho); first by lia.
by move=> p lp; rewrite /d_ifft (px_assert El Edom) ?sx // Ey.
Qed.

End Transform.

Lemma d_msm_dies_at (F : fftField) (T : lmodType F) (pp : pss F) (ok : pp_ok pp) (cT : codec T) mb m
    (masks : nat -> msm_mask T) (bases : nat -> seq T) (scalars : nat -> seq F) ord :
  codec_ok cT mb -> msm_ok pp masks -> (forall p, (p < p_n pp)%N -> size (bases p) = m) ->
  (forall p, (p < p_n pp)%N -> size (scalars p) = m) -> hash_ok ord ->
  imbalance pp (products bases scalars m) != 0 ->
  dies_at (p_n pp) (fun p => d_msm true pp (p_n pp) p ord cT (bases p) (scalars p) (masks p)).
Proof.
move=> cok [v [Hin Hout]] sb ss Ho bal; have l0 := pp_l_gt0 ok; have En := ppn ok.
have n1 := n_gt1 ok; pose z p := products bases scalars m p + mm_in (masks p).
have Bz : imbalance pp z = imbalance pp (products bases scalars m).
  by rewrite imbalanceD (imbalance_shared ok _ Hin) ?addr0 //; lia.
have Ek : d_msm_king true pp (p_n pp) (received_from z (p_n pp) (p_n pp) ord) = Panic.
  by rewrite d_msm_king_any // Bz bal.
apply: dies_at_ext (@round_dies_at _ _ _ cT cT (p_n pp) ord z (p_t pp) _
  (fun p w => clift (Ok (w + mm_out (masks p)))) _ _ Ho _ Ek) => //.
- by lia.
- by move=> p lp; rewrite (d_msm_start _ _ _ _ _ (sb p lp) (ss p lp)).
- by lia.
- by rewrite (ppt ok); lia.
by move=> i _; apply: decode_one cok _.
Qed.

(** one of the multi-scalar multiplications of the prover *)
Lemma msm_step (F : fftField) (T : lmodType F) B (pp : pss F) (ok : pp_ok pp) (cT : codec T) mb m
    (masks : nat -> msm_mask T) (bases : nat -> seq T) (scalars : nat -> seq F) ord
    (f : nat -> T -> T) (R : nat -> T -> pproc B) :
  codec_ok cT mb -> msm_ok pp masks -> (forall p, (p < p_n pp)%N -> size (bases p) = m) ->
  (forall p, (p < p_n pp)%N -> size (scalars p) = m) -> hash_ok ord ->
  (imbalance pp (products bases scalars m) = 0 -> forall v, dying (p_n pp) (fun p => R p (v p))) ->
  dying (p_n pp) (fun p => pbind (pthread 0
    (do! prod := d_msm true pp (p_n pp) p ord cT (bases p) (scalars p) (masks p) in
     clift (Ok (f p prod)))) (R p)).
Proof.
move=> cok Hm sb ss Ho H; have n0 : (0 < p_n pp)%N by have := n_gt1 ok; lia.
case: (boolP (imbalance pp (products bases scalars m) != 0)) => [nb|bb].
  apply: dying_bind; apply: dying_thread; apply: dies_at_bind.
  exact: (d_msm_dies_at ok cok Hm sb ss Ho nb).
have [out [_ P]] := d_msm_any ok cok (dbg := true) Hm sb ss bb.
apply: (dying_after (v := fun p => f p (out p))); last by apply: H; apply/eqP; rewrite -[_ == _]negbK.
apply: pthread_party; apply: king_prog_bind (P _ Ho) _ => //; exact: KP_ret.
Qed.

Section Inputs.
Variable F : fftField.
Variables (pp : pss F) (lam b : nat) (dom : domain F) (cF : codec F) (mb : nat).
Variables (q : nat -> qap_t F) (masks : nat -> seq (fft_mask F)) (r : nat -> rng F).
Hypothesis new : pss_new F true (2 ^ lam) = Ok pp.
Hypothesis Edom : domain_new F (2 ^ (b + lam)) = Some dom.
Hypotheses (cok : codec_ok cF mb) (m_small : (2 ^ b < 256 ^ 8)%N).
Hypothesis sq : forall p, (p < p_n pp)%N ->
  [/\ size (q_a (q p)) = (2 ^ b)%N, size (q_b (q p)) = (2 ^ b)%N & size (q_c (q p)) = (2 ^ b)%N].
Hypothesis nbal : exists2 e, (e < 2 ^ b)%N &
  [\/ imbalance (T := Fm F) pp (entry (T := Fm F) (fun p => q_a (q p)) e) != 0,
      imbalance (T := Fm F) pp (entry (T := Fm F) (fun p => q_b (q p)) e) != 0 |
      imbalance (T := Fm F) pp (entry (T := Fm F) (fun p => q_c (q p)) e) != 0].

Let fld i (x : qap_t F) := nth [::] [:: q_a x; q_b x; q_c x] i.

Lemma join_dying A ords g (k : nat -> seq (seq F) -> pproc A) (P : nat -> pproc A) :
  (forall i, (i < 3)%N -> fft_masks true pp true g (d_gen_inv dom) (2 ^ (b + lam))
                            (fun p => nth (no_mask F) (masks p) i)) ->
  (forall i, hash_ok (ords i)) ->
  (forall p, (p < p_n pp)%N -> P p =
    PJoin [:: (0%N, d_ifft true pp (p_n pp) p (ords 0%N) cF (q_a (q p)) (nth (no_mask F) (masks p) 0) true dom g (r 0%N));
              (1%N, d_ifft true pp (p_n pp) p (ords 1%N) cF (q_b (q p)) (nth (no_mask F) (masks p) 1) true dom g (r 1%N));
              (2%N, d_ifft true pp (p_n pp) p (ords 2%N) cF (q_c (q p)) (nth (no_mask F) (masks p) 2) true dom g (r 2%N))]
          (k p)) ->
  dying (p_n pp) P.
Proof.
move=> Hm Ho HP; have ok := pss_new_ok new; have El := pss_new_l new.
have [j lj U] : exists2 j, (j < 3)%N & unbalanced (T := Fm F) pp (fun p => fld j (q p)) (2 ^ b).
  have [e le H] := nbal.
  by case: H => H; [exists 0%N|exists 1%N|exists 2%N] => //; apply/unbalancedP; exists e.
have sj p : (p < p_n pp)%N -> size (fld j (q p)) = (2 ^ b)%N.
  by move=> /sq[? ? ?]; rewrite /fld; case: (j) lj => [|[|[|]]].
apply: (@DY_here _ _ _ _ [:: 0; 1; 2]%N
  (fun p i => d_ifft true pp (p_n pp) p (ords i) cF (fld i (q p)) (nth (no_mask F) (masks p) i) true dom g (r i))
  k j) => //.
apply: (d_ifft_dies_at ok El cok m_small Edom (r j)) => //.
exact: (fft_masks_ok new (dom_prim_inv Edom) (Hm j lj)).
Qed.

Lemma circom_dying d2 (dmasks : nat -> degred_mask (Fm F)) ords :
  domain_new F (2 * 2 ^ (b + lam)) = Some d2 ->
  (forall i, (i < 3)%N -> fft_masks true pp true (d_gen d2) (d_gen_inv dom) (2 ^ (b + lam))
                            (fun p => nth (no_mask F) (masks p) i)) ->
  (forall p, (p < p_n pp)%N -> q_domain (q p) = dom) -> (forall i, hash_ok (ords i)) ->
  dying (p_n pp) (fun p => circom_h true pp (p_n pp) p ords cF (q p) (masks p) (dmasks p) r).
Proof.
move=> Ed2 Hm Hq Ho; have [Edr _ _] := double_rootP Edom Ed2.
unshelve eapply (join_dying Hm Ho); last by move=> p lp; rewrite /circom_h Hq // Edr.
Qed.

End Inputs.

(*** theorems ***)

(** C79: [circom_h] in debug builds, if some entry of the parties' vectors is not balanced: no party
    ever gets a result, and the king can always be brought to panic in one of the three inverse
    transforms, whatever has happened before. *)
Lemma c79_circom_caught (F : fftField) lam b (pp : pss F) dom d2 (cF : codec F) mb
    (q : nat -> qap_t F) (masks : nat -> seq (fft_mask F)) (dmasks : nat -> degred_mask (Fm F))
    (r : nat -> rng F) ords :
  pss_new F true (2 ^ lam) = Ok pp -> domain_new F (2 ^ (b + lam)) = Some dom ->
  domain_new F (2 * 2 ^ (b + lam)) = Some d2 -> codec_ok cF mb -> (2 ^ b < 256 ^ 8)%N ->
  (forall i, (i < 3)%N -> fft_masks true pp true (d_gen d2) (d_gen_inv dom) (2 ^ (b + lam))
                            (fun p => nth (no_mask F) (masks p) i)) ->
  (forall p, (p < p_n pp)%N -> q_domain (q p) = dom) ->
  (forall p, (p < p_n pp)%N ->
    [/\ size (q_a (q p)) = (2 ^ b)%N, size (q_b (q p)) = (2 ^ b)%N & size (q_c (q p)) = (2 ^ b)%N]) ->
  (exists2 e, (e < 2 ^ b)%N &
    [\/ imbalance (T := Fm F) pp (entry (T := Fm F) (fun p => q_a (q p)) e) != 0,
        imbalance (T := Fm F) pp (entry (T := Fm F) (fun p => q_b (q p)) e) != 0 |
        imbalance (T := Fm F) pp (entry (T := Fm F) (fun p => q_c (q p)) e) != 0]) ->
  (forall i, hash_ok (ords i)) ->
  king_panics_first (mkseq (fun p =>
    circom_h true pp (p_n pp) p ords cF (q p) (masks p) (dmasks p) r) (p_n pp)).
Proof.
move=> new Edom Ed2 cok m_small Hm Hq sq nbal Ho; apply: dying_panics; first exact: n_gt0 new.
  exact: (circom_dying _ new Edom cok m_small sq nbal _ Ed2 Hm Hq Ho).
by move=> p; apply: separate_circom.
Qed.

(** C79: the same of [libsnark_h] *)
Lemma c79_libsnark_caught (F : fftField) lam b (pp : pss F) dom (cF : codec F) mb
    (q : nat -> qap_t F) (masks : nat -> seq (fft_mask F)) (r : nat -> rng F) ords :
  pss_new F true (2 ^ lam) = Ok pp -> domain_new F (2 ^ (b + lam)) = Some dom ->
  codec_ok cF mb -> (2 ^ b < 256 ^ 8)%N ->
  (forall i, (i < 3)%N -> fft_masks true pp true (ff_generator F) (d_gen_inv dom) (2 ^ (b + lam))
                            (fun p => nth (no_mask F) (masks p) i)) ->
  (forall p, (p < p_n pp)%N -> q_domain (q p) = dom) ->
  (forall p, (p < p_n pp)%N ->
    [/\ size (q_a (q p)) = (2 ^ b)%N, size (q_b (q p)) = (2 ^ b)%N & size (q_c (q p)) = (2 ^ b)%N]) ->
  (exists2 e, (e < 2 ^ b)%N &
    [\/ imbalance (T := Fm F) pp (entry (T := Fm F) (fun p => q_a (q p)) e) != 0,
        imbalance (T := Fm F) pp (entry (T := Fm F) (fun p => q_b (q p)) e) != 0 |
        imbalance (T := Fm F) pp (entry (T := Fm F) (fun p => q_c (q p)) e) != 0]) ->
  (forall i, hash_ok (ords i)) ->
  king_panics_first (mkseq (fun p =>
    libsnark_h true pp (p_n pp) p ords cF (q p) (masks p) r) (p_n pp)).
Proof.
move=> new Edom cok m_small Hm Hq sq nbal Ho; have g0 : ff_generator F != 0 by apply: ff_generator_neq0.
apply: dying_panics; [exact: n_gt0 new| |by move=> p; apply: separate_libsnark].
unshelve eapply (join_dying new Edom cok m_small sq nbal Hm Ho); last first.
by move=> p lp; rewrite /libsnark_h Hq // /get_coset (negbTE g0).
Qed.

(** C79: the prover in debug builds, with any vectors as shares of the key, of the QAP and of the
    witness: if an entry of the QAP shares or one of the four vectors of inner products that the
    parties send is not balanced, no party ever gets a share of a proof, and the king can always be
    brought to panic.  With r = 0 the second product is not computed. *)
Lemma c79_prover_caught (F : fftField) (T1 T2 : lmodType F) lam b (pp : pss F) dom d2
    (cF : codec F) (c1 : codec T1) (c2 : codec T2) mb mb1 mb2 (q : nat -> qap_t F)
    (crs : nat -> key_share T1 T2) (a ax : nat -> seq F)
    (fm : nat -> seq (fft_mask F)) (gen : F) dm (g1 : T1) g1m (g2 : T2) g2m
    (r s : nat -> F) (rs : nat -> rng F) ords m mx :
  pss_new F true (2 ^ lam) = Ok pp -> domain_new F (2 ^ (b + lam)) = Some dom ->
  domain_new F (2 * 2 ^ (b + lam)) = Some d2 ->
  codec_ok cF mb -> codec_ok c1 mb1 -> codec_ok c2 mb2 -> (2 ^ b < 256 ^ 8)%N ->
  (forall i, (i < 3)%N -> fft_masks true pp true (d_gen d2) (d_gen_inv dom) (2 ^ (b + lam))
                            (fun p => nth (no_mask F) (fm p) i)) ->
  (forall i, (3 <= i < 6)%N -> fft_masks true pp false 1 (d_gen dom) (2 ^ (b + lam))
                            (fun p => nth (no_mask F) (fm p) i)) ->
  degred_masks true pp (gen : Fm F) (2 ^ b) dm ->
  (forall i, (i < 4)%N -> msm_masks true pp g1 (fun p => nth (msm_mask_zero T1) (g1m p) i)) ->
  msm_masks true pp g2 g2m ->
  (forall p, (p < p_n pp)%N -> q_domain (q p) = dom) ->
  (forall p, (p < p_n pp)%N ->
    [/\ size (q_a (q p)) = (2 ^ b)%N, size (q_b (q p)) = (2 ^ b)%N & size (q_c (q p)) = (2 ^ b)%N]) ->
  (forall p, (p < p_n pp)%N ->
    [/\ size (k_s (crs p)) = m, size (k_h (crs p)) = m, size (k_v (crs p)) = m & size (a p) = m]) ->
  (forall p, (p < p_n pp)%N -> size (k_w (crs p)) = mx /\ size (ax p) = mx) ->
  (forall p, (p < p_n pp)%N -> r p = 0) \/ (forall p, (p < p_n pp)%N -> r p != 0) ->
  [\/ exists2 e, (e < 2 ^ b)%N &
      [\/ imbalance (T := Fm F) pp (entry (T := Fm F) (fun p => q_a (q p)) e) != 0,
          imbalance (T := Fm F) pp (entry (T := Fm F) (fun p => q_b (q p)) e) != 0 |
          imbalance (T := Fm F) pp (entry (T := Fm F) (fun p => q_c (q p)) e) != 0],
      imbalance pp (products (fun p => k_s (crs p)) a m) != 0,
      r 0%N != 0 /\ imbalance pp (products (fun p => k_h (crs p)) a m) != 0 |
      imbalance pp (products (fun p => k_v (crs p)) a m) != 0 \/
      imbalance pp (products (fun p => k_w (crs p)) ax mx) != 0] ->
  (forall i, hash_ok (ords i)) ->
  king_panics_first (mkseq (fun p =>
    dsha256 true pp (p_n pp) p cF c1 c2 (crs p) (q p) (a p) (ax p) (r p) (s p) (fm p) (dm p)
            (g1m p) (g2m p) ords rs) (p_n pp)).
Proof.
move=> new Edom Ed2 cok cok1 cok2 m_small M1 M2 M3 M4 M5 Hq sq sk skx Hz nbal Ho.
have ok := pss_new_ok new; have n0 := n_gt0 new.
apply: dying_panics => //; last by move=> p; apply: separate_dsha256.
have [nq|bq] : (exists2 e, (e < 2 ^ b)%N &
      [\/ imbalance (T := Fm F) pp (entry (T := Fm F) (fun p => q_a (q p)) e) != 0,
          imbalance (T := Fm F) pp (entry (T := Fm F) (fun p => q_b (q p)) e) != 0 |
          imbalance (T := Fm F) pp (entry (T := Fm F) (fun p => q_c (q p)) e) != 0]) \/
    forall e, (e < 2 ^ b)%N ->
      [/\ imbalance (T := Fm F) pp (entry (T := Fm F) (fun p => q_a (q p)) e) = 0,
          imbalance (T := Fm F) pp (entry (T := Fm F) (fun p => q_b (q p)) e) = 0 &
          imbalance (T := Fm F) pp (entry (T := Fm F) (fun p => q_c (q p)) e) = 0].
  case: (boolP (has (fun e => [|| imbalance (T := Fm F) pp (entry (T := Fm F) (fun p => q_a (q p)) e) != 0,
          imbalance (T := Fm F) pp (entry (T := Fm F) (fun p => q_b (q p)) e) != 0 |
          imbalance (T := Fm F) pp (entry (T := Fm F) (fun p => q_c (q p)) e) != 0]) (iota 0 (2 ^ b)))).
    by case/hasP=> e; rewrite mem_iota => /= le /or3P H; left; exists e.
  move/hasPn=> H; right=> e le; have := H e; rewrite mem_iota le => /(_ isT).
  by rewrite !negb_or !negbK => /and3P[/eqP-> /eqP-> /eqP->].
  by apply: dying_bind; exact: (circom_dying _ new Edom cok m_small sq nq _ Ed2 M1 Hq Ho).
have [va Ga] := guessed_exists new m_small (fun p => q_a (q p)).
have [vb Gb] := guessed_exists new m_small (fun p => q_b (q p)).
have [vc Gc] := guessed_exists new m_small (fun p => q_c (q p)).
have [_ [_ [_ [h [_ _ _ _ Ph]]]]] :=
  circom_any rs new Edom cok m_small Hq sq (fun=> bq) Ga Gb Gc Ed2 M1 M2 M3.
apply: (dying_after (Ph _ Ho)).
have sS p : (p < p_n pp)%N -> size (k_s (crs p)) = m by case/sk.
have sH p : (p < p_n pp)%N -> size (k_h (crs p)) = m by case/sk.
have sV p : (p < p_n pp)%N -> size (k_v (crs p)) = m by case/sk.
have sa p : (p < p_n pp)%N -> size (a p) = m by case/sk.
have sW p : (p < p_n pp)%N -> size (k_w (crs p)) = mx by case/skx.
have sx p : (p < p_n pp)%N -> size (ax p) = mx by case/skx.
have K0 := msm_masks_ok new (M4 0%N isT); have K1 := msm_masks_ok new (M4 1%N isT).
have K2 := msm_masks_ok new (M4 2%N isT); have K3 := msm_masks_ok new M5.
apply: (msm_step ok
  (fun p x => k_a_query0 (crs p) + r p *: k_delta_g1 (crs p) + x + k_alpha_g1 (crs p)) cok1 K0 sS sa (Ho 7%N)) => bA vA.
have dB : (r 0%N != 0 -> imbalance pp (products (fun p => k_h (crs p)) a m) = 0) ->
    forall v, dying (p_n pp) (fun p => 
      pbind (pthread 0 (compute_B2 true pp (p_n pp) p c2 (k_b_g2_query0 (crs p)) (k_delta_g2 (crs p))
                 (k_beta_g2 (crs p)) (k_v (crs p)) (a p) (s p) (ords 9%N) (g2m p))) (fun pb2 =>
      pbind (compute_C true pp (p_n pp) p c1 (vA p) (v p) (k_delta_g1 (crs p)) (s p) (r p) (k_w (crs p))
                 (k_u (crs p)) (ax p) (h p) (fun i => ords (10 + i)%N)
                 [:: nth (msm_mask_zero T1) (g1m p) 2; nth (msm_mask_zero T1) (g1m p) 3]) (fun pc =>
      PRet (Ok (vA p, pb2, pc))))).
  move=> bB1 v; apply: (msm_step ok
    (fun p x => k_b_g2_query0 (crs p) + s p *: k_delta_g2 (crs p) + x + k_beta_g2 (crs p)) cok2 K3 sV sa (Ho 9%N)) => bB vB.
  have nW : imbalance pp (products (fun p => k_w (crs p)) ax mx) != 0.
    case: nbal => [[e /bq[-> -> ->] [] /eqP[]//]||[/bB1->]|[]//]; rewrite ?bA ?bB ?eqxx //.
  apply: dying_bind; apply: dying_bind.
  apply: (@DY_here _ _ _ _ [:: 0; 1]%N (fun p i => if i is 0%N
     then d_msm true pp (p_n pp) p (ords 10%N) c1 (k_w (crs p)) (ax p) (nth (msm_mask_zero T1) (g1m p) 2)
     else d_msm true pp (p_n pp) p (ords 11%N) c1 (k_u (crs p)) (h p) (nth (msm_mask_zero T1) (g1m p) 3))
     (fun p rs => PRet (Ok rs)) 0%N) => //.
  exact: (d_msm_dies_at ok cok1 K2 sW sx (Ho 10%N) nW).
case: Hz => Hz.
  apply: (dying_after (v := fun=> 0)).
    by apply: pthread_party; apply: KP_ret => p lp; rewrite /compute_B1 Hz // eqxx.
  by apply: dB; rewrite Hz // eqxx.
apply: dying_eq (msm_step ok (fun p x => k_b_g1_query0 (crs p) + s p *: k_delta_g1 (crs p) + x + k_beta_g1 (crs p))
  cok1 K1 sH sa (Ho 8%N) (fun bB1 => dB (fun=> bB1))) => p lp.
by rewrite /compute_B1 (negbTE (Hz p lp)).
Qed.

(** C79: any other vectors of a single party are unbalanced, whatever the degree of the sharings below
    n: with the theorems above, one wrong share of the QAP stops every protocol of a debug build. *)
Lemma c79_one_party_unbalanced (F : fftField) lam b (pp : pss F) deg (q : nat -> qap_t F) sa sb sc u
    (qu : qap_t F) :
  pss_new F true (2 ^ lam) = Ok pp -> (deg <= (p_n pp).-1)%N -> (u < p_n pp)%N ->
  vsharing (T := Fm F) pp deg (2 ^ b) (fun p => q_a (q p)) sa ->
  vsharing (T := Fm F) pp deg (2 ^ b) (fun p => q_b (q p)) sb ->
  vsharing (T := Fm F) pp deg (2 ^ b) (fun p => q_c (q p)) sc ->
  size (q_a qu) = (2 ^ b)%N -> size (q_b qu) = (2 ^ b)%N -> size (q_c qu) = (2 ^ b)%N ->
  [|| q_a qu != q_a (q u), q_b qu != q_b (q u) | q_c qu != q_c (q u)] ->
  let q' p := if p == u then qu else q p in
  exists2 e, (e < 2 ^ b)%N &
    [\/ imbalance (T := Fm F) pp (entry (T := Fm F) (fun p => q_a (q' p)) e) != 0,
        imbalance (T := Fm F) pp (entry (T := Fm F) (fun p => q_b (q' p)) e) != 0 |
        imbalance (T := Fm F) pp (entry (T := Fm F) (fun p => q_c (q' p)) e) != 0].
Proof.
move=> new Hdeg lu Ha Hb Hc za zb zc ne q'; have ok := pss_new_ok new.
have E (f : qap_t F -> seq F) e : imbalance (T := Fm F) pp (entry (T := Fm F) (fun p => f (q' p)) e) =
    imbalance (T := Fm F) pp (entry (T := Fm F) (replaced (fun p => f (q p)) u (f qu)) e).
  by apply: (eq_imbalance (T := Fm F)) => p _; rewrite /entry /q' /replaced; case: eqP.
case/or3P: ne => ne.
- have [e le H] := unbalanced_replaced (T := Fm F) ok Hdeg Ha lu za ne.
  by exists e => //; apply: Or31; rewrite (E (@q_a F)).
- have [e le H] := unbalanced_replaced (T := Fm F) ok Hdeg Hb lu zb ne.
  by exists e => //; apply: Or32; rewrite (E (@q_b F)).
have [e le H] := unbalanced_replaced (T := Fm F) ok Hdeg Hc lu zc ne.
by exists e => //; apply: Or33; rewrite (E (@q_c F)).
Qed.
