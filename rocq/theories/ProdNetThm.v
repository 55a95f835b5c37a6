(** mpc-net/src/prod.rs: theorems on the protocols over the production network. *)
From mathcomp Require Import all_ssreflect all_algebra.
From mathcomp Require Import zify.
From Verif Require Import Base ModelField ModelPss ModelFft ModelNet ModelWire ModelProto ModelSetup ModelProdNet ModelQap ModelProve.
From Verif Require Import Spec SpecNet SpecWire SpecProto SpecProdNet.
From Verif Require Import NetProofs JoinProofs KingProofs KingFail SetupProofs ProdNetProofs.
Set Implicit Arguments.
Unset Strict Implicit.
Unset Printing Implicit Defensive.

(** ** the programs of the protocols are star shaped *)
Lemma collects_bind A B n (m : cproc A) (f : A -> cproc B) :
  collects n m -> (forall a, collects n (f a)) -> collects n (cbind m f).
Proof.
move=> Hm Hf; elim: m Hm => [[v|e|]|to b k IH|from k IH|st k IH|] //=.
- by move=> H b; apply: IH.
- by case=> sz H; split=> // s ss; apply: IH; apply: H.
Qed.

Lemma talks_bind A B (m : cproc A) (f : A -> cproc B) :
  talks_to_king m -> (forall a, talks_to_king (f a)) -> talks_to_king (cbind m f).
Proof.
move=> Hm Hf; elim: m Hm => [[v|e|]|to b k IH|from k IH|st k IH|] //=.
- by case=> -> H; split=> //; apply: IH.
- by case=> -> H; split=> // b; apply: IH.
Qed.

Lemma collects_king_send n outs m ids : collects n (king_send outs m ids).
Proof.
by elim: ids => //= id ids IH; case: (vget outs id) => //= b; case: ifP.
Qed.

Lemma collects_csokr T (c : codec T) n ord x thr : collects n (csokr_ser c n 0 ord x thr).
Proof.
apply: collects_bind => [|[[bs|rs]|]] //=.
- rewrite /client_send_or_king_receive /=; split=> [|s ss]; first by rewrite size_nseq.
  by case: ifP.
- by case: (mapM _ bs).
- by case: ifP.
Qed.

Lemma collects_answer n x : collects n (client_receive_or_king_send n 0 x).
Proof.
case: x => [outs|] //; rewrite /client_receive_or_king_send eqxx.
by apply: collects_bind => // b0; apply: collects_bind => //; apply: collects_king_send.
Qed.

Lemma collects_crokss T (c : codec T) n x : collects n (crokss_ser c n 0 x).
Proof. by apply: collects_bind => [|b]; [apply: collects_answer|]. Qed.

Lemma talks_csokr T (c : codec T) n me ord x thr : me != 0 -> talks_to_king (csokr_ser c n me ord x thr).
Proof.
move=> m0; apply: talks_bind => [|[[bs|rs]|]] //=.
- by rewrite /client_send_or_king_receive (negPf m0).
- by case: (mapM _ bs).
- by case: ifP.
Qed.

Lemma talks_crokss T (c : codec T) n me x : me != 0 -> talks_to_king (crokss_ser c n me x).
Proof.
move=> m0; apply: talks_bind => //; rewrite /client_receive_or_king_send.
by case: x => [outs|] /=; rewrite ?m0 ?(negPf m0).
Qed.

Ltac star := repeat (first [ exact: collects_csokr | exact: collects_crokss | exact: talks_csokr
  | exact: talks_crokss | by [] | (apply: collects_bind => [|?]) | (apply: talks_bind => [|?]) ]).

Lemma collects_deg_red (F : fftField) (T : lmodType F) dbg pp n ord (c : codec T) x m r :
  collects n (deg_red dbg pp n 0 ord c x m r).
Proof. by rewrite /deg_red; star. Qed.
Lemma talks_deg_red (F : fftField) (T : lmodType F) dbg pp n me ord (c : codec T) x m r : me != 0 ->
  talks_to_king (deg_red dbg pp n me ord c x m r).
Proof. by move=> m0; rewrite /deg_red; star. Qed.
Lemma collects_d_msm (F : fftField) (T : lmodType F) dbg pp n ord (c : codec T) b s m :
  collects n (d_msm dbg pp n 0 ord c b s m).
Proof. by rewrite /d_msm; star. Qed.
Lemma talks_d_msm (F : fftField) (T : lmodType F) dbg pp n me ord (c : codec T) b s m : me != 0 ->
  talks_to_king (d_msm dbg pp n me ord c b s m).
Proof. by move=> m0; rewrite /d_msm; star. Qed.
Lemma collects_d_fft (F : fftField) dbg (pp : pss F) n ord c x m re dom r :
  collects n (d_fft dbg pp n 0 ord c x m re dom r).
Proof. by rewrite /d_fft /fft2_with_rearrange; star. Qed.
Lemma talks_d_fft (F : fftField) dbg (pp : pss F) n me ord c x m re dom r : me != 0 ->
  talks_to_king (d_fft dbg pp n me ord c x m re dom r).
Proof. by move=> m0; rewrite /d_fft /fft2_with_rearrange; star. Qed.
Lemma collects_d_ifft (F : fftField) dbg (pp : pss F) n ord c x m re dom g r :
  collects n (d_ifft dbg pp n 0 ord c x m re dom g r).
Proof. by rewrite /d_ifft /fft2_with_rearrange; star. Qed.
Lemma talks_d_ifft (F : fftField) dbg (pp : pss F) n me ord c x m re dom g r : me != 0 ->
  talks_to_king (d_ifft dbg pp n me ord c x m re dom g r).
Proof. by move=> m0; rewrite /d_ifft /fft2_with_rearrange; star. Qed.
Lemma collects_d_pp (F : fftField) dbg (pp : pss F) n ord ord' c x y m r r' :
  collects n (d_pp dbg pp n 0 ord ord' c x y m r r').
Proof. by rewrite /d_pp /d_pp_with; star; apply: collects_deg_red. Qed.
Lemma talks_d_pp (F : fftField) dbg (pp : pss F) n me ord ord' c x y m r r' : me != 0 ->
  talks_to_king (d_pp dbg pp n me ord ord' c x y m r r').
Proof. by move=> m0; rewrite /d_pp /d_pp_with; star; apply: talks_deg_red. Qed.

(** ** parties *)
Lemma all_threads_bind A B (Q : forall C, cproc C -> Prop) (x : pproc A) (f : A -> pproc B) :
  all_threads Q x -> (forall a, all_threads Q (f a)) -> all_threads Q (pbind x f).
Proof.
by move=> Hx Hf; elim: x Hx => [[v|e|]|C ts k IH|] //= [Ht Hk]; split=> // rs; apply: IH.
Qed.

Lemma all_threads_pthread A (Q : forall C, cproc C -> Prop) sid (t : cproc A) :
  Q A t -> all_threads Q (pthread sid t).
Proof. by move=> Ht; split=> // -[|j]. Qed.

Lemma all_threads_join3 A (Q : forall C, cproc C -> Prop) (t0 t1 t2 : cproc A) :
  Q A t0 -> Q A t1 -> Q A t2 -> all_threads Q (try_join3 t0 t1 t2).
Proof. by move=> H0 H1 H2; split=> // -[|[|[|j]]]. Qed.

Lemma all_threads_sub A (Q Q' : forall C, cproc C -> Prop) (x : pproc A) :
  (forall C t, Q C t -> Q' C t) -> all_threads Q x -> all_threads Q' x.
Proof.
by move=> S; elim: x => //= B ts k IH [Ht Hk]; split=> [j lj|rs]; [apply: S; apply: Ht|apply: IH].
Qed.

Definition fits (n me : nat) B (t : cproc B) : Prop := ok n me t.

Section Fits.
Variables (F : fftField) (dbg : bool) (pp : pss F) (n me : nat).

Lemma fits_deg_red (T : lmodType F) ord (c : codec T) x m r : fits n me (deg_red dbg pp n me ord c x m r).
Proof.
by rewrite /fits /ok; case: (altP (me =P 0)) => [->|m0]; [apply: collects_deg_red|apply: talks_deg_red].
Qed.
Lemma fits_d_msm (T : lmodType F) ord (c : codec T) b s m : fits n me (d_msm dbg pp n me ord c b s m).
Proof.
by rewrite /fits /ok; case: (altP (me =P 0)) => [->|m0]; [apply: collects_d_msm|apply: talks_d_msm].
Qed.
Lemma fits_d_fft ord c x m re dom r : fits n me (d_fft dbg pp n me ord c x m re dom r).
Proof.
by rewrite /fits /ok; case: (altP (me =P 0)) => [->|m0]; [apply: collects_d_fft|apply: talks_d_fft].
Qed.
Lemma fits_d_ifft ord c x m re dom g r : fits n me (d_ifft dbg pp n me ord c x m re dom g r).
Proof.
by rewrite /fits /ok; case: (altP (me =P 0)) => [->|m0]; [apply: collects_d_ifft|apply: talks_d_ifft].
Qed.
Lemma fits_d_pp ord ord' c x y m r r' : fits n me (d_pp dbg pp n me ord ord' c x y m r r').
Proof.
by rewrite /fits /ok; case: (altP (me =P 0)) => [->|m0]; [apply: collects_d_pp|apply: talks_d_pp].
Qed.
Lemma fits_bind A B (m : cproc A) (f : A -> cproc B) :
  fits n me m -> (forall a, fits n me (f a)) -> fits n me (cbind m f).
Proof.
by rewrite /fits /ok; case: ifP => _; [apply: collects_bind|apply: talks_bind].
Qed.
Lemma fits_ret A (r : res A) : fits n me (CRet r).
Proof. by rewrite /fits /ok; case: ifP. Qed.

Lemma fits_circom_h ord cF q masks dmask r :
  all_threads (fits n me) (circom_h dbg pp n me ord cF q masks dmask r).
Proof.
rewrite /circom_h; apply: all_threads_bind => // g.
apply: all_threads_bind => [|[[a b] c]]; first by apply: all_threads_join3; apply: fits_d_ifft.
apply: all_threads_bind => [|[[a' b'] c']]; first by apply: all_threads_join3; apply: fits_d_fft.
by apply: all_threads_pthread; apply: fits_deg_red.
Qed.

Lemma fits_libsnark_h ord cF q masks r :
  all_threads (fits n me) (libsnark_h dbg pp n me ord cF q masks r).
Proof.
rewrite /libsnark_h; apply: all_threads_bind => // dom.
apply: all_threads_bind => [|[[a b] c]]; first by apply: all_threads_join3; apply: fits_d_ifft.
apply: all_threads_bind => [|[[a' b'] c']]; first by apply: all_threads_join3; apply: fits_d_fft.
by apply: all_threads_bind => // z; apply: all_threads_pthread; apply: fits_d_ifft.
Qed.

Lemma fits_dsha256 (T1 T2 : lmodType F) cF (c1 : codec T1) (c2 : codec T2) crs q a ax r s fm dm g1m g2m
    ord rs :
  all_threads (fits n me) (dsha256 dbg pp n me cF c1 c2 crs q a ax r s fm dm g1m g2m ord rs).
Proof.
rewrite /dsha256; apply: all_threads_bind => [|h]; first exact: fits_circom_h.
apply: all_threads_bind => [|pa].
  by apply: all_threads_pthread; apply: fits_bind => [|x]; [apply: fits_d_msm|apply: fits_ret].
apply: all_threads_bind => [|pb1].
  apply: all_threads_pthread; rewrite /compute_B1; case: ifP => _; first exact: fits_ret.
  by apply: fits_bind => [|x]; [apply: fits_d_msm|apply: fits_ret].
apply: all_threads_bind => [|pb2].
  by apply: all_threads_pthread; apply: fits_bind => [|x]; [apply: fits_d_msm|apply: fits_ret].
apply: all_threads_bind => [|pc] //; apply: all_threads_bind => [|[|w [|u [|? ?]]]] //.
by split=> // -[|[|j]] //= _; apply: fits_d_msm.
Qed.

End Fits.

Lemma fits_star A n (P : nat -> pproc A) : (forall me, all_threads (fits n me) (P me)) -> star_shaped n P.
Proof.
move=> H; split; first exact: (H 0).
move=> id /andP[id0 _]; apply: (all_threads_sub _ (H id)) => C t.
by rewrite /fits /ok; have -> : (id == 0) = false by lia.
Qed.

(** a party that crashes *)
Lemma collects_crash B n m (t : cproc B) : collects n t -> collects n (ccrash m t).
Proof.
elim: t m => [r|to b k IH|from k IH|st k IH|] [|m] //=; first exact: IH.
- by move=> H b; apply: IH.
- by case=> sz H; split=> // s ss; apply: IH; apply: H.
Qed.
Lemma talks_crash B m (t : cproc B) : talks_to_king t -> talks_to_king (ccrash m t).
Proof.
elim: t m => [r|to b k IH|from k IH|st k IH|] [|m] //=.
- by case=> -> H; split=> //; apply: IH.
- by case=> -> H; split=> // b; apply: IH.
Qed.
Lemma all_threads_crash A (Q : forall C, cproc C -> Prop) f ms (x : pproc A) :
  (forall C m t, Q C t -> Q C (ccrash m t)) -> all_threads Q x -> all_threads Q (pcrash f ms x).
Proof.
move=> Hc; elim: x f => [r|B ts k IH|] [|f] //= [Ht Hk]; split=> //; last by move=> rs; apply: IH.
move=> j; rewrite size_map size_iota => lj; rewrite (nth_map 0) ?size_iota // nth_iota //=.
by apply: Hc; apply: Ht.
Qed.
Lemma star_crash A n d f ms (P : nat -> pproc A) : star_shaped n P ->
  star_shaped n (fun p => if p == d then pcrash f ms (P p) else P p).
Proof.
case=> H0 H1; split=> [|id lid]; case: eqP => // _; last by apply: H1.
  by apply: all_threads_crash => // *; apply: collects_crash.
by apply: all_threads_crash; [move=> *; apply: talks_crash|apply: H1].
Qed.

(** ** a king with an id missing in its table *)
Fixpoint hopeless B (i : nat) (t : cproc B) : Prop :=
  match t with
  | CRet (Ok _) => False
  | CSend to _ k => to = i \/ hopeless i k
  | CRecv _ k => forall b, hopeless i (k b)
  | CGather _ k => forall s, hopeless i (k s)
  | _ => True
  end.

Lemma hopeless_bind A B i (m : cproc A) (f : A -> cproc B) :
  (forall a, hopeless i (f a)) -> hopeless i (cbind m f).
Proof.
by move=> Hf; elim: m => [[v|e|]|to b k IH|from k IH|st k IH|] //=; right.
Qed.
Lemma hopeless_bindl A B i (m : cproc A) (f : A -> cproc B) :
  hopeless i m -> hopeless i (cbind m f).
Proof.
elim: m => [[v|e|]|to b k IH|from k IH|st k IH|] //=.
- by case=> [->|/IH]; [left|right].
- by move=> H b; apply: IH.
- by move=> H b; apply: IH.
Qed.

Lemma hopeless_king_send i outs m ids : i \in ids -> hopeless i (king_send outs m ids).
Proof.
elim: ids => //= id ids IH; rewrite inE => H; case: (vget outs id) => //= b; case: ifP => //= _.
by case/orP: H => [/eqP ->|/IH]; [left|right].
Qed.

Lemma hopeless_crokss T (c : codec T) n i x : 0 < i < n -> hopeless i (crokss_ser c n 0 x).
Proof.
move=> li; apply: hopeless_bindl; case: (omap _ x) => [outs|] //.
rewrite /client_receive_or_king_send eqxx; apply: hopeless_bind => b0; apply: hopeless_bindl; apply: hopeless_king_send.
by rewrite mem_filter mem_iota; lia.
Qed.

(** a party with such a thread *)
Definition phopeless A (i : nat) (x : pproc A) : Prop :=
  match x with
  | PRet (Ok _) => False
  | PJoin B ts _ => exists2 j, j < size ts & hopeless i (nth (0, CHalt) ts j).2
  | _ => True
  end.

Lemma phopeless_bindl A B i (x : pproc A) (f : A -> pproc B) : phopeless i x -> phopeless i (pbind x f).
Proof. by case: x => [[v|e|]|C ts k|]. Qed.

Lemma phopeless_pthread A i sid (t : cproc A) : hopeless i t -> phopeless i (pthread sid t).
Proof. by exists 0. Qed.

Section Missing.
Variables (n i : nat) (peers : seq (nat * nat)).
Hypothesis Hi : forall c, (i, c) \notin peers.

Lemma addr_missing : addr n peers i = n.
Proof.
rewrite /addr (_ : [seq e <- peers | _] = [::]) //; apply/eqP.
rewrite -(negbK (_ == _)) -has_filter; apply/hasPn => -[j c] He /=.
by apply/eqP=> Ej; have := Hi c; rewrite -Ej He.
Qed.

Fixpoint doomed B (t : cproc B) : Prop :=
  match t with
  | CRet (Ok _) => False
  | CSend to _ k => n <= to \/ doomed k
  | CRecv _ k => forall b, doomed (k b)
  | CGather _ k => forall s, doomed (k s)
  | _ => True
  end.

Lemma doomed_over B (t : cproc B) : hopeless i t -> doomed (over n peers t).
Proof.
elim: t => [r|to b k IH|from k IH|st k IH|] //=.
- by case=> [->|/IH]; [left; rewrite addr_missing|right].
- by move=> H b; apply: IH.
- by move=> H s; apply: IH.
Qed.

Lemma tstep_doomed B q rd gone a (t t' : cproc B) o : doomed t -> tstep n q rd gone a t = Some (t', o) ->
  doomed t'.
Proof.
case: t => [r|to b k|from k|st k|] //=; case: a => [|id| | |] //=.
- case=> [le|H]; first by rewrite ltnNge le /= => -[<- _].
  by case: ifP => _ [<- _].
- by move=> _ [<- _].
- move=> H; case: ifP => _; last by case=> <- _.
  by case: (rd _) => // b _ [<- _].
- by move=> _ [<- _].
- by move=> H; case: ifP => // _; case: (rd _) => // b _ [<- _].
- by move=> H; case: ifP => // _ [<- _].
- by move=> H [<- _].
Qed.

(** the same for a party: one hopeless thread is enough *)
Definition pdoomed A (x : pproc A) : Prop :=
  match x with
  | PRet (Ok _) => False
  | PJoin B ts _ => exists2 j, j < size ts & doomed (nth (0, CHalt) ts j).2
  | _ => True
  end.

Lemma pdoomed_over A (x : pproc A) : phopeless i x -> pdoomed (pover n peers x).
Proof.
case: x => [r|B ts k|] //= [j lj Hj]; exists j; rewrite ?size_map // (nth_map (0, CHalt)) //.
exact: doomed_over.
Qed.

Lemma pstep_doomed A q rd gone la (x x' : pproc A) o : pdoomed x ->
  pstep n q rd gone la x = Some (x', o) -> pdoomed x'.
Proof.
case: x => [r|B ts k|] //= [j lj Hj]; case: la => [j' a| |j'].
- case: ifP => // lj'; case N: (nth _ ts j') => [sid t].
  case E: (tstep _ _ _ _ _ _) => [[t' o']|] // [<- _] /=; exists j.
    by rewrite size_set_nth; lia.
  rewrite nth_set_nth /=; case: eqP => // Ej; subst j'.
  by rewrite N in Hj; apply: tstep_doomed Hj E.
- case Er: (results ts) => [rs|] // _.
  by have [v Ev] := results_nth Er lj; rewrite Ev in Hj.
by case: (nth _ ts j') => _ [[v|e|]|? ? ?|? ?|? ?|] // [<- _].
Qed.

(** in no network and no schedule the party gets a value *)
Lemma doomed_reach A (c1 c : cfg A) s v : size (procs c1) = n ->
  pdoomed (nth PHalt (procs c1) 0) -> run s c1 = Some c -> nth PHalt (procs c) 0 <> PRet (Ok v).
Proof.
elim: s c1 => [|a s IH] c1 sc H; first by case=> <- E; rewrite E in H.
have Er : run (a :: s) c1 = if step a c1 is Some e then run s e else None by [].
rewrite Er; case E: (step a c1) => [c3|] // R; apply: (IH c3) R; first by rewrite (step_size E).
move: E; rewrite /step; case: a {Er} => q la; case E: (pstep _ _ _ _ _ _) => [[x o]|] // [<-] /=.
rewrite nth_set_nth /=; case: (altP (0 =P q)) => [Eq|nq]; last by [].
by subst q; rewrite sc in E; apply: pstep_doomed H E.
Qed.

End Missing.

(** ** the whole program *)
Lemma main_start A k (ids : nat -> nat) ord (P : nat -> pproc A) : hash_ok ord -> k < 256 ^ 4 ->
  perm_eq [seq ids c | c <- iota 1 k] (iota 1 k) ->
  exists2 peers, perm_eq peers [seq (ids c, c) | c <- iota 1 k] &
  exists c : cfg A, [/\ reach (init (mkseq (prod_main k ids ord P) k.+1)) c, size (procs c) = k.+1,
    forall q, q < k.+1 ->
      nth PHalt (procs c) q = pover k.+1 (tbl peers q) (P (tau k.+1 ids q)) &
    forall sid f t, f < k.+1 -> t < k.+1 -> queue c sid f t = [::]].
Proof.
move=> ordP k_small Hids.
have rng c : 0 < c <= k -> 0 < ids c <= k.
  move=> lc; have : ids c \in iota 1 k.
    by rewrite -(perm_mem Hids); apply: map_f; rewrite mem_iota; lia.
  by rewrite mem_iota; lia.
have small c : 0 < c <= k -> ids c < 256 ^ 4 by move=> /rng; move: k_small; generalize (256 ^ 4); lia.
have al c : 0 < c <= k -> last_declared k ids c.
  move=> cI; rewrite /last_declared cI; apply/allP => j; rewrite mem_iota => jI.
  by apply/eqP => E; have := @ids_inj k.+1 [seq (ids c, c) | c <- iota 1 k] ids (ltn0Sn k) Hids (perm_refl _) j c _ _ E; lia.
have [T' [Q' [R T0 Tp _ HQ]]] := prod_setup_run small ordP.
exists (declared k ids).
  rewrite /declared perm_rev (_ : [seq c <- _ | _] = iota 1 k) //.
  by apply/all_filterP/allP => c; rewrite mem_iota add1n ltnS; apply: al.
set n := k.+1; set ps := mkseq _ _.
have sps : size ps = n by rewrite size_mkseq.
pose go p (peers : seq (nat * nat)) := pover n peers (P (if p == 0 then 0 else ids p)).
pose kk p (rs : seq (seq (nat * nat))) : pproc A :=
  pbind (PRet (if rs is [:: r] then Ok r else Panic)) (go p).
have Hp p : p < n -> predT p -> nth PHalt (procs (init ps)) p =
    PJoin (phase [:: 0] ((fun p _ => prod_setup k ids ord p) p)) (kk p).
  by move=> pn _; rewrite /= nth_mkseq.
have [||d1 [[Rd1 sd1] Hd1 _ Hq1 Hq1']] := chreach_lift (isT : uniq [:: 0]) (isT : 0 < size [:: 0]) R
    (c := init ps) sps Hp (fun p _ _ => erefl).
- by move=> p _ /negP[].
- by move=> f t _ _; rewrite /queue nth_nil.
rewrite /= in Hq1 Hq1'.
pose val p : seq (nat * nat) := if p == 0 then declared k ids else peer_table.
have Hd p : p < n -> predT p -> nth PHalt (procs d1) p = PJoin (phase [:: 0] (fun _ => T' p)) (kk p).
  by move=> pn lp; rewrite Hd1 //= /phase /mkseq /= /updT eqxx.
have [|d [[Rd sd] Hl _ Eq]] := join_run (rs := fun p => [:: val p]) sd1 Hd.
  move=> p pn _; rewrite (@results_phase _ _ _ (fun _ => val p)) // => j _; rewrite /val.
  case: (posnP p) => [->//|p0]; have pI : 0 < p <= k by lia.
  by rewrite Tp ?al // (negPf (lt0n_neq0 p0)).
exists d; split=> //.
- exact: reach_trans Rd1 Rd.
- by move=> q lq; rewrite Hl // /kk /= /go /val /tbl /tau lq andbT; case: (posnP q) => [->|].
move=> sid f t lf lt; rewrite /queue Eq sd -sd1 -/(queue d1 sid f t).
case: (altP (sid =P 0)) => [->|s0]; first by rewrite Hq1.
by rewrite Hq1' // /queue nth_nil.
Qed.

(** ** no value for the king *)
Section NoValue.
Variables (n i : nat).
Hypothesis li : 0 < i < n.

Lemma hopeless_deg_red (F : fftField) (T : lmodType F) dbg (pp : pss F) ord (c : codec T) x m r :
  hopeless i (deg_red dbg pp n 0 ord c x m r).
Proof.
by do 4 apply: hopeless_bind => ?; apply: hopeless_bindl; apply: hopeless_crokss.
Qed.

Lemma hopeless_d_msm (F : fftField) (T : lmodType F) dbg (pp : pss F) ord (c : codec T) b s m :
  hopeless i (d_msm dbg pp n 0 ord c b s m).
Proof.
by do 4 apply: hopeless_bind => ?; apply: hopeless_bindl; apply: hopeless_crokss.
Qed.

Lemma hopeless_fft2 (F : fftField) dbg (pp : pss F) ord c px m re g w r :
  hopeless i (fft2_with_rearrange dbg pp n 0 ord c px m re g w r).
Proof.
by do 2 apply: hopeless_bind => ?; apply: hopeless_bindl; apply: hopeless_crokss.
Qed.

Lemma hopeless_d_fft (F : fftField) dbg (pp : pss F) ord c x m re dom r :
  hopeless i (d_fft dbg pp n 0 ord c x m re dom r).
Proof. by do 2 apply: hopeless_bind => ?; apply: hopeless_fft2. Qed.

Lemma hopeless_d_ifft (F : fftField) dbg (pp : pss F) ord c x m re dom g r :
  hopeless i (d_ifft dbg pp n 0 ord c x m re dom g r).
Proof. by do 2 apply: hopeless_bind => ?; apply: hopeless_fft2. Qed.

Lemma hopeless_d_pp (F : fftField) dbg (pp : pss F) ord ord' c x y m r r' :
  hopeless i (d_pp dbg pp n 0 ord ord' c x y m r r').
Proof.
rewrite /d_pp /d_pp_with; do 4 apply: hopeless_bind => ?; apply: hopeless_deg_red.
Qed.

Lemma phopeless_circom (F : fftField) dbg (pp : pss F) ord c q m dm r :
  phopeless i (circom_h dbg pp n 0 ord c q m dm r).
Proof.
rewrite /circom_h; case: (double_root _) => [w|e|] //.
by exists 0 => //; apply: hopeless_d_ifft.
Qed.

Lemma phopeless_libsnark (F : fftField) dbg (pp : pss F) ord c q m r :
  phopeless i (libsnark_h dbg pp n 0 ord c q m r).
Proof.
rewrite /libsnark_h; case: (unwrap _) => [w|e|] //.
by exists 0 => //; apply: hopeless_d_ifft.
Qed.

Lemma phopeless_dsha256 (F : fftField) dbg (pp : pss F) (T1 T2 : lmodType F) c (c1 : codec T1)
    (c2 : codec T2) crs q a ax r s fm dm g1m g2m ord rs :
  phopeless i (dsha256 dbg pp n 0 c c1 c2 crs q a ax r s fm dm g1m g2m ord rs).
Proof. apply: phopeless_bindl; exact: phopeless_circom. Qed.

Lemma missing_run A peers (x : pproc A) (net : seq (pproc A)) s d v :
  (forall node, (i, node) \notin peers) -> phopeless i x -> size net = n ->
  nth PHalt net 0 = pover n peers x ->
  run s (init net) = Some d -> nth PHalt (procs d) 0 <> PRet (Ok v).
Proof.
move=> Hi Ht sn E0 R; apply: (@doomed_reach n A (init net) d s v) => //.
by rewrite [procs _]/= E0; apply: pdoomed_over.
Qed.

End NoValue.

(** the king after the set-up, whatever the ids *)
Lemma king_start A k (ids : nat -> nat) ord (P : nat -> pproc A) : hash_ok ord ->
  (forall c, 0 < c <= k -> ids c < 256 ^ 4) ->
  exists c : cfg A, [/\ reach (init (mkseq (prod_main k ids ord P) k.+1)) c, size (procs c) = k.+1 &
    nth PHalt (procs c) 0 = pover k.+1 (declared k ids) (P 0)].
Proof.
move=> ordP small; have [T' [Q' [R T0 _ _ _]]] := prod_setup_run small ordP.
set n := k.+1; set ps := mkseq _ _.
have sps : size ps = n by rewrite size_mkseq.
pose go p (peers : seq (nat * nat)) := pover n peers (P (if p == 0 then 0 else ids p)).
pose kk p (rs : seq (seq (nat * nat))) : pproc A :=
  pbind (PRet (if rs is [:: r] then Ok r else Panic)) (go p).
have Hp p : p < n -> predT p -> nth PHalt (procs (init ps)) p =
    PJoin (phase [:: 0] ((fun p _ => prod_setup k ids ord p) p)) (kk p).
  by move=> pn _; rewrite /= nth_mkseq.
have [||d1 [[Rd1 sd1] Hd1 _ _ _]] := chreach_lift (isT : uniq [:: 0]) (isT : 0 < size [:: 0]) R
    (c := init ps) sps Hp (fun p _ _ => erefl).
- by move=> p _ /negP[].
- by move=> f t _ _; rewrite /queue nth_nil.
have Hd p : p < n -> pred1 0 p -> nth PHalt (procs d1) p = PJoin (phase [:: 0] (fun _ => T' p)) (kk p).
  by move=> pn lp; rewrite Hd1 //= /phase /mkseq /= /updT eqxx.
have [|d [[Rd sd] Hl _ _]] := join_run (rs := fun p => [:: declared k ids]) sd1 Hd.
  by move=> p pn /eqP->; rewrite (@results_phase _ _ _ (fun _ => declared k ids)) // => j _; rewrite T0.
by exists d; split=> //; [exact: reach_trans Rd1 Rd|rewrite Hl].
Qed.

Lemma collision_run A k (ids : nat -> nat) ord (P : nat -> pproc A) i s d v :
  hash_ok ord -> (forall c, 0 < c <= k -> ids c < 256 ^ 4) ->
  (forall c, 0 < c <= k -> ids c != i) -> (forall p, separate (P p)) -> phopeless i (P 0) ->
  all clean s -> run s (init (mkseq (prod_main k ids ord P) k.+1)) = Some d ->
  nth PHalt (procs d) 0 <> PRet (Ok v).
Proof.
move=> ordP small miss Sep Ht cs Rs Ed.
have [c [[s0 cs0 R0] sc Ec]] := king_start P ordP small.
have Hi node : (i, node) \notin declared k ids.
  rewrite /declared mem_rev; apply/mapP => -[c']; rewrite mem_filter mem_iota => /andP[_ lc] [E _].
  by have := miss c'; rewrite -E eqxx => H; have : false by apply: H; lia.
have S : separate_cfg (init (mkseq (prod_main k ids ord P) k.+1)).
  move=> p; case: (ltnP p k.+1) => lp; last by rewrite /= nth_default // size_mkseq.
  by rewrite /= nth_mkseq //=; split=> // -[|r [|? ?]] //=; apply: separate_pover.
have [s1 [s2 [e [_ _ R1 R2]]]] := run_join S cs0 cs R0 Rs.
have Hc : pdoomed k.+1 (nth PHalt (procs c) 0) by rewrite Ec; apply: (pdoomed_over k.+1 Hi Ht).
exact: (@doomed_reach _ _ c e s1 v sc Hc R1 (run_returned R2 Ed)).
Qed.

(*** theorems ***)

(** C80: the king knows the nodes by the ids they have declared, 1 to k in any order, and uses the
    table of its set-up.  If a star shaped program gives the parties their values when the nodes are
    the ids (as all theorems about protocols have it), then set-up and program together give every
    node the value of its id, whatever the order of events. *)
Lemma c80_same_results A k (ids : nat -> nat) ord (P : nat -> pproc A) (live : pred nat) vals :
  hash_ok ord -> k < 256 ^ 4 -> perm_eq [seq ids c | c <- iota 1 k] (iota 1 k) ->
  star_shaped k.+1 P -> (forall p, separate (P p)) ->
  every_schedule (mkseq P k.+1) live vals ->
  let id c := if c == 0 then 0 else ids c in
  every_schedule (mkseq (prod_main k ids ord P) k.+1) (fun c => live (id c)) (fun c => vals (id c)).
Proof.
move=> ordP k_small Hids HP Sep [N [d [Hv Fd S]]] id.
have [peers Hpeers [c1 [R1 s1 H1 Q1]]] := main_start P ordP k_small Hids.
have Hids' : perm_eq [seq ids c | c <- iota 1 k.+1.-1] (iota 1 k.+1.-1) by [].
have Hpeers' : perm_eq peers [seq (ids c, c) | c <- iota 1 k.+1.-1] by [].
have [[s [cs Rs _]] _] := S [::] (init (mkseq P k.+1)) isT erefl.
have Sm : same k.+1 peers ids (init (mkseq P k.+1)) c1.
  have [sc _ Hp Hok _] := same_init (ltn0Sn k) Hids' Hpeers' HP.
  split=> // [q lq|sid f t lf lt]; last by rewrite Q1 // /queue nth_nil.
  by rewrite H1 // /= nth_mkseq // (tau_lt (ltn0Sn k) Hids' Hpeers').
have [s' [d' [Es Rs' Sd]]] := run_over (ltn0Sn k) Hids' Hpeers' Sm Rs.
have Eid q : q < k.+1 -> tau k.+1 ids q = id q.
  by move=> lq; rewrite /tau /id lq andbT; case: (posnP q) => [->|].
apply: (confluent_every (d := d')).
- move=> p; case: (ltnP p k.+1) => lp; last by rewrite nth_default // size_mkseq.
  by rewrite nth_mkseq //=; split=> // -[|r [|? ?]] //=; apply: separate_pover.
- apply: reach_trans R1 _; exists s' => //.
  by rewrite -Es all_map (eq_all (a2 := clean)) // in cs => a; apply: clean_taction.
- move=> a ca; have := step_over (ltn0Sn k) Hids' Hpeers' a Sd.
  by rewrite Fd ?clean_taction //; case: (step a d').
move=> p; rewrite size_mkseq => lp Lp; have [_ _ Hp _ _] := Sd.
by rewrite Hp // Eid // Hv // size_mkseq -Eid // (tau_lt (ltn0Sn k) Hids' Hpeers').
Qed.

(** C80: in particular the protocols that all other theorems are about, also if one party crashes
    at any point after the set-up. *)
Lemma c80_yields A k (ids : nat -> nat) ord nobody (prog : (nat -> hash_order) -> nat -> cproc A) out :
  hash_ok ord -> k < 256 ^ 4 -> perm_eq [seq ids c | c <- iota 1 k] (iota 1 k) ->
  (forall ords sid, star_shaped k.+1 (fun p => pthread sid (prog ords p))) ->
  yields k.+1 nobody prog out ->
  forall ords sid d f ms, (forall i, hash_ok (ords i)) -> d != 0 -> (nobody -> k.+1 <= d) ->
    let P p := if p == d then pcrash f ms (pthread sid (prog ords p)) else pthread sid (prog ords p) in
    let id c := if c == 0 then 0 else ids c in
    every_schedule (mkseq (prod_main k ids ord P) k.+1) (fun c => id c != d) (fun c => out (id c)).
Proof.
move=> ordP k_small Hids St Y ords sid d f ms Ho d0 Hd P id.
apply: (@c80_same_results A k ids ord P (fun p => p != d) out) => //.
- exact: star_crash.
- by move=> p; rewrite /P; case: ifP => _; [apply: separate_crash|].
exact: Y.
Qed.

(** C80: the protocols are star shaped. *)
Lemma c80_star_protocols (F : fftField) dbg (pp : pss F) n sid :
  [/\ forall (T : lmodType F) ord (c : codec T) x m r,
        star_shaped n (fun p => pthread sid (deg_red dbg pp n p ord c (x p) (m p) r)),
      forall (T : lmodType F) ord (c : codec T) b s m,
        star_shaped n (fun p => pthread sid (d_msm dbg pp n p ord c (b p) (s p) (m p))),
      forall ord c x m re dom r,
        star_shaped n (fun p => pthread sid (d_fft dbg pp n p ord c (x p) (m p) re dom r)),
      forall ord c x m re dom g r,
        star_shaped n (fun p => pthread sid (d_ifft dbg pp n p ord c (x p) (m p) re dom g r)) &
      forall ord ord' c x y m r r',
        star_shaped n (fun p => pthread sid (d_pp dbg pp n p ord ord' c (x p) (y p) (m p) r r'))].
Proof.
split=> *; apply: fits_star => me; apply: all_threads_pthread.
- exact: fits_deg_red.
- exact: fits_d_msm.
- exact: fits_d_fft.
- exact: fits_d_ifft.
- exact: fits_d_pp.
Qed.

(** C80: and so are the witness extensions and the prover. *)
Lemma c80_star_prover (F : fftField) dbg (pp : pss F) n :
  [/\ forall ord c q m dm r, star_shaped n (fun p => circom_h dbg pp n p ord c (q p) (m p) (dm p) r),
      forall ord c q m r, star_shaped n (fun p => libsnark_h dbg pp n p ord c (q p) (m p) r) &
      forall (T1 T2 : lmodType F) c (c1 : codec T1) (c2 : codec T2) crs q a ax r s fm dm g1m g2m ord rs,
        star_shaped n (fun p => dsha256 dbg pp n p c c1 c2 (crs p) (q p) (a p) (ax p) (r p) (s p)
                                  (fm p) (dm p) (g1m p) (g2m p) ord rs)].
Proof.
split=> *; apply: fits_star => me; [exact: fits_circom_h|exact: fits_libsnark_h|exact: fits_dsha256].
Qed.

(** C80: executions of the two networks correspond step by step: the same number of steps, of the
    same kind, the same results, the same messages under way. *)
Lemma c80_executions A n (peers : seq (nat * nat)) (ids : nat -> nat) (P : nat -> pproc A) : 0 < n ->
  perm_eq [seq ids c | c <- iota 1 n.-1] (iota 1 n.-1) ->
  perm_eq peers [seq (ids c, c) | c <- iota 1 n.-1] -> star_shaped n P ->
  let id c := if c == 0 then 0 else ids c in
  let alike (s s' : seq action) (d d' : cfg A) :=
    [/\ size s = size s', all clean s = all clean s',
        forall q r, q < n -> nth PHalt (procs d') q = PRet r <-> nth PHalt (procs d) (id q) = PRet r &
        forall sid f t, f < n -> t < n -> queue d' sid f t = queue d sid (id f) (id t)] in
  (forall s d, run s (init (mkseq P n)) = Some d ->
     exists s' d', run s' (init (prod_net n peers ids P)) = Some d' /\ alike s s' d d') /\
  (forall s' d', run s' (init (prod_net n peers ids P)) = Some d' ->
     exists s d, run s (init (mkseq P n)) = Some d /\ alike s s' d d').
Proof.
move=> n0 Hids Hpeers HP id alike; have Sm := same_init n0 Hids Hpeers HP.
have Eid q : q < n -> tau n ids q = id q.
  by move=> lq; rewrite /tau /id lq andbT; case: (posnP q) => [->|].
have fin s s' d d' : [seq taction n ids a | a <- s'] = s -> same n peers ids d d' -> alike s s' d d'.
  move=> Es [_ _ Hp _ Hq]; split; first by rewrite -Es size_map.
  - by rewrite -Es all_map; apply: eq_all => a; apply: clean_taction.
  - move=> q r lq; rewrite Hp // Eid //; case: (nth PHalt (procs d) (id q)) => [r'|B ts k|] //=.
  - by move=> sid f t lf lt; rewrite Hq // !Eid.
split=> [s d R|s' d' R].
  by have [s' [d' [Es R' Sd]]] := run_over n0 Hids Hpeers Sm R; exists s', d'; split=> //; apply: fin.
by have [d R' Sd] := run_over' n0 Hids Hpeers Sm R; exists [seq taction n ids a | a <- s'], d; split=> //; apply: fin.
Qed.

(** C80: if an id between 1 and n - 1 is missing in the king's table (somebody has declared another
    one, or the same as somebody else: then the set-up succeeds, C48), the king never obtains a
    value from a protocol, whatever the others do and in whatever order things happen. *)
Lemma c80_missing (F : fftField) dbg (pp : pss F) n peers i sid : 0 < i < n ->
  (forall node, (i, node) \notin peers) ->
  let no_value A (t : cproc A) := forall net : seq (pproc A), size net = n ->
    nth PHalt net 0 = pover n peers (pthread sid t) -> forall s d v,
    run s (init net) = Some d -> nth PHalt (procs d) 0 <> PRet (Ok v) in
  [/\ forall (T : lmodType F) ord (c : codec T) x m r,
        no_value (seq T) (deg_red dbg pp n 0 ord c x m r),
      forall (T : lmodType F) ord (c : codec T) b s m, no_value T (d_msm dbg pp n 0 ord c b s m),
      forall ord c x m re dom r, no_value (seq F) (d_fft dbg pp n 0 ord c x m re dom r),
      forall ord c x m re dom g r, no_value (seq F) (d_ifft dbg pp n 0 ord c x m re dom g r) &
      forall ord ord' c x y m r r', no_value (seq F) (d_pp dbg pp n 0 ord ord' c x y m r r')].
Proof.
move=> li Hi no_value.
have go A (t : cproc A) : hopeless i t -> no_value A t.
  by move=> Ht net sn E0 s d v R; apply: (missing_run Hi (phopeless_pthread sid Ht) sn E0 R).
split=> *; apply: go.
- exact: hopeless_deg_red.
- exact: hopeless_d_msm.
- exact: hopeless_d_fft.
- exact: hopeless_d_ifft.
- exact: hopeless_d_pp.
Qed.

(** C80: neither from the witness extensions and the prover. *)
Lemma c80_missing_prover (F : fftField) dbg (pp : pss F) n peers i : 0 < i < n ->
  (forall node, (i, node) \notin peers) ->
  let no_value A (x : pproc A) := forall net : seq (pproc A), size net = n ->
    nth PHalt net 0 = pover n peers x -> forall s d v,
    run s (init net) = Some d -> nth PHalt (procs d) 0 <> PRet (Ok v) in
  [/\ forall ord c q m dm r, no_value (seq F) (circom_h dbg pp n 0 ord c q m dm r),
      forall ord c q m r, no_value (seq F) (libsnark_h dbg pp n 0 ord c q m r) &
      forall (T1 T2 : lmodType F) c (c1 : codec T1) (c2 : codec T2) crs q a ax r s fm dm g1m g2m ord rs,
        no_value (T1 * T2 * T1)%type
          (dsha256 dbg pp n 0 c c1 c2 crs q a ax r s fm dm g1m g2m ord rs)].
Proof.
move=> li Hi no_value.
have go A (x : pproc A) : phopeless i x -> no_value A x.
  by move=> Ht net sn E0 s d v R; apply: (missing_run Hi Ht sn E0 R).
split=> *; apply: go; [exact: phopeless_circom|exact: phopeless_libsnark|exact: phopeless_dsha256].
Qed.

(** C80: set-up and protocol together: the program knows the ids 1 to k; if nobody declares i and the
    declared ids are otherwise arbitrary (also equal), no execution ends with a value of the king. *)
Lemma c80_collision (F : fftField) dbg (pp : pss F) k (ids : nat -> nat) ord i sid : hash_ok ord ->
  (forall c, 0 < c <= k -> ids c < 256 ^ 4) -> 0 < i <= k -> (forall c, 0 < c <= k -> ids c != i) ->
  let no_value A (x : pproc A) := forall P : nat -> pproc A, (forall p, separate (P p)) ->
    P 0 = x -> forall s d v, all clean s ->
    run s (init (mkseq (prod_main k ids ord P) k.+1)) = Some d ->
    nth PHalt (procs d) 0 <> PRet (Ok v) in
  [/\ forall (T : lmodType F) ord (c : codec T) x m r,
        no_value (seq T) (pthread sid (deg_red dbg pp k.+1 0 ord c x m r)),
      forall (T : lmodType F) ord (c : codec T) b s m,
        no_value T (pthread sid (d_msm dbg pp k.+1 0 ord c b s m)),
      (forall ord c x m re dom r,
         no_value (seq F) (pthread sid (d_fft dbg pp k.+1 0 ord c x m re dom r))) /\
      (forall ord c x m re dom g r,
         no_value (seq F) (pthread sid (d_ifft dbg pp k.+1 0 ord c x m re dom g r))),
      forall ord ord' c x y m r r',
        no_value (seq F) (pthread sid (d_pp dbg pp k.+1 0 ord ord' c x y m r r')) &
      forall (T1 T2 : lmodType F) c (c1 : codec T1) (c2 : codec T2) crs q a ax r s fm dm g1m g2m ord rs,
        no_value (T1 * T2 * T1)%type
          (dsha256 dbg pp k.+1 0 c c1 c2 crs q a ax r s fm dm g1m g2m ord rs)].
Proof.
move=> ordP small li miss no_value; have li' : 0 < i < k.+1 by lia.
have go A (x : pproc A) : phopeless i x -> no_value A x.
  by move=> Ht P Sep E0 s d v cs R; rewrite -E0 in Ht; apply: (collision_run ordP small miss Sep Ht cs R).
split=> [*|*|*|*|*]; last by apply: go; apply: phopeless_dsha256.
- by apply: go; apply: phopeless_pthread; apply: hopeless_deg_red.
- by apply: go; apply: phopeless_pthread; apply: hopeless_d_msm.
- by split=> *; apply: go; apply: phopeless_pthread; [apply: hopeless_d_fft|apply: hopeless_d_ifft].
- by apply: go; apply: phopeless_pthread; apply: hopeless_d_pp.
Qed.
