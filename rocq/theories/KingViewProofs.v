(** The messages the king collects in protocols of one round, and masks that follow a change of the input. *)
From mathcomp Require Import all_ssreflect all_algebra.
From mathcomp Require Import zify.
From Verif Require Import RingTac Base ModelField ModelUtils ModelPss ModelPack ModelFft ModelNet.
From Verif Require Import ModelProto ModelQap ModelProve ModelMain.
From Verif Require Import Spec SpecNet SpecView SpecKing SpecProto SpecGroth SpecVerify.
From Verif Require Import NetProofs KingProofs RoundProofs LogProofs NetThm PartyProofs.
From Verif Require Import FieldProofs UtilsProofs PssProofs PackProofs FftProofs ProtoProofs DegProofs.
From Verif Require Import PssThm ProtoThm MaskProofs QapProofs ProveProofs ViewProofs ViewThm.
Set Implicit Arguments.
Unset Strict Implicit.
Unset Printing Implicit Defensive.
Import GRing.Theory.
Local Open Scope ring_scope.
Local Notation Fm F := [lmodType F of F^o].

Lemma clogk_sends B outs ids (k : cproc B) log : clogk (sends outs ids k) log = sends outs ids (clogk k log).
Proof. by elim: ids => //= i ids ->. Qed.

(** what party [p] has received *)
Definition round_log n (msgs : nat -> bytes) (logs : nat -> seq bytes) (p : nat) : seq (option bytes) :=
  if p == 0%N then store_without n msgs n else [seq Some x | x <- logs p].

Lemma one_round_view B n (dok : pred nat) (P : nat -> cproc B) vals logs msgs : (1 < n)%N -> dok n ->
  king_log n dok P vals logs -> (forall p, (0 < p < n)%N -> sends_only (P p) (msgs p)) ->
  king_prog n (fun d => (d != 0%N) && (n <= d)%N) (fun p => clogk (P p) [::]) (fun p => (vals p, round_log n msgs logs p)).
Proof.
move=> n1 dn H S; have n0 : (0 < n)%N by apply: ltnW.
have S1 := S 1%N n1; case: H S S1 => {P vals logs}.
- by move=> P vals logs HP _ _ [k [E _]]; move: E; rewrite HP.
- move=> P vals logs ms K P' P0 Pp HK H S _.
  have Em p : (0 < p < n)%N -> ms p = msgs p /\ exists k, P' p = CRecv 0 k /\ forall y, exists r, k y = CRet r.
    by move=> pI; have [k [E R]] := S p pI; move: E; rewrite Pp // => -[-> ->]; split=> //; exists k.
  have Es : store_without n ms n = store_without n msgs n.
    apply: eq_mkseq_in => i lt_i; case: (posnP i) => [->//|i0] /=.
    by have [|-> _] := Em i; rewrite ?i0.
  have Em1 := (Em 1%N n1).2; case: H HK Em Em1 Pp => {vals logs}.
  + by move=> Q vals logs HQ _ _ _ [k [E _]]; move: E; rewrite HQ.
  + by move=> Q vals logs ms2 K2 Q' Q0 Qp _ _ _ _ [k [E _]]; move: E; rewrite Qp.
  move=> Q vals logs outs kc Q' logs' Q0 Qp Hkc Hl H HK Em _ Pp.
  have {H} R : (forall p, (p < n)%N -> Q' p = CRet (Ok (vals p))) /\ (forall p, (p < n)%N -> logs' p = [::]).
    have [_ [k [E /(_ (outs 1%N)) [r Er]]]] := Em 1%N n1.
    have := Hkc 1%N n1; move: E; rewrite Qp // => -[->]; rewrite Er => {Er} E1.
    case: H E1 => [W vals2 logs2 HQ Hl' //|W vals2 logs2 ms3 K3 W' W0 Wp WK WH|W vals2 logs2 o3 kc3 W' l3 W0 Wp WK Wl WH].
      by rewrite Wp.
    by rewrite Wp.
  have [HQ El'] := R.
  apply: (@KP_gather _ _ _ _ _ ms (fun st => clogk (K st) ([::] ++ st))
    (fun p => clogk (Q p) (if p == 0%N then store_without n ms n else [::]))).
  + by rewrite P0.
  + by move=> p pI; rewrite Pp //=; case: eqP pI => // ->.
  + move=> d /andP[_ le_d]; suff -> : store_without n ms d = store_without n ms n by rewrite HK.
    by apply: eq_mkseq_in => i lt_i; congr (if _ || _ then _ else _); lia.
  apply: (@KP_scatter _ _ _ _ _ outs (fun p b => clogk (kc p b) [:: Some b])
    (fun p => CRet (Ok (vals p, round_log n msgs logs p)))).
  + by rewrite Q0 /= clogk_sends HQ // /round_log /= Es.
  + by move=> p pI; rewrite Qp //; case: eqP pI => // ->.
  + move=> p pI; have [p0 lt_p] := andP pI; rewrite Hkc // HQ //= /round_log ifN; last by rewrite -lt0n.
    by rewrite Hl // ifN ?El' // -lt0n.
  exact: KP_ret.
by move=> P vals logs outs kc P' logs' P0 Pp _ _ _ _ [k [E _]]; move: E; rewrite Pp.
Qed.

Lemma yields_view A n (prog : hash_order -> nat -> cproc A) out logs msgs : (1 < n)%N ->
  (forall ord, hash_ok ord -> king_log n (fun d => d != 0%N) (prog ord) out logs) ->
  (forall ord p, (0 < p < n)%N -> sends_only (prog ord p) (msgs p)) ->
  yields n true (fun ords p => clogk (prog (ords 0%N) p) [::]) (fun p => (out p, round_log n msgs logs p)).
Proof.
move=> n1 H S; have n0 : (0 < n)%N by apply: ltnW.
apply: yields_prog => // ords Ho.
exact: (one_round_view n1 (lt0n_neq0 n0) (H _ (Ho 0%N)) (S _)).
Qed.

(** ** Dealings *)
Section Dealings.
Variable F : fftField.
Variable T : lmodType F.
Variables (dbg : bool) (pp : pss F) (lam : nat).
Hypothesis new : pss_new F dbg (2 ^ lam) = Ok pp.
Let ok := pss_new_ok new.
Local Notation l := (p_l pp).
Local Notation n := (p_n pp).
Local Notation t := (p_t pp).

(** every vector of sharings of degree below [2l] is a dealing *)
Lemma dealing_hit m f (sec : nat -> nat -> T) : vsharing pp (2 * l) m f sec ->
  exists r : rng T, forall p, (p < n)%N -> dealing pp dbg sec m r p = f p.
Proof.
move=> /vsharingP[H1 H2].
have [e lt_e|R HR] := choice_upto (fun=> 0) (m := m) (P := fun e (r : rng T) => forall dbg,
    pack dbg pp (mkseq (sec e) l) r = Ok (mkseq (fun p => (f p)`_e) n)).
  exact: (pack_hit ok (H2 e lt_e)).
have t0 : (0 < t)%N by rewrite (ppt ok) (pp_l_gt0 ok).
exists (fun i => R (i %/ t)%N (i %% t)%N) => p lt_p.
apply: (@eq_from_nth _ 0); rewrite size_mkseq ?H1 // => e lt_e; rewrite nth_mkseq //.
have -> : pack dbg pp (mkseq (sec e) l) (rskip (e * t) (fun i => R (i %/ t)%N (i %% t)%N)) =
   pack dbg pp (mkseq (sec e) l) (R e).
  rewrite /pack; congr pack_pts; apply: eq_mkseq_in => j lt_j.
  by rewrite /rskip divnMDl // modnMDl (divn_small lt_j) addn0 (modn_small lt_j).
by rewrite HR //= nth_mkseq.
Qed.

Lemma pack_add (s s' : seq T) (r r' : rng T) p : size s = l -> size s' = l -> (p < n)%N ->
  (get_ok [::] (pack dbg pp (zipmap +%R s s') (fun i => r i + r' i)))`_p =
  (get_ok [::] (pack dbg pp s r))`_p + (get_ok [::] (pack dbg pp s' r'))`_p.
Proof.
move=> ss ss' lt_p.
have szr (q : rng T) : size (mkseq q t) = l by rewrite size_mkseq (ppt ok).
have [sh [E sn _]] := pack_sharing ok dbg r ss; have [sh' [E' sn' _]] := pack_sharing ok dbg r' ss'.
have := pack_pts_add ok ss (szr r) ss' (szr r') E E'.
have -> : zipmap (fun x y => x + y) (mkseq r t) (mkseq r' t) = mkseq (fun i => r i + r' i) t.
  apply: (@eq_from_nth _ 0); rewrite size_zipmap !size_mkseq minnn // => i lt_i.
  by rewrite (nth_zipmap _ 0 0) ?size_mkseq // !nth_mkseq.
by rewrite -/(pack dbg pp _ (fun i => r i + r' i)) => ->; rewrite E E' /= (nth_zipmap _ 0 0) ?sn ?sn'.
Qed.

Lemma pack_ext (s s' : seq T) (r r' : rng T) : s = s' -> (forall i, (i < t)%N -> r i = r' i) ->
  pack dbg pp s r = pack dbg pp s' r'.
Proof. by move=> -> E; rewrite /pack; congr pack_pts; apply: eq_mkseq_in. Qed.

(** a change of the secrets and of the randomness that adds the sharings [f] *)
Lemma dealing_follow m f (d : nat -> nat -> T) : vsharing pp (2 * l) m f d ->
  exists delta : rng T, forall (sec sec' : nat -> nat -> T) r r',
    (forall e j, (e < m)%N -> (j < l)%N -> sec' e j = sec e j + d e j) ->
    (forall i, (i < m * t)%N -> r' i = r i + delta i) ->
    forall p, (p < n)%N -> dealing pp dbg sec' m r' p = zipmap +%R (dealing pp dbg sec m r p) (f p).
Proof.
move=> Hf; have [delta Hd] := dealing_hit Hf; exists delta => sec sec' r r' Es Er p lt_p.
rewrite -Hd //; apply: (@eq_from_nth _ 0); rewrite ?size_zipmap !size_mkseq ?minnn // => e lt_e.
rewrite (nth_zipmap _ 0 0) ?size_mkseq // !nth_mkseq //.
rewrite -pack_add ?size_mkseq //; congr (get_ok _ _)`_p; apply: pack_ext => [|i lt_i].
  apply: (@eq_from_nth _ 0); rewrite ?size_zipmap !size_mkseq ?minnn // => j lt_j.
  by rewrite (nth_zipmap _ 0 0) ?size_mkseq // !nth_mkseq // Es.
by rewrite /rskip Er //; nia.
Qed.

Lemma zipmap_zero (u v : seq T) : size u = size v -> (forall i, (i < size v)%N -> v`_i = 0) -> zipmap +%R u v = u.
Proof.
move=> E H; apply: (@eq_from_nth _ 0); rewrite size_zipmap E minnn ?E // => i lt_i.
by rewrite (nth_zipmap _ 0 0) ?E // H // addr0.
Qed.

Variable P : seq nat.
Hypothesis gn : ff_generator F ^+ p_n pp != 1.
Hypotheses (uP : uniq P) (ltP : all (fun q => q < p_n pp)%N P) (sP : (size P <= p_t pp)%N).

(** masks of the degree reduction that follow a change [f] of the shares, which the parties in [P] do
    not notice *)
Lemma follow_dmask (gen : T) m (c : nat -> nat -> F) f :
  vsharing pp (2 * l) m f (fun e j => c e j *: gen) ->
  (forall p i, p \in P -> (i < m)%N -> (f p)`_i = 0) ->
  exists (dv : rng F) (d_in d_out : rng T), forall values r_in r_out,
    let masks' := dmask pp dbg gen m (fun i => values i + dv i) (fun i => r_in i + d_in i) (fun i => r_out i + d_out i) in
    let masks := dmask pp dbg gen m values r_in r_out in
    [/\ forall p, (p < n)%N -> dr_in (masks' p) = zipmap +%R (dr_in (masks p)) (f p),
        forall p, p \in P -> masks' p = masks p &
        forall e j, (j < l)%N -> (values (e * l + j)%N + dv (e * l + j)%N) *: gen =
          values (e * l + j)%N *: gen + c e j *: gen].
Proof.
move=> Hf Hz; have l0 := pp_l_gt0 ok; pose dv i := c (i %/ l)%N (i %% l)%N.
have Edv e j : (j < l)%N -> dv (e * l + j)%N = c e j.
  by move=> lt_j; rewrite /dv divnMDl // modnMDl divn_small // modn_small // addn0.
have [di Hi] := dealing_follow Hf.
have [do_ Ho] := dealing_translate new gn uP ltP (fun e j => - (c e j *: gen)) m sP.
exists dv, di, do_ => values r_in r_out masks' masks.
have Ei p : (p < n)%N -> dr_in (masks' p) = zipmap +%R (dr_in (masks p)) (f p).
  by move=> lt_p; apply: Hi => // e j _ lt_j; rewrite Edv // scalerDl.
split=> // [p p_P|e j lt_j]; last by rewrite Edv // scalerDl.
have lt_p := allP ltP _ p_P; have sf : size (f p) = m by case: Hf => H _; apply: H.
rewrite -[LHS]/(DegRedMask (dr_in (masks' p)) (dr_out (masks' p))) Ei //.
rewrite -[RHS]/(DegRedMask (dr_in (masks p)) (dr_out (masks p))); congr DegRedMask.
  by apply: zipmap_zero; rewrite ?size_mkseq sf // => i lt_i; apply: Hz.
by apply: Ho => // e j _ lt_j; rewrite Edv // scalerDl opprD.
Qed.

(** the same for the multi-scalar multiplication *)
Lemma follow_mmask (gen : T) (c : nat -> F) f : shared pp (2 * l) f (fun j => c j *: gen) ->
  (forall p, p \in P -> f p = 0) ->
  exists (dv : rng F) (dr : rng T), forall values r,
    let masks' := mmask pp dbg gen (fun i => values i + dv i) (fun i => r i + dr i) in
    let masks := mmask pp dbg gen values r in
    [/\ forall p, (p < n)%N -> mm_in (masks' p) = mm_in (masks p) + f p,
        forall p, p \in P -> masks' p = masks p &
        \sum_(j < l) (values j + dv j) *: gen = \sum_(j < l) values j *: gen + \sum_(j < l) c j *: gen].
Proof.
move=> Hf Hz; have [di Hi] := pack_hit ok Hf.
have Sdv (values : rng F) :
    \sum_(j < l) (values j + c j) *: gen = \sum_(j < l) values j *: gen + \sum_(j < l) c j *: gen.
  by under eq_bigr do rewrite scalerDl; rewrite big_split.
have [do_ Ho] := pack_shift new gn uP ltP (size_nseq l (- \sum_(j < l) c j *: gen)) sP.
exists c, (fun i => if (i < t)%N then di i else do_ (i - t)%N) => values r masks' masks.
have Ei p : (p < n)%N -> mm_in (masks' p) = mm_in (masks p) + f p.
  move=> lt_p; rewrite /masks' /masks /=.
  have <- : (get_ok [::] (pack dbg pp (mkseq (fun i => c i *: gen) l) di))`_p = f p by rewrite Hi /= nth_mkseq.
  rewrite -pack_add ?size_mkseq //; congr (get_ok _ _)`_p; apply: pack_ext => [|i lt_i]; last by rewrite lt_i.
  apply: (@eq_from_nth _ 0); rewrite ?size_zipmap !size_mkseq ?minnn // => j lt_j.
  by rewrite (nth_zipmap _ 0 0) ?size_mkseq // !nth_mkseq // scalerDl.
split=> // p p_P; have lt_p := allP ltP _ p_P.
rewrite -[LHS]/(MsmMask (mm_in (masks' p)) (mm_out (masks' p))) Ei // Hz // addr0.
rewrite -[RHS]/(MsmMask (mm_in (masks p)) (mm_out (masks p))); congr MsmMask.
apply: Ho => //; rewrite ?size_nseq // => i lt_i.
  by rewrite !nth_nseq lt_i Sdv opprD.
by rewrite /rskip ltnNge leq_addr /= addKn.
Qed.

End Dealings.

(** the same for the transforms *)
Section FollowFft.
Variable F : fftField.
Variables (dbg : bool) (lam b : nat) (pp : pss F).
Hypothesis new : pss_new F dbg (2 ^ lam) = Ok pp.
Variable P : seq nat.
Hypotheses (gn : ff_generator F ^+ p_n pp != 1) (uP : uniq P) (ltP : all (fun p => p < p_n pp)%N P).
Hypothesis sP : (size P <= p_t pp)%N.
  Local Notation m := (2 ^ b)%N.
  Local Notation n := (p_n pp).

Lemma follow_fmask rearrange g gen (s1 s1' : nat -> nat -> F) f :
  vsharing (T := Fm F) pp (2 * p_l pp) m f (fun e j => s1 e j - s1' e j) ->
  (forall p i, p \in P -> (i < m)%N -> (f p)`_i = 0) ->
  exists dv d_in d_out : rng F, forall values r_in r_out,
    let masks' := fmask dbg lam b pp rearrange g gen (fun i => values i + dv i) (fun i => r_in i + d_in i)
      (fun i => r_out i + d_out i) in
    let masks := fmask dbg lam b pp rearrange g gen values r_in r_out in
    [/\ forall p, (p < n)%N -> fm_in (masks' p) = zipmap +%R (fm_in (masks p)) (f p),
        forall p, p \in P -> masks' p = masks p &
        king_values pp lam b g gen s1' (fun i => values i + dv i) = king_values pp lam b g gen s1 values].
Proof.
move=> Hf Hz; have ok := pss_new_ok new; have El := pss_new_l new; have l0 := pp_l_gt0 ok.
pose dv i := s1 (i %/ p_l pp)%N (i %% p_l pp)%N - s1' (i %/ p_l pp)%N (i %% p_l pp)%N.
have Edv e j : (j < p_l pp)%N -> dv (e * p_l pp + j)%N = s1 e j - s1' e j.
  by move=> lt_j; rewrite /dv divnMDl // modnMDl divn_small // modn_small // addn0.
have [di Hi] := dealing_follow (T := Fm F) new Hf.
have [do_ Ho] := dealing_translate (T := Fm F) new gn uP ltP
  (slots (T := Fm F) pp rearrange b (b + lam) (out_values lam b g gen dv)) m sP.
exists dv, di, do_ => values r_in r_out masks' masks.
have Ei p : (p < n)%N -> fm_in (masks' p) = zipmap +%R (fm_in (masks p)) (f p).
  by move=> lt_p; apply: Hi => // e j _ lt_j; rewrite Edv.
split=> // [p p_P|].
  have lt_p := allP ltP _ p_P; have sf : size (f p) = m by case: Hf => H _; apply: H.
  rewrite -[LHS]/(FftMask (fm_in (masks' p)) (fm_out (masks' p))) Ei //.
  rewrite -[RHS]/(FftMask (fm_in (masks p)) (fm_out (masks p))); congr FftMask.
    by apply: (zipmap_zero (T := Fm F)); rewrite ?size_mkseq sf // => i lt_i; apply: Hz.
  apply: Ho => // e j lt_e lt_j; rewrite /out_values !(slots_mkseq El) //.
  by rewrite kfftD mulrDr opprD.
apply: eq_mkseq_in => q lt_q; congr (_ * _); apply: (eq_kfft El) => // i lt_i.
by rewrite -divn_eq /dv addrCA [X in _ + X]addrC subrK addrC.
Qed.

End FollowFft.
