(** What at most [t] parties see of the partial products. *)
From mathcomp Require Import all_ssreflect all_algebra.
From mathcomp Require Import zify.
From Verif Require Import RingTac Base ModelField ModelUtils ModelPss ModelPack ModelFft ModelNet.
From Verif Require Import ModelProto.
From Verif Require Import Spec SpecNet SpecView SpecProto.
From Verif Require Import NetProofs KingProofs RoundProofs LogProofs NetThm PartyProofs.
From Verif Require Import FieldProofs UtilsProofs PssProofs PackProofs FftProofs ProtoProofs DegProofs PpProofs.
From Verif Require Import PssThm ProtoThm MaskProofs HideThm ViewProofs ViewThm.
Set Implicit Arguments.
Unset Strict Implicit.
Unset Printing Implicit Defensive.
Import GRing.Theory.
Local Open Scope ring_scope.
Local Notation Fm F := [lmodType F of F^o].

Lemma king_log_dok B n (dok dok' : pred nat) (P : nat -> cproc B) vals logs :
  (forall d, dok' d -> dok d) -> king_log n dok P vals logs -> king_log n dok' P vals logs.
Proof.
move=> sub; elim=> {P vals logs}
  [P vals logs HP HL|P vals logs msgs K P' P0 Pp HK _ IH|P vals logs outs kc P' logs' P0 Pp Hkc HL _ IH].
- exact: KL_ret.
- by apply: (@KL_gather _ _ _ _ _ _ msgs K P') => // d /sub; apply: HK.
exact: (@KL_scatter _ _ _ _ _ _ outs kc P' logs').
Qed.

Section Pp.
Variable F : fftField.
Variables (pp : pss F) (ok : pp_ok pp) (cF : codec F) (mb : nat).
Hypothesis cF_ok : codec_ok cF mb.
  Local Notation l := (p_l pp).
  Local Notation n := (p_n pp).
Variables (dbg : bool) (m deg : nat) (num den : seq F) (xn xd : nat -> seq F).
Hypotheses (m_ok : (0 < m /\ 2 * m < 256 ^ 8)%N) (Hdeg : (deg <= 4 * l - 1)%N).
Hypotheses (sn : size num = (m * l)%N) (sd : size den = (m * l)%N).
Hypotheses (Hn : vsharing (T := Fm F) pp deg m xn (blocks (T := Fm F) pp num)).
Hypotheses (Hd : vsharing (T := Fm F) pp deg m xd (blocks (T := Fm F) pp den)).

(** the shares of the running products which the king deals, and the masked ones of the second round *)
Definition pp_first (r : rng F) := dealing (T := Fm F) pp dbg (blocks (T := Fm F) pp (running num den)) m r.
Definition pp_second (v : nat -> nat -> F) (r' : rng F) :=
  dealing (T := Fm F) pp dbg (fun e j => (blocks (T := Fm F) pp (running num den) e j : F^o) + v e j) m r'.

Lemma d_pp_log (masks : nat -> degred_mask (Fm F)) v (r r' : rng F) :
  all (fun z => z != 0) den ->
  vsharing (T := Fm F) pp (2 * l) m (fun p => dr_in (masks p)) v ->
  vsharing (T := Fm F) pp (2 * l) m (fun p => dr_out (masks p)) (fun e j => - (v e j : F^o)) ->
  forall ord ord', hash_ok ord -> hash_ok ord' ->
    king_log n (fun d => (d != 0%N) && (dbg ==> (n <= d)%N))
      (fun p => d_pp dbg pp n p ord ord' cF (xn p) (xd p) (masks p) r r')
      (fun p => zipmap (fun a b : F^o => a + b) (pp_second v r' p) (dr_out (masks p)))
      (fun p => king_msgs (fun p => enc (vec_codec cF) (pp_first r p)) p ++
                king_msgs (fun p => enc (vec_codec cF) (pp_second v r' p)) p).
Proof.
move=> nz Hin Hout ord ord' Ho Ho'; have l0 := pp_l_gt0 ok; have En := ppn ok; have [m0 ms] := m_ok.
have n1 := n_gt1 ok; have sr : size (running num den) = (m * l)%N by rewrite size_mkseq.
have Hdeal : vsharing (T := Fm F) pp (2 * l) m (pp_first r) (blocks (T := Fm F) pp (running num den)).
  exact: dealingP.
have Hd' : (2 * l <= 4 * l - 1)%N by lia.
have m_ok' : (0 < m < 256 ^ 8)%N by lia.
pose x p := [seq u * 1 | u <- xn p] ++ [seq u * 1 | u <- xd p].
have Hx : vsharing (T := Fm F) pp deg (m + m) x (blocks (T := Fm F) pp (num ++ den)).
  exact: numden_vsharing.
pose y p := [seq u * 1^-1 | u <- pp_first r p].
have Hy : vsharing (T := Fm F) pp (2 * l) m y (blocks (T := Fm F) pp (running num den)).
  apply: vsharing_ext (vsharing_scale 1^-1 Hdeal) => // e j lt_e lt_j; by rewrite invr1 mulr1.
have [_ Hp] := deg_red_answer (T := Fm F) ok cF_ok dbg r' m_ok' Hd' Hin Hout Hy.
have sx p : (p < n)%N -> size (x p) = (m + m)%N by case: Hx => H _ /H.
have sl p : size (pp_first r p) = m by rewrite size_mkseq.
have mms : (m + m < 256 ^ 8)%N by rewrite addnn -mul2n.
have K : king_log n (fun d => (d != 0%N) && (dbg ==> (n <= d)%N)) (fun p =>
    do! rs := csokr_ser (vec_codec cF) n p ord (x p) (p_t pp) in
    do! outs := clift (if rs is Some q then rmap Some (d_pp_king dbg pp r q) else Ok None) in
    do! w := crokss_ser (vec_codec cF) n p outs in
    deg_red dbg pp n p ord' (T := Fm F) cF [seq u * 1^-1 | u <- w] (masks p) r')
  (fun p => zipmap (fun a b : F^o => a + b) (pp_second v r' p) (dr_out (masks p)))
  (fun p => king_msgs (fun p => enc (vec_codec cF) (pp_first r p)) p ++
            king_msgs (fun p => enc (vec_codec cF) (pp_second v r' p)) p).
  apply: (@king_round_log _ _ _ _ _ _ _ _ _ _ (pp_first r)) => //.
  - by lia.
  - by move=> d /andP[].
  - by rewrite (ppt ok); lia.
  - by move=> i lt_i; apply: (vec_dec (T := Fm F) cF_ok mms); apply: sx.
  - by move=> i lt_i; apply: (vec_dec (T := Fm F) (m := m) cF_ok); [lia|apply: sl].
  - by move=> i lt_i; rewrite !(size_enc_vec cF_ok) !sl //; lia.
  - move=> d /andP[_ Hdbg]; rewrite (d_pp_kingE ok _ m_ok Hdeg sn sd Hn Hd r d Ho) nz.
    rewrite (pack_vecE (T := Fm F) ok dbg r m0 sr) (_ : dassert dbg _ = Ok tt) //.
    rewrite /dassert; case: dbg Hdbg => //= dn.
    by rewrite /who /received_from ltnNge dn /= size_iota eqxx.
  - by apply: king_log_dok (Hp ord' Ho') => d /andP[].
apply: king_log_ext K => //; first by lia.
by move=> p lt_p; rewrite /d_pp /d_pp_with oner_eq0.
Qed.

Lemma d_pp_views (masks : nat -> degred_mask (Fm F)) v (r r' : rng F) :
  all (fun z => z != 0) den ->
  vsharing (T := Fm F) pp (2 * l) m (fun p => dr_in (masks p)) v ->
  vsharing (T := Fm F) pp (2 * l) m (fun p => dr_out (masks p)) (fun e j => - (v e j : F^o)) ->
  yields n dbg (fun ords p => clog (d_pp dbg pp n p (ords 0%N) (ords 1%N) cF (xn p) (xd p) (masks p) r r') [::])
    (fun p => (zipmap (fun a b : F^o => a + b) (pp_second v r' p) (dr_out (masks p)),
      king_msgs (fun p => enc (vec_codec cF) (pp_first r p)) p ++
      king_msgs (fun p => enc (vec_codec cF) (pp_second v r' p)) p)).
Proof.
move=> nz Hin Hout; apply: yields_prog => [|ords Ho]; first by have := n_gt1 ok; lia.
exact: king_log_clog (fun=> [::]) (d_pp_log r r' nz Hin Hout (Ho 0%N) (Ho 1%N)).
Qed.

End Pp.

(*** theorems ***)

(** C66: with fresh randomness of the king in both rounds, the results and received messages of at
    most [t] parties are distributed alike for any two vectors of numerators and denominators (none
    of them zero). *)
Lemma c66_d_pp (F : fftField) dbg lam pp (cF : codec F) mb m gen gen' masks masks'
    (xn xd xn' xd' : nat -> seq F) (num den num' den' : seq F) deg (P : seq nat) :
  pss_new F dbg (2 ^ lam) = Ok pp -> codec_ok cF mb -> (0 < m)%N -> (2 * m < 256 ^ 8)%N ->
  (deg <= 4 * 2 ^ lam - 1)%N -> ff_generator F ^+ p_n pp != 1 ->
  uniq P -> all (fun p => p < p_n pp)%N P -> (size P <= p_t pp)%N ->
  degred_masks (T := Fm F) dbg pp gen m masks -> degred_masks (T := Fm F) dbg pp gen' m masks' ->
  (forall p, p \in P -> masks p = masks' p) ->
  size num = (m * 2 ^ lam)%N -> size den = (m * 2 ^ lam)%N -> all (fun z => z != 0) den ->
  size num' = (m * 2 ^ lam)%N -> size den' = (m * 2 ^ lam)%N -> all (fun z => z != 0) den' ->
  vsharing (T := Fm F) pp deg m xn (blocks (T := Fm F) pp num) ->
  vsharing (T := Fm F) pp deg m xd (blocks (T := Fm F) pp den) ->
  vsharing (T := Fm F) pp deg m xn' (blocks (T := Fm F) pp num') ->
  vsharing (T := Fm F) pp deg m xd' (blocks (T := Fm F) pp den') ->
  exists delta delta' : rng F, forall r r', exists out out', [/\
    yields (p_n pp) dbg (fun ords p => clog (d_pp dbg pp (p_n pp) p (ords 0%N) (ords 1%N) cF
      (xn p) (xd p) (masks p) r r') [::]) out,
    yields (p_n pp) dbg (fun ords p => clog (d_pp dbg pp (p_n pp) p (ords 0%N) (ords 1%N) cF
      (xn' p) (xd' p) (masks' p) (fun i => r i + delta i) (fun i => r' i + delta' i)) [::]) out' &
    forall p, p \in P -> out' p = out p].
Proof.
move=> new cok m0 m8 Hdeg gn uP ltP sP Hk Hk' Em sn sd nz sn' sd' nz' Hn Hd Hn' Hd'.
have ok := pss_new_ok new; have El := pss_new_l new; rewrite -El in Hdeg sn sd sn' sd'.
have [v [Hi Ho]] := degred_masks_ok new m0 Hk; have [v' [Hi' Ho']] := degred_masks_ok new m0 Hk'.
have [d1 H1] := dealing_shift (T := Fm F) new gn uP ltP (blocks (T := Fm F) pp (running num den))
  (blocks (T := Fm F) pp (running num' den')) m sP.
have [d2 H2] := dealing_shift (T := Fm F) new gn uP ltP
  (fun e j => (blocks (T := Fm F) pp (running num den) e j : F^o) + v e j)
  (fun e j => (blocks (T := Fm F) pp (running num' den') e j : F^o) + v' e j) m sP.
exists d1, d2 => r r'; do 2!eexists; split.
- exact: (d_pp_views ok cok (conj m0 m8) Hdeg sn sd Hn Hd r r' nz Hi Ho).
- exact: (d_pp_views ok cok (conj m0 m8) Hdeg sn' sd' Hn' Hd' _ _ nz' Hi' Ho').
move=> p p_P; cbv beta; rewrite /king_msgs /pp_first /pp_second (H1 r) // (H2 r') //.
by rewrite (Em p p_P).
Qed.

(** C66: the king's randomness of the first round is needed: if it is known, the messages of any [t]
    clients determine all running products, whatever the masks and the randomness of the second
    round. *)
Lemma c66_d_pp_known_randomness (F : fftField) dbg lam pp (cF : codec F) mb m gen gen' masks masks'
    (xn xd xn' xd' : nat -> seq F) (num den num' den' : seq F) deg (P : seq nat) (r s s' : rng F) :
  pss_new F dbg (2 ^ lam) = Ok pp -> codec_ok cF mb -> (0 < m)%N -> (2 * m < 256 ^ 8)%N ->
  (deg <= 4 * 2 ^ lam - 1)%N -> ff_generator F ^+ p_n pp != 1 ->
  uniq P -> all (fun p => 0 < p < p_n pp)%N P -> size P = p_t pp ->
  degred_masks (T := Fm F) dbg pp gen m masks -> degred_masks (T := Fm F) dbg pp gen' m masks' ->
  size num = (m * 2 ^ lam)%N -> size den = (m * 2 ^ lam)%N -> all (fun z => z != 0) den ->
  size num' = (m * 2 ^ lam)%N -> size den' = (m * 2 ^ lam)%N -> all (fun z => z != 0) den' ->
  vsharing (T := Fm F) pp deg m xn (blocks (T := Fm F) pp num) ->
  vsharing (T := Fm F) pp deg m xd (blocks (T := Fm F) pp den) ->
  vsharing (T := Fm F) pp deg m xn' (blocks (T := Fm F) pp num') ->
  vsharing (T := Fm F) pp deg m xd' (blocks (T := Fm F) pp den') ->
  exists out out', [/\
    yields (p_n pp) dbg (fun ords p => clog (d_pp dbg pp (p_n pp) p (ords 0%N) (ords 1%N) cF
      (xn p) (xd p) (masks p) r s) [::]) out,
    yields (p_n pp) dbg (fun ords p => clog (d_pp dbg pp (p_n pp) p (ords 0%N) (ords 1%N) cF
      (xn' p) (xd' p) (masks' p) r s') [::]) out' &
    (forall p, p \in P -> (out p).2 = (out' p).2) -> running_products num den = running_products num' den'].
Proof.
move=> new cok m0 m8 Hdeg gn uP ltP sP Hk Hk' sn sd nz sn' sd' nz' Hn Hd Hn' Hd'.
have ok := pss_new_ok new; have El := pss_new_l new; rewrite -El in Hdeg sn sd sn' sd'.
have [v [Hi Ho]] := degred_masks_ok new m0 Hk; have [v' [Hi' Ho']] := degred_masks_ok new m0 Hk'.
do 2!eexists; split.
- exact: (d_pp_views ok cok (conj m0 m8) Hdeg sn sd Hn Hd r s nz Hi Ho).
- exact: (d_pp_views ok cok (conj m0 m8) Hdeg sn' sd' Hn' Hd' r s' nz' Hi' Ho').
move=> H; have ltP' : all (fun p => p < p_n pp)%N P.
  by apply: sub_all ltP => p /andP[].
have B : forall e j, (e < m)%N -> (j < p_l pp)%N ->
    blocks (T := Fm F) pp (running num den) e j = blocks (T := Fm F) pp (running num' den') e j.
  apply: (dealing_known (T := Fm F) new gn uP ltP' sP (r := r)) => p p_P.
  have /andP[p0 _] := allP ltP _ p_P; have E := congr1 (head [::]) (H p p_P).
  rewrite [LHS]/= [RHS]/= /king_msgs eqn0Ngt p0 in E.
  by apply: (enc_vec_inj (T := Fm F) (m := m) cok _ _ _ E); rewrite ?size_mkseq //; lia.
have l0 := pp_l_gt0 ok.
have E : running num den = running num' den'.
  apply: (@eq_from_nth _ 0); rewrite !size_mkseq ?sn ?sn' // => i lt_i.
  have := B (i %/ p_l pp)%N (i %% p_l pp)%N; rewrite ltn_divLR // lt_i ltn_mod l0 /blocks -divn_eq.
  by apply.
exact: E.
Qed.
