(** Theorems about the proving key and the prover. *)
From mathcomp Require Import all_ssreflect all_algebra.
From mathcomp Require Import zify.
From Verif Require Import RingTac Base ModelField ModelUtils ModelPss ModelPack ModelFft ModelNet.
From Verif Require Import ModelProto ModelQap ModelProve Spec SpecNet SpecProto SpecGroth.
From Verif Require Import NetProofs KingProofs NetThm PartyProofs.
From Verif Require Import FieldProofs UtilsProofs PssProofs PackProofs FftProofs ProtoProofs DegProofs.
From Verif Require Import PssThm ProtoThm QapProofs ExtProofs GrothThm ProveProofs.
From Verif Require Import ExampleField ExamplesNet.
Set Implicit Arguments.
Unset Strict Implicit.
Unset Printing Implicit Defensive.
Import GRing.Theory.
Local Open Scope ring_scope.

Local Notation Fm F := [lmodType F of F^o].

Section Shares.
Variable F : fftField.
Variables (pp : pss F) (ok : pp_ok pp) (T : lmodType F).
  Local Notation l := (p_l pp).

(** regular shares: all slots are equal *)
Definition regular (U : lmodType F) d (sh : nat -> U) (x : U) := shared pp d sh (fun=> x).

Lemma regularP (U : lmodType F) d sh (x : U) k : l = k ->
  sharing pp d sh (nseq k x) -> regular d (nth 0 sh) x.
Proof.
move=> <- H; apply: shared_ext (sharing_shared H) => // j lt_j.
by rewrite nth_nseq lt_j.
Qed.

Lemma regular_add d (f g : nat -> T) x y : regular d f x -> regular d g y ->
  regular d (fun p => f p + g p) (x + y).
Proof.
move=> Hf Hg; apply: shared_ext (shared_lin 1 Hf Hg) => i _; by rewrite scale1r.
Qed.

Lemma regular_opp d (f : nat -> T) x : regular d f x -> regular d (fun p => - f p) (- x).
Proof.
move=> Hf; apply: shared_ext (shared_lin (-1) Hf (shared0 T pp d)) => i _;
by rewrite scaleN1r addr0.
Qed.

Lemma regular_const d (x : T) : (0 < d)%N -> regular d (fun=> x) x.
Proof. exact: shared_const. Qed.

Lemma regular_scale d d' (f : nat -> F) (g : nat -> T) x y : (0 < d')%N ->
  regular (U := Fm F) d f x -> regular d' g y -> regular (d + d').-1 (fun p => f p *: g p) (x *: y).
Proof. by move=> d0 Hf Hg; apply: shared_mul. Qed.

Lemma regular_widen d d' (f : nat -> T) x : (d <= d')%N -> regular d f x -> regular d' f x.
Proof. by move=> le_d [c [sc H1 H2]]; exists c; split=> //; apply: leq_trans le_d. Qed.

Lemma regular_reconstruct (dbg : bool) d (f : nat -> T) x : (d + dbg <= p_n pp)%N -> regular d f x ->
  reconstruct dbg pp (mkseq f (p_n pp)) = Ok x.
Proof.
move=> le_d /sharingP H; rewrite /reconstruct (unpack2_sharing ok le_d H) [rbind (Ok _) _]/=.
by rewrite (vget_nth 0) ?size_mkseq ?pp_l_gt0 // nth_mkseq // pp_l_gt0.
Qed.

Lemma regular_zero d (f : nat -> T) x : (d <= p_n pp)%N -> (forall p, (p < p_n pp)%N -> f p = 0) ->
  regular d f x -> x = 0.
Proof.
move=> le_d f0 H; have le_d' : (d + false <= p_n pp)%N by rewrite addn0.
have := regular_reconstruct le_d' H.
have H0 : regular d f 0 by apply: shared_ext (shared0 T pp d) => // i /f0.
by rewrite (regular_reconstruct le_d' H0) => E; have := Ok_inj E.
Qed.

End Shares.

(** sums over the blocks *)
Lemma inner_sum (F : fftField) (T : lmodType F) (pp : pss F) m (bv : seq T) (sv : seq F) k :
  (size sv <= m * p_l pp)%N -> (k = size sv)%N ->
  inner pp m (blocks pp bv) (blocks (T := Fm F) pp sv) = \sum_(i < k) sv`_i *: bv`_i.
Proof.
move=> le_s ->; rewrite /inner /blocks -(big_split_blocks m (p_l pp) (fun i => sv`_i *: bv`_i)).
rewrite -(subnKC le_s) big_split_ord /= -[RHS]addr0; congr (_ + _).
apply: big1 => i _; rewrite nth_default ?scale0r //=; exact: leq_addr.
Qed.

Lemma sum_drop (F : fftField) (T : lmodType F) (bv : seq T) (sv : seq F) k :
  \sum_(i < size sv - k) (drop k sv)`_i *: (drop k bv)`_i = \sum_(k <= i < size sv) sv`_i *: bv`_i.
Proof.
symmetry; rewrite -[k in LHS]add0n big_addn big_mkord; apply: eq_bigr => i _.
by rewrite !nth_drop addnC.
Qed.

Section Compute.
Variable F : fftField.
Variables (dbg : bool) (pp : pss F) (ok : pp_ok pp).
Variables (T : lmodType F) (cT : codec T) (mb : nat).
Hypothesis cok : codec_ok cT mb.
  Local Notation l := (p_l pp).
  Local Notation n := (p_n pp).

Lemma n_gt0' : (0 < n)%N.
Proof. exact: ltn_trans (n_gt1 ok). Qed.

(** [A::compute] and [B::compute] have the same form *)
Lemma compute_prog (L N K : T) x' (x : nat -> F) (S : nat -> seq T) (a : nat -> seq F) masks m sb sa :
  msm_ok pp masks -> vsharing pp (2 * l) m S sb -> vsharing (T := Fm F) pp (2 * l) m a sa ->
  regular pp (U := Fm F) (2 * l) x x' ->
  exists out : nat -> T, regular pp (2 * l) out (L + x' *: N + inner pp m sb sa + K) /\
    forall ord, hash_ok ord -> king_prog n (fun d => d != 0%N)
      (fun p => do! prod := d_msm dbg pp n p ord cT (S p) (a p) (masks p) in
                clift (Ok (L + x p *: N + prod + K))) out.
Proof.
move=> Hm HS Ha Hx; have l0 := pp_l_gt0 ok.
have [prod [Hprod Hp]] := d_msm_prog ok cok dbg Hm HS Ha.
exists (fun p => L + x p *: N + prod p + K); split.
  have c0 : (0 < 2 * l)%N by lia.
  have Hs : regular pp (2 * l) (fun p => x p *: N) (x' *: N).
    have := regular_scale (ltn0Sn 0) Hx (regular_const pp N (ltn0Sn 0)).
    by rewrite addn1.
  exact: (regular_add (regular_add (regular_add (regular_const pp L c0) Hs) Hprod) (regular_const pp K c0)).
move=> ord Ho; apply: king_prog_bind (Hp ord Ho) _; first exact: n_gt0'.
exact: KP_ret.
Qed.

(** the two multi-scalar multiplications of [C::compute] *)
Lemma compute_C_party (A B : nat -> T) (M : T) (s r : nat -> F) (W U : nat -> seq T)
    (ax h : nat -> seq F) (m0 m1 : nat -> msm_mask T) mw mu sW sU sax sh A' B' s' r' :
  msm_ok pp m0 -> msm_ok pp m1 ->
  vsharing pp (2 * l) mw W sW -> vsharing (T := Fm F) pp (2 * l) mw ax sax ->
  vsharing pp (2 * l) mu U sU -> vsharing (T := Fm F) pp (2 * l) mu h sh ->
  regular pp (2 * l) A A' -> regular pp (2 * l) B B' ->
  regular pp (U := Fm F) (2 * l) s s' -> regular pp (U := Fm F) (2 * l) r r' ->
  exists out : nat -> T, regular pp (4 * l - 1) out
      (s' *: A' + r' *: B' - (r' * s') *: M + inner pp mw sW sax + inner pp mu sU sh) /\
    forall ords : nat -> hash_order, (forall i, hash_ok (ords i)) ->
     king_party n (fun d => d != 0%N)
      (fun p => compute_C dbg pp n p cT (A p) (B p) M (s p) (r p) (W p) (U p) (ax p) (h p) ords
                          [:: m0 p; m1 p]) out.
Proof.
move=> Hm0 Hm1 HW Hax HU Hh HA HB Hs Hr; have l0 := pp_l_gt0 ok; have c0 : (0 < 2 * l)%N by lia.
have [w [Hw Pw]] := d_msm_prog ok cok dbg Hm0 HW Hax.
have [u [Hu Pu]] := d_msm_prog ok cok dbg Hm1 HU Hh.
have Ed : (2 * l + 2 * l).-1 = (4 * l - 1)%N by lia.
have le_d : (2 * l <= 4 * l - 1)%N by lia.
exists (fun p => s p *: A p + r p *: B p - (r p * s p) *: M + w p + u p); split.
  have H1 := regular_scale c0 Hs HA; have H2 := regular_scale c0 Hr HB.
  have H3 := regular_scale (T := Fm F) c0 Hr Hs.
  have H4 := regular_scale (ltn0Sn 0) H3 (regular_const pp M (ltn0Sn 0)).
  rewrite addn1 [_.+1.-1]/= in H4; rewrite Ed in H1 H2 H4.
  exact: (regular_add (regular_add (regular_add (regular_add H1 H2) (regular_opp H4))
    (regular_widen le_d Hw)) (regular_widen le_d Hu)).
move=> ords Ho; apply: (king_party_bind (v1 := fun p => [:: w p; u p])); first exact: n_gt0'.
  apply: (@PP_join _ _ _ _ _ _ [:: 0%N; 1%N]
    (fun p j => if j is 0%N then d_msm dbg pp n p (ords 0%N) cT (W p) (ax p) (m0 p)
                else d_msm dbg pp n p (ords 1%N) cT (U p) (h p) (m1 p))
    (fun p j => if j is 0%N then w p else u p) (fun p rs => PRet (Ok rs))) => //.
    by case=> [|j] _; [apply: Pw|apply: Pu].
  exact: PP_ret.
exact: PP_ret.
Qed.

End Compute.

Lemma separate_dsha256 (F : fftField) (T1 T2 : lmodType F) dbg (pp : pss F) n p cF c1 c2
    (crs : key_share T1 T2) q a ax r s fm dm g1 g2 ords rs :
  separate (dsha256 dbg pp n p cF c1 c2 crs q a ax r s fm dm g1 g2 ords rs).
Proof.
apply: separate_bind => [|h]; first exact: separate_circom.
do 3![apply: separate_bind => // ?].
by apply: separate_bind => //; apply: separate_bind => // -[|? [|? []]].
Qed.

(** ** A run for C40: packing factor 2, eight parties, both groups are the field of 17 elements *)
Definition pts (s : seq nat) : seq F17 := [seq i%:R | i <- s].
Definition deal17 (secrets rands : seq nat) : seq F17 :=
  get_ok [::] (pack_pts (T := T17) false pp2 (pts secrets) (pts rands)).

(** B in G1 and then B in G2, as in [dsha256]: key elements (2, 3) and (4, 9), witness (5, 7) *)
Definition b1_b2 (r s : seq F17) (p : nat) : pproc (F17 * F17) :=
  pdo! b1 := pthread 0 (compute_B1 (T := T17) false pp2 8 p (c17 : codec F17) 1 2%:R 4%:R
    [:: (deal17 [:: 2; 3]%N [:: 1; 6]%N)`_p] [:: (deal17 [:: 5; 7]%N [:: 8; 2]%N)`_p] s`_p r`_p id
    (msm_mask_zero T17)) in
  pdo! b2 := pthread 0 (compute_B2 (T := T17) false pp2 8 p (c17 : codec F17) 2%:R 6%:R 7%:R
    [:: (deal17 [:: 4; 9]%N [:: 3; 5]%N)`_p] [:: (deal17 [:: 5; 7]%N [:: 8; 2]%N)`_p] s`_p id
    (msm_mask_zero T17)) in
  PRet (Ok (b1, b2)).

Definition without3 := [:: 1; 2; 4; 5; 6; 7]%N.
Definition b1_b2_schedule : seq action :=
  [:: (3%N, LJoin); party 3] ++ [seq party p | p <- without3]
  ++ [seq king (KArrive p) | p <- iota 1 7] ++ [:: king KGathered] ++ nseq 7 (king KOp)
  ++ [seq party p | p <- iota 1 7] ++ [seq (p, LJoin) | p <- iota 0 8]
  ++ [seq party p | p <- without3] ++ [seq king (KArrive p) | p <- without3]
  ++ [:: king KGathered] ++ nseq 7 (king KOp) ++ [seq party p | p <- without3]
  ++ [seq (p, LJoin) | p <- 0%N :: without3].

Definition second_results (ps : seq (pproc (F17 * F17))) : option (seq F17) :=
  foldr (fun p acc => if p is PRet (Ok v) then omap (cons v.2) acc else None) (Some [::]) ps.

(*** theorems ***)

(** C38: the shares of the proving key. *)
Lemma c38_pack_key (F : fftField) (T1 T2 : lmodType F) (dbg : bool) lam (pp : pss F)
    (pk : proving_key T1 T2) :
  pss_new F dbg (2 ^ lam) = Ok pp ->
  (0 < size (a_query pk))%N -> (0 < size (b_g1_query pk))%N -> (0 < size (b_g2_query pk))%N ->
  (dbg -> all (fun k => 2 ^ lam %| k)%N (shared_lengths pk)) ->
  exists out, pack_key dbg pp pk = Ok (mkseq out (p_n pp)) /\ packed_key pp pk out.
Proof.
move=> new a0 b0 c0 Hd; have ok := pss_new_ok new; have El := pss_new_l new; rewrite -El in Hd.
have dvd k : k \in shared_lengths pk -> dbg -> (p_l pp %| k)%N by move=> in_k /Hd/allP/(_ k in_k).
have [|ps [os [Es Cs Hs]]] := @pack_query_columns _ pp ok T1 dbg (drop 1 (a_query pk)).
  by apply: dvd; rewrite !inE eqxx.
have [|pu [ou [Eu Cu Hu]]] := @pack_query_columns _ pp ok T1 dbg (h_query pk).
  by apply: dvd; rewrite !inE eqxx !orbT.
have [|pw [ow [Ew Cw Hw]]] := @pack_query_columns _ pp ok T1 dbg (l_query pk).
  by apply: dvd; rewrite !inE eqxx !orbT.
have [|ph [oh [Eh Ch Hh]]] := @pack_query_columns _ pp ok T1 dbg (drop 1 (b_g1_query pk)).
  by apply: dvd; rewrite !inE eqxx !orbT.
have [|pv [ov [Ev Cv Hv]]] := @pack_query_columns _ pp ok T2 dbg (drop 1 (b_g2_query pk)).
  by apply: dvd; rewrite !inE eqxx !orbT.
exists (fun p => KeyShare (os p) (ou p) (ow p) (oh p) (ov p) (a_query pk)`_0 (b_g1_query pk)`_0
  (b_g2_query pk)`_0 (pk_delta_g1 pk) (pk_delta_g2 pk) (pk_alpha_g1 pk) (pk_beta_g1 pk)
  (pk_beta_g2 pk)); split; last by split=> //; split.
rewrite /pack_key Es [rbind (Ok _) _]/= Eu [rbind (Ok _) _]/= Ew [rbind (Ok _) _]/= Eh.
rewrite [rbind (Ok _) _]/= Ev [rbind (Ok _) _]/=.
apply: mapM_ok => i0 k; rewrite size_iota => lt_k; rewrite nth_iota // add0n.
rewrite Cs // [rbind (Ok _) _]/= Cu // [rbind (Ok _) _]/= Cv // [rbind (Ok _) _]/=.
rewrite Cw // [rbind (Ok _) _]/= Ch // [rbind (Ok _) _]/=.
by rewrite (vget_nth 0) //= (vget_nth 0) //= (vget_nth 0).
Qed.

(** C38: in debug builds the lengths must be multiples of [l]. *)
Lemma c38_debug_panic (F : fftField) (T1 T2 : lmodType F) lam (pp : pss F) (pk : proving_key T1 T2) :
  pss_new F true (2 ^ lam) = Ok pp -> ~~ all (fun k => 2 ^ lam %| k)%N (shared_lengths pk) ->
  pack_key true pp pk = Panic.
Proof.
move=> new; have ok := pss_new_ok new; have El := pss_new_l new; rewrite -El /shared_lengths /=.
have P (T : lmodType F) (q : seq T) : ~~ (p_l pp %| size q)%N -> pack_query true pp q = Panic.
  exact: pack_query_panic.
have D (T : lmodType F) (q : seq T) : (p_l pp %| size q)%N -> exists x, pack_query true pp q = Ok x.
  by move=> H; have [//|x [o [E _ _]]] := @pack_query_columns _ pp ok T true q; exists x.
rewrite /pack_key.
case H1: (p_l pp %| _)%N => /=; last by rewrite P ?H1.
have [x1 ->] := D _ _ H1; rewrite [rbind (Ok _) _]/=.
case H2: (p_l pp %| _)%N => /=; last by rewrite P ?H2.
have [x2 ->] := D _ _ H2; rewrite [rbind (Ok _) _]/=.
case H3: (p_l pp %| _)%N => /=; last by rewrite P ?H3.
have [x3 ->] := D _ _ H3; rewrite [rbind (Ok _) _]/=.
case H4: (p_l pp %| _)%N => /=; last by rewrite P ?H4.
have [x4 ->] := D _ _ H4; rewrite [rbind (Ok _) _]/=.
by rewrite andbT => H5; rewrite P.
Qed.

(** C39: the whole prover, from the dealer's inputs to the client's reconstruction. *)
Lemma c39_prover (F : fftField) (T1 T2 : lmodType F) (dbg : bool) lam b (pp : pss F) dom d2
    (cF : codec F) (c1 : codec T1) (c2 : codec T2) mb mb1 mb2
    (pk : proving_key T1 T2) (z : seq F) (ni : nat) (q : qap_t F)
    (ra rax rq : rng F) k0 crs a ax qs
    (fm : nat -> seq (fft_mask F)) (gen : F) dm (g1 : T1) g1m (g2 : T2) g2m
    (rsh ssh : seq F) (r s : F) (rs : nat -> rng F) :
  pss_new F dbg (2 ^ lam) = Ok pp -> domain_new F (2 ^ (b + lam)) = Some dom ->
  domain_new F (2 * 2 ^ (b + lam)) = Some d2 ->
  codec_ok cF mb -> codec_ok c1 mb1 -> codec_ok c2 mb2 -> (2 ^ b < 256 ^ 8)%N ->
  (* the key belongs to the circuit *)
  (0 < ni <= size z)%N -> size (a_query pk) = size z -> size (b_g1_query pk) = size z ->
  size (b_g2_query pk) = size z -> size (l_query pk) = (size z - ni)%N ->
  (2 ^ (b + lam) - 2 ^ lam < size (h_query pk) <= 2 ^ (b + lam))%N ->
  size (q_a q) = (2 ^ (b + lam))%N -> size (q_b q) = (2 ^ (b + lam))%N ->
  size (q_c q) = (2 ^ (b + lam))%N -> q_domain q = dom ->
  (* the dealer *)
  pack_key dbg pp pk = Ok crs -> pack_from_witness dbg pp (drop 1 z) ra = Ok a ->
  pack_from_witness dbg pp (drop ni z) rax = Ok ax -> qap_pss dbg pp q rq = Ok qs ->
  (forall i, (i < 3)%N -> fft_masks dbg pp true (d_gen d2) (d_gen_inv dom) (2 ^ (b + lam))
                            (fun p => nth (no_mask F) (fm p) i)) ->
  (forall i, (3 <= i < 6)%N -> fft_masks dbg pp false 1 (d_gen dom) (2 ^ (b + lam))
                            (fun p => nth (no_mask F) (fm p) i)) ->
  degred_masks dbg pp (gen : Fm F) (2 ^ b) dm ->
  (forall i, (i < 4)%N -> msm_masks dbg pp g1 (fun p => nth (msm_mask_zero T1) (g1m p) i)) ->
  msm_masks dbg pp g2 g2m ->
  sharing (T := Fm F) pp (2 * 2 ^ lam) rsh (nseq (2 ^ lam) r) ->
  sharing (T := Fm F) pp (2 * 2 ^ lam) ssh (nseq (2 ^ lam) s) ->
  (* either all or none of the shares of r are zero, see C40 *)
  (forall p, (p < p_n pp)%N -> rsh`_p = 0) \/ (forall p, (p < p_n pp)%N -> rsh`_p != 0) ->
  exists (QA QB QC : {poly F}) (out : nat -> T1 * T2 * T1), [/\
    [/\ interpolates (d_gen dom) (2 ^ (b + lam)) (q_a q) QA,
        interpolates (d_gen dom) (2 ^ (b + lam)) (q_b q) QB &
        interpolates (d_gen dom) (2 ^ (b + lam)) (q_c q) QC],
    (2 * 2 ^ (b + lam))%N.-primitive_root (d_gen d2), d_gen d2 ^+ 2 = d_gen dom,
    party_yields (p_n pp) false (fun ords p =>
      dsha256 dbg pp (p_n pp) p cF c1 c2 (nth k0 crs p) (nth q qs p) (nth [::] a p) (nth [::] ax p)
              rsh`_p ssh`_p (fm p) (dm p) (g1m p) (g2m p) ords rs) out &
    let A := pk_alpha_g1 pk + (a_query pk)`_0 + \sum_(1 <= i < size z) z`_i *: (a_query pk)`_i
             + r *: pk_delta_g1 pk in
    let B1 := pk_beta_g1 pk + (b_g1_query pk)`_0 + \sum_(1 <= i < size z) z`_i *: (b_g1_query pk)`_i
             + s *: pk_delta_g1 pk in
    let B := pk_beta_g2 pk + (b_g2_query pk)`_0 + \sum_(1 <= i < size z) z`_i *: (b_g2_query pk)`_i
             + s *: pk_delta_g2 pk in
    let C := s *: A + r *: B1 - (r * s) *: pk_delta_g1 pk
             + \sum_(i < size z - ni) z`_(ni + i) *: (l_query pk)`_i
             + \sum_(i < 2 ^ (b + lam)) (QA * QB - QC).[d_gen d2 ^+ (2 * i + 1)] *: (h_query pk)`_i in
    [/\ reconstruct dbg pp (mkseq (fun p => (out p).1.1) (p_n pp)) = Ok A,
        reconstruct dbg pp (mkseq (fun p => (out p).1.2) (p_n pp)) = Ok B &
        reconstruct dbg pp (mkseq (fun p => (out p).2) (p_n pp)) = Ok C]].
Proof.
set N := (2 ^ (b + lam))%N.
move=> new Edom Ed2 cok cok1 cok2 m_small Hni sA sB1 sB2 sL sH sqa sqb sqc Eq.
move=> Ecrs Ea Eax Eqs M1 M2 M3 M4 M5 Hr Hs Hz.
have ok := pss_new_ok new; have El := pss_new_l new; have l0 := pp_l_gt0 ok; have n0 := n_gt0 new.
have En := ppn ok.
(* the key *)
have z0 : (0 < size z)%N by lia.
have [out_k [Ek [[KS KH KV] KU KW K0 Kv]]] :
    exists out, crs = mkseq out (p_n pp) /\ packed_key pp pk out.
  have [||||out [E H]] := c38_pack_key (pk := pk) new; rewrite ?sA ?sB1 ?sB2 //.
    move=> Hd; apply/idPn => nd; rewrite Hd in Ecrs new.
    by rewrite (c38_debug_panic new nd) in Ecrs.
  by exists out; split=> //; rewrite E in Ecrs; have := Ok_inj Ecrs.
rewrite !size_drop !(sA, sB1, sB2, sL) in KS KH KV KU KW.
have ED : div_ceil (size (h_query pk)) (p_l pp) = (2 ^ b)%N.
  apply: div_ceil_le => //; rewrite El -expnD -/N; first by case/andP: sH.
  by case/andP: sH => H1 H2; rewrite /N in H1 H2 *; lia.
rewrite ED in KU.
(* the witness *)
have [oa [Ea' Ha]] := witness_columns ok dbg (drop 1 z) ra; rewrite size_drop in Ha.
have [oax [Eax' Hax]] := witness_columns ok dbg (drop ni z) rax; rewrite size_drop in Hax.
have {Ea} Ea : a = mkseq oa (p_n pp) by rewrite Ea' in Ea; have := Ok_inj Ea.
have {Eax} Eax : ax = mkseq oax (p_n pp) by rewrite Eax' in Eax; have := Ok_inj Eax.
(* the QAP *)
have [xa [xb [xc [Eqs' Hxa Hxb Hxc]]]] := qap_pssP ok El dbg rq sqa sqb sqc.
have {Eqs'} Eqs : qs = mkseq (fun p => Qap (num_inputs q) (num_constraints q)
  (xa p) (xb p) (xc p) (q_domain q)) (p_n pp) by rewrite Eqs' in Eqs; have := Ok_inj Eqs.
have le2 : (2 * p_l pp <= 4 * 2 ^ lam - 1)%N by rewrite -El; lia.
pose qp p := Qap (num_inputs q) (num_constraints q) (xa p) (xb p) (xc p) (q_domain q).
have [QA [QB [QC [h [HQ prw Ew Hh Ph]]]]] := circom_party (q := qp) rs new Edom Ed2 cok m_small
  le2 M1 M2 M3 sqa sqb sqc (fun p _ => Eq) Hxa Hxb Hxc.
rewrite -El in Hh.
(* A, B1, B2 *)
have Hr' := regularP El Hr; have Hs' := regularP El Hs; rewrite -El in Hr' Hs'.
have [oA [HA PA]] := compute_prog dbg ok cok1 (a_query pk)`_0 (pk_delta_g1 pk) (pk_alpha_g1 pk)
  (msm_masks_ok new (M4 0%N isT)) KS Ha Hr'.
have [oB [HB PB]] := compute_prog dbg ok cok1 (b_g1_query pk)`_0 (pk_delta_g1 pk) (pk_beta_g1 pk)
  (msm_masks_ok new (M4 1%N isT)) KH Ha Hs'.
have [oB2 [HB2 PB2]] := compute_prog dbg ok cok2 (b_g2_query pk)`_0 (pk_delta_g2 pk) (pk_beta_g2 pk)
  (msm_masks_ok new M5) KV Ha Hs'.
have sum (T : lmodType F) (L X K : T) (v : seq T) :
    L + X + inner pp (div_ceil (size z - 1) (p_l pp)) (blocks pp (drop 1 v))
                  (blocks (T := Fm F) pp (drop 1 z)) + K =
    K + L + \sum_(1 <= i < size z) z`_i *: v`_i + X.
  rewrite (@inner_sum _ _ _ _ _ _ (size z - 1)) ?size_drop //; last exact: div_ceil_ge.
  rewrite (sum_drop v z 1).
  by rewrite addrC !addrA addrAC.
rewrite !sum in HA HB HB2.
set vA := (X in regular _ _ _ X) in HA; set vB := (X in regular _ _ _ X) in HB.
set vB2 := (X in regular _ _ _ X) in HB2.
(* B1 as computed *)
pose oB' p := if rsh`_p == 0 then 0 else oB p.
have [vB' HB' EB'] : exists2 vB', regular pp (2 * p_l pp) oB' vB' & r *: vB' = r *: vB.
  case: Hz => Hz.
    have r0 : r = 0.
      have le : (2 * p_l pp <= p_n pp)%N by rewrite En; lia.
      exact: (regular_zero ok (T := Fm F) le Hz Hr').
    exists 0; last by rewrite r0 !scale0r.
    by apply: shared_ext (shared0 T1 pp (2 * p_l pp)) => // p lt_p; rewrite /oB' Hz // eqxx.
  exists vB => //; apply: shared_ext HB => // p lt_p.
  by rewrite /oB' (negbTE (Hz p lt_p)).
have [oC [HC PC]] := compute_C_party dbg ok cok1 (pk_delta_g1 pk) (msm_masks_ok new (M4 2%N isT))
  (msm_masks_ok new (M4 3%N isT)) KW Hax KU Hh HA HB' Hs' Hr'.
exists QA, QB, QC, (fun p => (oA p, oB2 p, oC p)); split=> //.
  apply: party_yields_prog => //; first by move=> *; apply: separate_dsha256.
  move=> ords Hords.
  apply: (@king_party_ext _ _ _ _ (fun p =>
    pbind (circom_h dbg pp (p_n pp) p ords cF (qp p) (fm p) (dm p) rs) (fun hp =>
    pbind (pthread 0 (compute_A dbg pp (p_n pp) p c1 (a_query pk)`_0 (pk_delta_g1 pk)
                 (pk_alpha_g1 pk) (k_s (out_k p)) (oa p) rsh`_p (ords 7%N)
                 (nth (msm_mask_zero T1) (g1m p) 0))) (fun pa =>
    pbind (pthread 0 (compute_B1 dbg pp (p_n pp) p c1 (b_g1_query pk)`_0 (pk_delta_g1 pk)
                 (pk_beta_g1 pk) (k_h (out_k p)) (oa p) ssh`_p rsh`_p (ords 8%N)
                 (nth (msm_mask_zero T1) (g1m p) 1))) (fun pb1 =>
    pbind (pthread 0 (compute_B2 dbg pp (p_n pp) p c2 (b_g2_query pk)`_0 (pk_delta_g2 pk)
                 (pk_beta_g2 pk) (k_v (out_k p)) (oa p) ssh`_p (ords 9%N) (g2m p))) (fun pb2 =>
    pbind (compute_C dbg pp (p_n pp) p c1 pa pb1 (pk_delta_g1 pk) ssh`_p rsh`_p (k_w (out_k p))
                 (k_u (out_k p)) (oax p) hp (fun i => ords (10 + i)%N)
                 [:: nth (msm_mask_zero T1) (g1m p) 2; nth (msm_mask_zero T1) (g1m p) 3]) (fun pc =>
    PRet (Ok (pa, pb2, pc))))))))) => //.
    move=> p lt_p; rewrite Ek Ea Eax Eqs !nth_mkseq // -/(qp p) /dsha256.
    by have [-> -> ->] := K0 p; have [-> -> -> -> ->] := Kv p.
  apply: (king_party_bind (v1 := h)) => //; first exact: Ph.
  apply: (king_party_bind (v1 := oA)) => //; first by apply: pthread_party; apply: PA.
  apply: (king_party_bind (v1 := oB')) => //.
    apply: pthread_party; case: Hz => Hz.
      by apply: KP_ret => p lt_p; rewrite /compute_B1 /oB' Hz // eqxx.
    apply: (king_prog_vals (vals := oB)) => [p lt_p|]; first by rewrite /oB' (negbTE (Hz p lt_p)).
    apply: king_prog_ext (PB _ (Hords 8%N)) => // p lt_p.
    by rewrite /compute_B1 (negbTE (Hz p lt_p)).
  apply: (king_party_bind (v1 := oB2)) => //; first by apply: pthread_party; apply: PB2.
  apply: (king_party_bind (v1 := oC)) => //; last exact: PP_ret.
  by apply: PC => i; apply: Hords.
have le_2 : (2 * p_l pp + dbg <= p_n pp)%N by rewrite En; have := leq_b1 dbg; lia.
have le_4 : (4 * p_l pp - 1 + dbg <= p_n pp)%N by rewrite En; have := leq_b1 dbg; lia.
split; [exact: (regular_reconstruct ok le_2 HA)|exact: (regular_reconstruct ok le_2 HB2)|].
rewrite (regular_reconstruct ok le_4 HC) EB'; congr (Ok (_ + _ + _)).
  rewrite (@inner_sum _ _ _ _ _ _ (size z - ni)) ?size_drop //; last exact: div_ceil_ge.
  by apply: eq_bigr => i _; rewrite nth_drop.
rewrite (@inner_sum _ _ _ _ _ _ N) ?size_mkseq //; last by rewrite El -expnD.
by apply: eq_bigr => i _; rewrite nth_mkseq.
Qed.

(** C39: the shares of r and s handed out by the sha256 example (release builds) satisfy the
    hypotheses. *)
Lemma c39_example_randomness (F : fftField) lam (pp : pss F) (x : F) (r : rng F) sh :
  pss_new F false (2 ^ lam) = Ok pp ->
  pack (T := Fm F) false pp (nseq (p_n pp) x) r = Ok sh ->
  sharing (T := Fm F) pp (2 * 2 ^ lam) sh (nseq (2 ^ lam) x) /\
  ((forall p, (p < p_n pp)%N -> sh`_p = 0) \/ (forall p, (p < p_n pp)%N -> sh`_p != 0)).
Proof.
move=> new; have [-> _] := c10_overlong_leaks (x : Fm F) r new => E.
have {E} <- : nseq (p_n pp) x = sh := Ok_inj E.
have ok := pss_new_ok new; have El := pss_new_l new; have l0 := pp_l_gt0 ok.
split; last first.
  by case: (x =P 0) => [->|/eqP nz]; [left|right] => p lt_p; rewrite nth_nseq lt_p.
have /sharingP : shared (T := Fm F) pp (2 * p_l pp) (fun=> x) (fun=> x).
  by apply: shared_const; lia.
have Ec k : mkseq (fun=> x) k = nseq k x.
  by apply: (@eq_from_nth _ 0); rewrite size_mkseq ?size_nseq // => i lt_i;
     rewrite nth_mkseq // nth_nseq lt_i.
by rewrite !Ec El.
Qed.

(** C40: for every r and every party there is randomness of the dealer for which this party's
    share of r is zero; this party then returns the neutral element and sends nothing. *)
Lemma c40_zero_share (F : fftField) (T : lmodType F) dbg lam (pp : pss F) (r : F) p :
  pss_new F dbg (2 ^ lam) = Ok pp -> ff_generator F ^+ p_n pp != 1 -> (p < p_n pp)%N ->
  exists2 rands : seq F, size rands = p_t pp & exists2 shares : seq F,
    pack_pts (T := Fm F) dbg pp (nseq (p_l pp) r) rands = Ok shares &
    shares`_p = 0 /\
    forall (cT : codec T) Z K BG1 H a s ord mask,
      compute_B1 dbg pp (p_n pp) p cT Z K BG1 H a s shares`_p ord mask = CRet (Ok 0).
Proof.
move=> new gn lt_p; have ok := pss_new_ok new; have l0 := pp_l_gt0 ok; have En := ppn ok.
pose P := p :: take (p_l pp).-1 (rem p (iota 0 (p_n pp))).
have mem_p : p \in iota 0 (p_n pp) by rewrite mem_iota.
have u_r : uniq (rem p (iota 0 (p_n pp))) by rewrite rem_uniq ?iota_uniq.
have uP : uniq P.
  rewrite /= take_uniq // andbT; apply/negP => /mem_take.
  by rewrite (mem_rem_uniq _ (iota_uniq _ _)) inE eqxx.
have aP : all (fun q => q < p_n pp)%N P.
  rewrite /= lt_p; apply/allP => x /mem_take /mem_rem.
  by rewrite mem_iota => /andP[].
have sP : size P = p_l pp.
  rewrite /= size_takel ?prednK // size_rem // size_iota En; lia.
have [rands sr [shares E Es]] := privacy_exists (T := Fm F) ok dbg gn uP aP sP
  (size_nseq (p_l pp) r) (size_nseq (p_l pp) (0 : F)).
exists rands; first by rewrite sr (ppt ok).
exists shares => //.
have sp0 : shares`_p = 0.
  have := congr1 (fun t => nth 0 t 0) Es; rewrite /P /= => ->.
  by rewrite nth_nseq l0.
by split=> // *; rewrite /compute_B1 sp0 eqxx.
Qed.

(** C40: the claim is false.  r = 5 is dealt with randomness (2, 8), the share of party 3 is zero.
    All eight parties end normally, and the client reconstructs a wrong B in G2. *)
Lemma c40_all_take_part_refuted : exists (rands : seq nat) (s : seq action) (d : cfg (F17 * F17)) vs,
  let b2 := (7%:R + 2%:R + (5%:R * 4%:R + 7%:R * 9%:R) + 3%:R * 6%:R : F17) in
  [/\ sharing (T := T17) pp2 4 (deal17 [:: 5; 5]%N rands) [:: 5%:R; 5%:R],
      all clean s,
      run s (init (mkseq (b1_b2 (deal17 [:: 5; 5]%N rands) (deal17 [:: 3; 3]%N [:: 1; 4]%N)) 8)) = Some d,
      second_results (procs d) = Some vs &
      exists2 v, reconstruct (T := T17) false pp2 vs = Ok v & v != b2].
Proof.
pose c := init (mkseq (b1_b2 (deal17 [:: 5; 5]%N [:: 2; 8]%N) (deal17 [:: 3; 3]%N [:: 1; 4]%N)) 8).
pose d := odflt c (run b1_b2_schedule c).
pose vs := odflt [::] (second_results (procs d)).
exists [:: 2; 8]%N, b1_b2_schedule, d, vs => b2; split.
- have [//|//|sh [E _ H]] := @pack_pts_sharing F17 T17 pp2 pp2_ok false (pts [:: 5; 5]%N) (pts [:: 2; 8]%N).
  by rewrite /deal17 E.
- by vm_compute.
- have H : isSome (run b1_b2_schedule c) by vm_compute.
  by rewrite /d; case: (run b1_b2_schedule c) H.
- have H : isSome (second_results (procs d)) by vm_compute.
  by rewrite /vs; case: (second_results (procs d)) H.
exists (get_ok 0 (reconstruct (T := T17) false pp2 vs)); first by apply: get_okP; vm_compute.
by vm_compute.
Qed.
