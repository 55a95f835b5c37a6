(** Theorems about a party that deviates in the prover: wrong witness shares, wrong proof shares. *)
From mathcomp Require Import all_ssreflect all_algebra.
From mathcomp Require Import zify.
From Verif Require Import RingTac Base ModelField ModelUtils ModelPss ModelPack ModelFft ModelNet.
From Verif Require Import ModelProto ModelQap ModelProve ModelMain Spec SpecNet SpecProto SpecGroth.
From Verif Require Import SpecVerify SpecTamper.
From Verif Require Import NetProofs KingProofs NetThm PartyProofs.
From Verif Require Import FieldProofs UtilsProofs PssProofs PackProofs FftProofs ProtoProofs DegProofs.
From Verif Require Import PssThm ProtoThm QapProofs ExtProofs GrothThm ProveProofs ProveThm.
From Verif Require Import MainProofs MainThm.
From Verif Require Import TamperProofs TamperThm.
Set Implicit Arguments.
Unset Strict Implicit.
Unset Printing Implicit Defensive.
Import GRing.Theory.
Local Open Scope ring_scope.

Local Notation Fm F := [lmodType F of F^o].

Lemma king_party_dok A n (dok dok' : pred nat) (P : nat -> pproc A) vals :
  (forall d, dok' d -> dok d) -> king_party n dok P vals -> king_party n dok' P vals.
Proof.
move=> H; elim=> {P vals} [P vals HP|P vals B sids progs rs k HP U Hkp _ IH]; first exact: PP_ret.
by apply: PP_join HP U _ IH => j lj; apply: king_prog_dok (Hkp j lj).
Qed.

Lemma party_yields_any A n prog (out : nat -> A) : (0 < n)%N ->
  (forall ords p, separate (prog ords p)) ->
  (forall ords, (forall i, hash_ok (ords i)) ->
     king_party n (fun d => (d != 0%N) && (n <= d)%N) (prog ords) out) ->
  party_yields n true prog out.
Proof.
move=> n0 S H ords d f ms Ho d0 /(_ isT) nd.
apply: (king_party_schedules (dok := fun d => (d != 0%N) && (n <= d)%N)) => //.
- by rewrite -lt0n n0 /=.
- by rewrite d0.
exact: H.
Qed.

Section Compute.
Variable F : fftField.
Variables (dbg : bool) (pp : pss F) (ok : pp_ok pp).
Variables (T : lmodType F) (cT : codec T) (mb : nat).
Hypothesis cok : codec_ok cT mb.
  Local Notation l := (p_l pp).
  Local Notation n := (p_n pp).
  Local Notation alone := (fun d => (d != 0%N) && (n <= d)%N).

(** what a multi-scalar multiplication gives if the parties use any vectors *)
Definition msm_value (bases : nat -> seq T) (scalars : nat -> seq F) m : T :=
  \sum_(j < l) interpolated pp (products bases scalars m) j.

Lemma compute_any (L N K : T) x' (x : nat -> F) (S : nat -> seq T) (a : nat -> seq F) masks m :
  msm_ok pp masks -> (forall p, (p < n)%N -> size (S p) = m) ->
  (forall p, (p < n)%N -> size (a p) = m) -> ~~ (dbg && (imbalance pp (products S a m) != 0)) ->
  regular pp (U := Fm F) (2 * l) x x' ->
  exists out : nat -> T, regular pp (2 * l) out (L + x' *: N + msm_value S a m + K) /\
    forall ord, hash_ok ord -> king_prog n alone
      (fun p => do! prod := d_msm dbg pp n p ord cT (S p) (a p) (masks p) in
                clift (Ok (L + x p *: N + prod + K))) out.
Proof.
move=> Hm sS sa bal Hx; have l0 := pp_l_gt0 ok.
have [prod [Hprod Hp]] := d_msm_any ok cok Hm sS sa bal.
exists (fun p => L + x p *: N + prod p + K); split.
  have c0 : (0 < 2 * l)%N by lia.
  have Hs : regular pp (2 * l) (fun p => x p *: N) (x' *: N).
    have := regular_scale (ltn0Sn 0) Hx (regular_const pp N (ltn0Sn 0)).
    by rewrite addn1.
  exact: (regular_add (regular_add (regular_add (regular_const pp L c0) Hs) Hprod) (regular_const pp K c0)).
move=> ord Ho; apply: king_prog_bind (Hp ord Ho) _; first exact: n_gt0'.
exact: KP_ret.
Qed.

Lemma compute_C_any (A B : nat -> T) (M : T) (s r : nat -> F) (W U : nat -> seq T)
    (ax h : nat -> seq F) (m0 m1 : nat -> msm_mask T) mw mu sU sh A' B' s' r' :
  msm_ok pp m0 -> msm_ok pp m1 ->
  (forall p, (p < n)%N -> size (W p) = mw) -> (forall p, (p < n)%N -> size (ax p) = mw) ->
  ~~ (dbg && (imbalance pp (products W ax mw) != 0)) ->
  vsharing pp (2 * l) mu U sU -> vsharing (T := Fm F) pp (2 * l) mu h sh ->
  regular pp (2 * l) A A' -> regular pp (2 * l) B B' ->
  regular pp (U := Fm F) (2 * l) s s' -> regular pp (U := Fm F) (2 * l) r r' ->
  exists out : nat -> T, regular pp (4 * l - 1) out
      (s' *: A' + r' *: B' - (r' * s') *: M + msm_value W ax mw + inner pp mu sU sh) /\
    forall ords : nat -> hash_order, (forall i, hash_ok (ords i)) ->
     king_party n alone
      (fun p => compute_C dbg pp n p cT (A p) (B p) M (s p) (r p) (W p) (U p) (ax p) (h p) ords
                          [:: m0 p; m1 p]) out.
Proof.
move=> Hm0 Hm1 sW sax bal HU Hh HA HB Hs Hr; have l0 := pp_l_gt0 ok; have c0 : (0 < 2 * l)%N by lia.
have [w [Hw Pw]] := d_msm_any ok cok Hm0 sW sax bal.
have [u [Hu Pu]] := d_msm_prog ok cok dbg Hm1 HU Hh.
have Ed : (2 * l + 2 * l).-1 = (4 * l - 1)%N by lia.
have le_d : (2 * l <= 4 * l - 1)%N by lia.
exists (fun p => s p *: A p + r p *: B p - (r p * s p) *: M + w p + u p); split.
  have H1 := regular_scale c0 Hs HA; have H2 := regular_scale c0 Hr HB.
  have H3 := regular_scale (T := Fm F) c0 Hr Hs.
  have H4 := regular_scale (ltn0Sn 0) H3 (regular_const pp M (ltn0Sn 0)).
  rewrite addn1 [_.+1.-1]/= in H4; rewrite Ed in H1 H2 H4.
  exact: (regular_add (regular_add (regular_add (regular_add H1 H2) (regular_opp H4))
    (regular_widen le_d Hw)) (regular_widen le_d Hu)).
move=> ords Ho; apply: (king_party_bind (v1 := fun p => [:: w p; u p])); first exact: n_gt0'.
  apply: (@PP_join _ _ _ _ _ _ [:: 0%N; 1%N]
    (fun p j => if j is 0%N then d_msm dbg pp n p (ords 0%N) cT (W p) (ax p) (m0 p)
                else d_msm dbg pp n p (ords 1%N) cT (U p) (h p) (m1 p))
    (fun p j => if j is 0%N then w p else u p) (fun p rs => PRet (Ok rs))) => //.
    case=> [|j] _; first exact: Pw.
    by apply: king_prog_dok (Pu _ _) => // d /andP[].
  exact: PP_ret.
exact: PP_ret.
Qed.

End Compute.

(** the prover, given what [circom_h] returns *)
Lemma prover_any (F : fftField) (T1 T2 : lmodType F) dbg lam b (pp : pss F)
    (cF : codec F) (c1 : codec T1) (c2 : codec T2) mb1 mb2
    (pk : proving_key T1 T2) (nz ni : nat) (q : nat -> qap_t F)
    k0 crs (a ax h : nat -> seq F) (hv : seq F)
    (fm : nat -> seq (fft_mask F)) dm (g1 : T1) g1m (g2 : T2) g2m
    (rsh ssh : seq F) (r s : F) (rs : nat -> rng F) :
  pss_new F dbg (2 ^ lam) = Ok pp ->
  codec_ok c1 mb1 -> codec_ok c2 mb2 -> (2 ^ b < 256 ^ 8)%N ->
  (* the key belongs to a circuit with [nz] variables, [ni] of them public *)
  (0 < ni <= nz)%N -> size (a_query pk) = nz -> size (b_g1_query pk) = nz ->
  size (b_g2_query pk) = nz -> size (l_query pk) = (nz - ni)%N ->
  (2 ^ (b + lam) - 2 ^ lam < size (h_query pk) <= 2 ^ (b + lam))%N ->
  (* the dealer *)
  pack_key dbg pp pk = Ok crs ->
  (* the shares of the quotient *)
  size hv = (2 ^ (b + lam))%N ->
  vsharing (T := Fm F) pp (2 * 2 ^ lam) (2 ^ b) h (blocks (T := Fm F) pp hv) ->
  (forall ords, (forall i, hash_ok (ords i)) ->
     king_party (p_n pp) (fun d => (d != 0%N) && (p_n pp <= d)%N)
       (fun p => circom_h dbg pp (p_n pp) p ords cF (q p) (fm p) (dm p) rs) h) ->
  (forall i, (i < 4)%N -> msm_masks dbg pp g1 (fun p => nth (msm_mask_zero T1) (g1m p) i)) ->
  msm_masks dbg pp g2 g2m ->
  sharing (T := Fm F) pp (2 * 2 ^ lam) rsh (nseq (2 ^ lam) r) ->
  sharing (T := Fm F) pp (2 * 2 ^ lam) ssh (nseq (2 ^ lam) s) ->
  (forall p, (p < p_n pp)%N -> rsh`_p = 0) \/ (forall p, (p < p_n pp)%N -> rsh`_p != 0) ->
  (* what the parties use as witness shares *)
  let m := div_ceil (nz - 1) (2 ^ lam) in let mx := div_ceil (nz - ni) (2 ^ lam) in
  (forall p, (p < p_n pp)%N -> size (a p) = m) -> (forall p, (p < p_n pp)%N -> size (ax p) = mx) ->
  let yA := products (fun p => k_s (nth k0 crs p)) a m in
  let yB1 := products (fun p => k_h (nth k0 crs p)) a m in
  let yB := products (fun p => k_v (nth k0 crs p)) a m in
  let yW := products (fun p => k_w (nth k0 crs p)) ax mx in
  (dbg -> [/\ imbalance pp yA = 0, rsh`_0 != 0 -> imbalance pp yB1 = 0, imbalance pp yB = 0 &
              imbalance pp yW = 0]) ->
  exists out : nat -> T1 * T2 * T1,
    party_yields (p_n pp) true (fun ords p =>
      dsha256 dbg pp (p_n pp) p cF c1 c2 (nth k0 crs p) (q p) (a p) (ax p)
              rsh`_p ssh`_p (fm p) (dm p) (g1m p) (g2m p) ords rs) out /\
    let A := pk_alpha_g1 pk + (a_query pk)`_0 + \sum_(j < 2 ^ lam) interpolated pp yA j
             + r *: pk_delta_g1 pk in
    let B1 := pk_beta_g1 pk + (b_g1_query pk)`_0 + \sum_(j < 2 ^ lam) interpolated pp yB1 j
             + s *: pk_delta_g1 pk in
    let B := pk_beta_g2 pk + (b_g2_query pk)`_0 + \sum_(j < 2 ^ lam) interpolated pp yB j
             + s *: pk_delta_g2 pk in
    let C := s *: A + r *: B1 - (r * s) *: pk_delta_g1 pk
             + \sum_(j < 2 ^ lam) interpolated pp yW j
             + \sum_(i < 2 ^ (b + lam)) hv`_i *: (h_query pk)`_i in
    collect_proof dbg pp (mkseq out (p_n pp)) = Ok (A, B, C).
Proof.
set N := (2 ^ (b + lam))%N.
move=> new cok1 cok2 m_small Hni sA sB1 sB2 sL sH.
move=> Ecrs shv Hh Ph M4 M5 Hr Hs Hz m mx sa sax yA yB1 yB yW bal.
have ok := pss_new_ok new; have El := pss_new_l new; have l0 := pp_l_gt0 ok; have n0 := n_gt0 new.
have En := ppn ok.
have nobal (b1 b2 : bool) : (dbg -> b1 -> b2) -> b1 -> ~~ (dbg && ~~ b2).
  by case: (dbg) => // /(_ isT) H /H ->.
have balA : ~~ (dbg && (imbalance pp yA != 0)) by apply: (nobal true) => // /bal[-> *].
have balB : ~~ (dbg && (imbalance pp yB != 0)) by apply: (nobal true) => // /bal[_ _ -> *].
have balW : ~~ (dbg && (imbalance pp yW != 0)) by apply: (nobal true) => // /bal[_ _ _ -> *].
have balB1 : rsh`_0 != 0 -> ~~ (dbg && (imbalance pp yB1 != 0)).
  by apply: nobal => /bal[_ H _ _] /H ->.
(* the key *)
have z0 : (0 < nz)%N by lia.
have [out_k [Ek [[KS KH KV] KU KW K0 Kv]]] :
    exists out, crs = mkseq out (p_n pp) /\ packed_key pp pk out.
  have [||||out [E H]] := c38_pack_key (pk := pk) new; rewrite ?sA ?sB1 ?sB2 //.
    move=> Hd; apply/idPn => nd; rewrite Hd in Ecrs new.
    by rewrite (c38_debug_panic new nd) in Ecrs.
  by exists out; split=> //; rewrite E in Ecrs; have := Ok_inj Ecrs.
rewrite !size_drop !(sA, sB1, sB2, sL) in KS KH KV KU KW.
rewrite El -/m -/mx in KS KH KV KW; rewrite -El in KS KH KV KW.
have ED : div_ceil (size (h_query pk)) (p_l pp) = (2 ^ b)%N.
  apply: div_ceil_le => //; rewrite El -expnD -/N; first by case/andP: sH.
  by case/andP: sH => H1 H2; rewrite /N in H1 H2 *; lia.
rewrite ED in KU.
have Ecr p : (p < p_n pp)%N -> nth k0 crs p = out_k p by move=> lp; rewrite Ek nth_mkseq.
rewrite -El in Hh.
(* A, B1, B2 *)
have Hr' := regularP El Hr; have Hs' := regularP El Hs; rewrite -El in Hr' Hs'.
have szS p : (p < p_n pp)%N -> size (k_s (nth k0 crs p)) = m.
  by move=> lp; rewrite Ecr //; apply: (proj1 KS).
have szH p : (p < p_n pp)%N -> size (k_h (nth k0 crs p)) = m.
  by move=> lp; rewrite Ecr //; apply: (proj1 KH).
have szV p : (p < p_n pp)%N -> size (k_v (nth k0 crs p)) = m.
  by move=> lp; rewrite Ecr //; apply: (proj1 KV).
have szW p : (p < p_n pp)%N -> size (k_w (nth k0 crs p)) = mx.
  by move=> lp; rewrite Ecr //; apply: (proj1 KW).
have [oA [HA PA]] := compute_any ok cok1 (a_query pk)`_0 (pk_delta_g1 pk) (pk_alpha_g1 pk)
  (msm_masks_ok new (M4 0%N isT)) szS sa balA Hr'.
have [oB2 [HB2 PB2]] := compute_any ok cok2 (b_g2_query pk)`_0 (pk_delta_g2 pk) (pk_beta_g2 pk)
  (msm_masks_ok new M5) szV sa balB Hs'.
have swap (T : lmodType F) (L X I K : T) : L + X + I + K = K + L + I + X.
  by rewrite addrC !addrA addrAC.
rewrite swap /msm_value in HA; rewrite swap /msm_value in HB2.
set vA := (X in regular _ _ _ X) in HA.
set vB2 := (X in regular _ _ _ X) in HB2.
(* B1 as computed *)
pose vB := pk_beta_g1 pk + (b_g1_query pk)`_0 + \sum_(j < p_l pp) interpolated pp yB1 j + s *: pk_delta_g1 pk.
have [oB' [vB' [HB' EB' PB']]] : exists oB' vB', [/\ regular pp (2 * p_l pp) oB' vB', r *: vB' = r *: vB &
    forall ord, hash_ok ord -> king_prog (p_n pp) (fun d => (d != 0%N) && (p_n pp <= d)%N) (fun p =>
      compute_B1 dbg pp (p_n pp) p c1 (b_g1_query pk)`_0 (pk_delta_g1 pk) (pk_beta_g1 pk)
        (k_h (nth k0 crs p)) (a p) ssh`_p rsh`_p ord (nth (msm_mask_zero T1) (g1m p) 1)) oB'].
  case: Hz => Hz.
    have r0 : r = 0.
      have le : (2 * p_l pp <= p_n pp)%N by rewrite En; lia.
      exact: (regular_zero ok (T := Fm F) le Hz Hr').
    exists (fun=> 0), 0; split; [exact: shared0|by rewrite r0 !scale0r|].
    by move=> ord _; apply: KP_ret => p lt_p; rewrite /compute_B1 Hz // eqxx.
  have [oB [HB PB]] := compute_any ok cok1 (b_g1_query pk)`_0 (pk_delta_g1 pk) (pk_beta_g1 pk)
    (msm_masks_ok new (M4 1%N isT)) szH sa (balB1 (Hz _ n0)) Hs'.
  rewrite swap /msm_value in HB; exists oB, vB; split=> // ord Ho.
  apply: king_prog_ext (PB _ Ho) => // p lt_p.
  by rewrite /compute_B1 (negbTE (Hz p lt_p)).
have [oC [HC PC]] := compute_C_any ok cok1 (pk_delta_g1 pk) (msm_masks_ok new (M4 2%N isT))
  (msm_masks_ok new (M4 3%N isT)) szW sax balW KU Hh HA HB' Hs' Hr'.
exists (fun p => (oA p, oB2 p, oC p)); split.
  apply: party_yields_any => //; first by move=> *; apply: separate_dsha256.
  move=> ords Hords.
  apply: (@king_party_ext _ _ _ _ (fun p =>
    pbind (circom_h dbg pp (p_n pp) p ords cF (q p) (fm p) (dm p) rs) (fun hp =>
    pbind (pthread 0 (compute_A dbg pp (p_n pp) p c1 (a_query pk)`_0 (pk_delta_g1 pk)
                 (pk_alpha_g1 pk) (k_s (nth k0 crs p)) (a p) rsh`_p (ords 7%N)
                 (nth (msm_mask_zero T1) (g1m p) 0))) (fun pa =>
    pbind (pthread 0 (compute_B1 dbg pp (p_n pp) p c1 (b_g1_query pk)`_0 (pk_delta_g1 pk)
                 (pk_beta_g1 pk) (k_h (nth k0 crs p)) (a p) ssh`_p rsh`_p (ords 8%N)
                 (nth (msm_mask_zero T1) (g1m p) 1))) (fun pb1 =>
    pbind (pthread 0 (compute_B2 dbg pp (p_n pp) p c2 (b_g2_query pk)`_0 (pk_delta_g2 pk)
                 (pk_beta_g2 pk) (k_v (nth k0 crs p)) (a p) ssh`_p (ords 9%N) (g2m p))) (fun pb2 =>
    pbind (compute_C dbg pp (p_n pp) p c1 pa pb1 (pk_delta_g1 pk) ssh`_p rsh`_p (k_w (nth k0 crs p))
                 (k_u (out_k p)) (ax p) hp (fun i => ords (10 + i)%N)
                 [:: nth (msm_mask_zero T1) (g1m p) 2; nth (msm_mask_zero T1) (g1m p) 3]) (fun pc =>
    PRet (Ok (pa, pb2, pc))))))))) => //.
    move=> p lt_p; rewrite Ecr // /dsha256.
    by have [-> -> ->] := K0 p; have [-> -> -> -> ->] := Kv p.
  apply: (king_party_bind (v1 := h)) => //.
    exact: Ph.
  apply: (king_party_bind (v1 := oA)) => //; first by apply: pthread_party; apply: PA.
  apply: (king_party_bind (v1 := oB')) => //.
    by apply: pthread_party; apply: PB'.
  apply: (king_party_bind (v1 := oB2)) => //; first by apply: pthread_party; apply: PB2.
  apply: (king_party_bind (v1 := oC)) => //; last exact: PP_ret.
  by apply: PC => i; apply: Hords.
have le_2 : (2 * p_l pp + dbg <= p_n pp)%N by rewrite En; have := leq_b1 dbg; lia.
have le_4 : (4 * p_l pp - 1 + dbg <= p_n pp)%N by rewrite En; have := leq_b1 dbg; lia.
rewrite /collect_proof -!map_comp /= -!/(mkseq _ _).
rewrite (regular_reconstruct ok le_2 HA) [rbind (Ok _) _]/= (regular_reconstruct ok le_2 HB2).
rewrite [rbind (Ok _) _]/= (regular_reconstruct ok le_4 HC) EB' [rbind (Ok _) _]/=.
by rewrite /vA /vB /vB2 /msm_value El (@inner_sum _ _ _ _ _ _ N) ?shv // El -expnD.
Qed.

(*** theorems ***)

(** C78: the prover on any witness shares.  The key, the QAP and the randomness are shared as in C39;
    the vectors [a] and [ax] of the parties are arbitrary, of the right lengths, and nobody crashes.
    In release builds all parties finish and the client obtains a proof: the inner products with the
    witness are replaced by what the products of the parties interpolate to, summed over the slots.
    The same holds in debug builds if the products are balanced. *)
Lemma c78_prover (F : fftField) (T1 T2 : lmodType F) dbg lam b (pp : pss F) dom d2
    (cF : codec F) (c1 : codec T1) (c2 : codec T2) mb mb1 mb2
    (pk : proving_key T1 T2) (nz ni : nat) (q : qap_t F)
    (rq : rng F) k0 crs (a ax : nat -> seq F) qs
    (fm : nat -> seq (fft_mask F)) (gen : F) dm (g1 : T1) g1m (g2 : T2) g2m
    (rsh ssh : seq F) (r s : F) (rs : nat -> rng F) :
  pss_new F dbg (2 ^ lam) = Ok pp -> domain_new F (2 ^ (b + lam)) = Some dom ->
  domain_new F (2 * 2 ^ (b + lam)) = Some d2 ->
  codec_ok cF mb -> codec_ok c1 mb1 -> codec_ok c2 mb2 -> (2 ^ b < 256 ^ 8)%N ->
  (* the key belongs to a circuit with [nz] variables, [ni] of them public *)
  (0 < ni <= nz)%N -> size (a_query pk) = nz -> size (b_g1_query pk) = nz ->
  size (b_g2_query pk) = nz -> size (l_query pk) = (nz - ni)%N ->
  (2 ^ (b + lam) - 2 ^ lam < size (h_query pk) <= 2 ^ (b + lam))%N ->
  size (q_a q) = (2 ^ (b + lam))%N -> size (q_b q) = (2 ^ (b + lam))%N ->
  size (q_c q) = (2 ^ (b + lam))%N -> q_domain q = dom ->
  (* the dealer *)
  pack_key dbg pp pk = Ok crs -> qap_pss dbg pp q rq = Ok qs ->
  (forall i, (i < 3)%N -> fft_masks dbg pp true (d_gen d2) (d_gen_inv dom) (2 ^ (b + lam))
                            (fun p => nth (no_mask F) (fm p) i)) ->
  (forall i, (3 <= i < 6)%N -> fft_masks dbg pp false 1 (d_gen dom) (2 ^ (b + lam))
                            (fun p => nth (no_mask F) (fm p) i)) ->
  degred_masks dbg pp (gen : Fm F) (2 ^ b) dm ->
  (forall i, (i < 4)%N -> msm_masks dbg pp g1 (fun p => nth (msm_mask_zero T1) (g1m p) i)) ->
  msm_masks dbg pp g2 g2m ->
  sharing (T := Fm F) pp (2 * 2 ^ lam) rsh (nseq (2 ^ lam) r) ->
  sharing (T := Fm F) pp (2 * 2 ^ lam) ssh (nseq (2 ^ lam) s) ->
  (forall p, (p < p_n pp)%N -> rsh`_p = 0) \/ (forall p, (p < p_n pp)%N -> rsh`_p != 0) ->
  (* what the parties use as witness shares *)
  let m := div_ceil (nz - 1) (2 ^ lam) in let mx := div_ceil (nz - ni) (2 ^ lam) in
  (forall p, (p < p_n pp)%N -> size (a p) = m) -> (forall p, (p < p_n pp)%N -> size (ax p) = mx) ->
  let yA := products (fun p => k_s (nth k0 crs p)) a m in
  let yB1 := products (fun p => k_h (nth k0 crs p)) a m in
  let yB := products (fun p => k_v (nth k0 crs p)) a m in
  let yW := products (fun p => k_w (nth k0 crs p)) ax mx in
  (dbg -> [/\ imbalance pp yA = 0, rsh`_0 != 0 -> imbalance pp yB1 = 0, imbalance pp yB = 0 &
              imbalance pp yW = 0]) ->
  exists (QA QB QC : {poly F}) (out : nat -> T1 * T2 * T1), [/\
    [/\ interpolates (d_gen dom) (2 ^ (b + lam)) (q_a q) QA,
        interpolates (d_gen dom) (2 ^ (b + lam)) (q_b q) QB &
        interpolates (d_gen dom) (2 ^ (b + lam)) (q_c q) QC],
    (2 * 2 ^ (b + lam))%N.-primitive_root (d_gen d2), d_gen d2 ^+ 2 = d_gen dom,
    party_yields (p_n pp) true (fun ords p =>
      dsha256 dbg pp (p_n pp) p cF c1 c2 (nth k0 crs p) (nth q qs p) (a p) (ax p)
              rsh`_p ssh`_p (fm p) (dm p) (g1m p) (g2m p) ords rs) out &
    let A := pk_alpha_g1 pk + (a_query pk)`_0 + \sum_(j < 2 ^ lam) interpolated pp yA j
             + r *: pk_delta_g1 pk in
    let B1 := pk_beta_g1 pk + (b_g1_query pk)`_0 + \sum_(j < 2 ^ lam) interpolated pp yB1 j
             + s *: pk_delta_g1 pk in
    let B := pk_beta_g2 pk + (b_g2_query pk)`_0 + \sum_(j < 2 ^ lam) interpolated pp yB j
             + s *: pk_delta_g2 pk in
    let C := s *: A + r *: B1 - (r * s) *: pk_delta_g1 pk
             + \sum_(j < 2 ^ lam) interpolated pp yW j
             + \sum_(i < 2 ^ (b + lam)) (QA * QB - QC).[d_gen d2 ^+ (2 * i + 1)] *: (h_query pk)`_i in
    collect_proof dbg pp (mkseq out (p_n pp)) = Ok (A, B, C)].
Proof.
move=> new Edom Ed2 cok cok1 cok2 m_small Hni sA sB1 sB2 sL sH sqa sqb sqc Eq.
move=> Ecrs Eqs M1 M2 M3 M4 M5 Hr Hs Hz m mx sa sax yA yB1 yB yW bal.
have ok := pss_new_ok new; have El := pss_new_l new; have l0 := pp_l_gt0 ok.
have [xa [xb [xc [Eqs' Hxa Hxb Hxc]]]] := qap_pssP ok El dbg rq sqa sqb sqc.
have {Eqs'} Eqs : qs = mkseq (fun p => Qap (num_inputs q) (num_constraints q)
  (xa p) (xb p) (xc p) (q_domain q)) (p_n pp) by rewrite Eqs' in Eqs; have := Ok_inj Eqs.
have le2 : (2 * p_l pp <= 4 * 2 ^ lam - 1)%N by rewrite -El; lia.
pose qp p := Qap (num_inputs q) (num_constraints q) (xa p) (xb p) (xc p) (q_domain q).
have [QA [QB [QC [h [HQ prw Ew Hh Ph]]]]] := circom_party (q := qp) rs new Edom Ed2 cok m_small
  le2 M1 M2 M3 sqa sqb sqc (fun p _ => Eq) Hxa Hxb Hxc.
have Ph' ords : (forall i, hash_ok (ords i)) ->
    king_party (p_n pp) (fun d => (d != 0%N) && (p_n pp <= d)%N)
      (fun p => circom_h dbg pp (p_n pp) p ords cF (nth q qs p) (fm p) (dm p) rs) h.
  move=> Ho; apply: king_party_ext (king_party_dok _ (Ph _ Ho)) => [|p lp|d /andP[] //].
    exact: n_gt0 new.
  by rewrite Eqs nth_mkseq.
have [out [Hy Hc]] := prover_any new cok1 cok2 m_small Hni sA sB1 sB2 sL sH Ecrs (size_mkseq _ _) Hh Ph'
  M4 M5 Hr Hs Hz sa sax bal.
exists QA, QB, QC, out; split=> //; rewrite Hc /=.
by rewrite (eq_bigr (fun i : 'I_(2 ^ (b + lam)) =>
  (QA * QB - QC).[d_gen d2 ^+ (2 * i + 1)] *: (h_query pk)`_i)) // => i _; rewrite nth_mkseq.
Qed.

(** C78: what the client obtains if party [q] returns [v].  The client of a release build obtains a
    proof with the errors multiplied by the weight of [q]; that of a debug build panics. *)
Lemma c78_client (F : fftField) (T1 T2 : lmodType F) lam (pp : pss F) (out : nat -> T1 * T2 * T1)
    proof q v :
  pss_new F false (2 ^ lam) = Ok pp -> (q < p_n pp)%N ->
  collect_proof false pp (mkseq out (p_n pp)) = Ok proof ->
  let w := weight pp q 0 in
  collect_proof false pp (mkseq (replaced out q v) (p_n pp)) =
  Ok (proof.1.1 + w *: (v.1.1 - (out q).1.1), proof.1.2 + w *: (v.1.2 - (out q).1.2),
      proof.2 + w *: (v.2 - (out q).2)) /\
  (ff_generator F ^+ p_n pp != 1 -> w != 0).
Proof.
move=> new lq; have ok := pss_new_ok new; have l0 := pp_l_gt0 ok.
have rec (T : lmodType F) (y : nat -> T) :
    reconstruct false pp (mkseq y (p_n pp)) = Ok (interpolated pp y 0).
  by rewrite /reconstruct (unpack2_any ok) /= (vget_nth 0) ?size_mkseq // nth_mkseq.
have col (o : nat -> T1 * T2 * T1) : collect_proof false pp (mkseq o (p_n pp)) =
    Ok (interpolated pp (fun p => (o p).1.1) 0, interpolated pp (fun p => (o p).1.2) 0,
        interpolated pp (fun p => (o p).2) 0).
  by rewrite /collect_proof -!map_comp -!/(mkseq _ _) !rec.
rewrite !col => E w; split; last exact: weight_neq0.
have <- := Ok_inj E; rewrite [RHS]/=.
have pr (T : lmodType F) (f : T1 * T2 * T1 -> T) : interpolated pp (fun p => f (replaced out q v p)) 0 =
    interpolated pp (fun p => f (out p)) 0 + w *: (f v - f (out q)).
  rewrite -(interpolated_replaced _ _ _ lq); apply: eq_interpolated => p _.
  by rewrite /replaced; case: ifP.
by rewrite (pr _ (fun x => x.1.1)) (pr _ (fun x => x.1.2)) (pr _ snd).
Qed.

Lemma c78_client_debug (F : fftField) (T1 T2 : lmodType F) lam (pp : pss F) (out : nat -> T1 * T2 * T1)
    proof q v :
  pss_new F true (2 ^ lam) = Ok pp -> (q < p_n pp)%N ->
  collect_proof true pp (mkseq out (p_n pp)) = Ok proof -> v != out q ->
  collect_proof true pp (mkseq (replaced out q v) (p_n pp)) = Panic.
Proof.
move=> new lq; have ok := pss_new_ok new; have l0 := pp_l_gt0 ok.
have rec (T : lmodType F) (y : nat -> T) : reconstruct true pp (mkseq y (p_n pp)) =
    if imbalance pp y == 0 then Ok (interpolated pp y 0) else Panic.
  rewrite /reconstruct (unpack2_any ok) /=; case: (imbalance pp y == 0) => //=.
  by rewrite (vget_nth 0) ?size_mkseq // nth_mkseq.
have sp0 := share_pt_neq0 ok q.
have pr (T : lmodType F) (f : T1 * T2 * T1 -> T) : imbalance pp (fun p => f (out p)) = 0 ->
    (imbalance pp (fun p => f (replaced out q v p)) == 0) = (f v == f (out q)).
  move=> b0; rewrite (eq_imbalance (y' := replaced (fun p => f (out p)) q (f v))); last first.
    by move=> p _; rewrite /replaced; case: ifP.
  by rewrite imbalance_replaced // b0 add0r scaler_eq0 (negbTE sp0) subr_eq0.
rewrite /collect_proof -!map_comp -!/(mkseq _ _) !rec.
case: eqP => // bA; case: eqP => // bB; case: eqP => // bC _.
rewrite (pr _ (fun x => x.1.1) bA) (pr _ (fun x => x.1.2) bB) (pr _ snd bC) => nv.
case: eqP => //= eA; case: eqP => //= eB; case: eqP => //= eC.
by case/negP: nv; apply/eqP; case: (v) (out q) eA eB eC => [[? ?] ?] [[? ?] ?] /= -> -> ->.
Qed.

(** C78: the verdict on a proof that differs from an accepted one. *)
Lemma c78_verdict (F : fftField) (T1 T2 T3 : lmodType F) (e : T1 -> T2 -> T3) vk public
    (A dA : T1) (B dB : T2) (C dC : T1) :
  bilinear_map e -> accepts e vk public (A, B, C) ->
  (accepts e vk public (A + dA, B + dB, C + dC) <->
   e dA B + e A dB + e dA dB = e dC (vk_delta_g2 vk)).
Proof.
move=> [lin1 lin2] [Es E].
have D1 x x' y : e (x + x') y = e x y + e x' y by have := lin1 1 x x' y; rewrite !scale1r.
have D2 x y y' : e x (y + y') = e x y + e x y' by have := lin2 1 x y y'; rewrite !scale1r.
rewrite /accepts /= in E *; rewrite (D1 A dA) !D2 (D1 C dC) E.
move: (e (vk_alpha_g1 vk) _ + _) (e C _) (e dC _) => X Y Z.
have -> : X + Y + e A dB + (e dA B + e dA dB) = X + Y + (e dA B + e A dB + e dA dB).
  by rewrite -!addrA; congr (_ + (_ + _)); rewrite addrCA.
rewrite [X + (Y + Z)]addrA; split=> [[_ /addrI //]|->]; by split.
Qed.

(** C78: every single party can make the verifier reject, by adding anything to its share of C; all
    constraints of the circuit are satisfied and everybody else does what they should. *)
Lemma c78_denial (F : fftField) (T1 T2 T3 : lmodType F) (e : T1 -> T2 -> T3) lam b (pp : pss F) dom d2
    (cF : codec F) (c1 : codec T1) (c2 : codec T2) mb mb1 mb2
    (cs : r1cs F) (z : seq F) (alpha beta gamma delta t : F) (g1 : T1) (g2 : T2)
    rf (r1 : nat -> rng T1) (r2 : nat -> rng T2) gen1 gen2 test_rng (r s : F) (rs : nat -> rng F) i0 :
  bilinear_map e -> (forall x, e x g2 = 0 -> x = 0) ->
  pss_new F false (2 ^ lam) = Ok pp -> ff_generator F ^+ p_n pp != 1 -> (0 < b + lam)%N ->
  domain_new F (2 ^ (b + lam)) = Some dom -> domain_new F (2 * 2 ^ (b + lam)) = Some d2 ->
  codec_ok cF mb -> codec_ok c1 mb1 -> codec_ok c2 mb2 -> (2 ^ b < 256 ^ 8)%N ->
  well_formed cs (size z) -> z`_0 = 1 ->
  least_pow2 (cm_num_constraints (r1_matrices cs) + num_instance_variables (r1_matrices cs))
             (2 ^ (b + lam)) ->
  gamma != 0 -> delta != 0 ->
  satisfied cs z ->
  exists pk vk ins (out : nat -> T1 * T2 * T1) proof, [/\
    setup cs (size z) alpha beta gamma delta t g1 g2 = Ok (pk, vk),
    deal_inputs false pp rf r1 r2 gen1 gen2 test_rng pk (r1_matrices cs) z r s = Ok ins,
    party_yields (p_n pp) false
      (fun ords p => run_party false pp cF c1 c2 (nth i0 ins p) ords rs p) out,
    collect_proof false pp (mkseq out (p_n pp)) = Ok proof /\ accepts e vk (public_part cs z) proof &
    forall q x, (q < p_n pp)%N -> exists2 proof',
      collect_proof false pp (mkseq (replaced out q ((out q).1, (out q).2 + x)) (p_n pp)) = Ok proof' &
      (accepts e vk (public_part cs z) proof' <-> x = 0)].
Proof.
move=> bil ndg new gn bl0 Edom Ed2 cok cok1 cok2 m_small wf z0 least gamma0 delta0 sat.
have [pk [vk [ins [out [proof [H1 H2 H3 H4 H5]]]]]] := c57_accepted alpha beta t g1 g2 rf r1 r2
  gen1 gen2 test_rng r s rs i0 bil new bl0 Edom Ed2 cok cok1 cok2 m_small wf z0 least gamma0 delta0 sat.
exists pk, vk, ins, out, proof; split=> // q x lq.
have Evk : vk_delta_g2 vk = delta *: g2.
  have [? [? [? [? [E _ _ _]]]]] := setupP wf least bl0 Edom Ed2 alpha beta t g1 g2 gamma0 delta0.
  by rewrite E in H1; have := Ok_inj H1; case=> _ <-.
have [E /(_ gn) w0] := c78_client ((out q).1, (out q).2 + x) new lq H4.
have [lin1 lin2] := bil.
rewrite E /= !subrr !scaler0 [_ + x - _]addrC addKr; eexists; first by [].
case: (proof) H5 => [[A B] C] /= H5.
rewrite (c78_verdict _ _ _ bil H5) Evk.
have e01 y : e 0 y = 0 by have := lin1 1 0 0 y; rewrite !scale1r addr0 => /esym/eqP; rewrite -subr_eq0 addrK => /eqP.
have e02 y : e y 0 = 0 by have := lin2 1 y 0 0; rewrite !scale1r addr0 => /esym/eqP; rewrite -subr_eq0 addrK => /eqP.
have es y k : e y (k *: g2) = k *: e y g2 by have := lin2 k y g2 0; rewrite addr0 e02 addr0.
have ws k y y' : e (k *: y) y' = k *: e y y' by have := lin1 k y 0 y'; rewrite addr0 e01 addr0.
rewrite !e01 !e02 !addr0 es ws; split=> [/esym/eqP|->]; last by rewrite e01 !scaler0.
by rewrite !scaler_eq0 (negbTE delta0) (negbTE w0) /= => /eqP /ndg.
Qed.

(** a party that uses other scalars in an otherwise honest multi-scalar multiplication *)
Lemma msm_replaced (F : fftField) (T : lmodType F) (pp : pss F) m (bases : nat -> seq T) sb
    (scalars : nat -> seq F) ss q v : pp_ok pp ->
  vsharing pp (2 * p_l pp) m bases sb -> vsharing (T := Fm F) pp (2 * p_l pp) m scalars ss ->
  (q < p_n pp)%N ->
  \sum_(j < p_l pp) interpolated pp (products bases (replaced scalars q v) m) j =
  inner pp m sb ss + (\sum_(j < p_l pp) weight pp q j) *:
                     \sum_(e < m) (v`_e - (scalars q)`_e) *: (bases q)`_e.
Proof.
move=> ok /vsharingP[szb Hb] /vsharingP[szs Hs] lq; have En := ppn ok; have l0 := pp_l_gt0 ok.
have Hc : shared pp (p_n pp) (products bases scalars m) (fun j => \sum_(e < m) ss e j *: sb e j).
  have H e : (e < m)%N -> shared pp (p_n pp) (fun p => (scalars p)`_e *: (bases p)`_e)
                                             (fun j => ss e j *: sb e j).
    move=> le; have [c [sc E1 E2]] : shared pp (2 * p_l pp + 2 * p_l pp).-1
        (fun p => (scalars p)`_e *: (bases p)`_e) (fun j => ss e j *: sb e j).
      by apply: shared_mul (Hs e le) (Hb e le); rewrite muln_gt0.
    by exists c; split=> //; apply: leq_trans sc _; rewrite En; lia.
  have := @shared_sum _ _ pp (p_n pp) m (fun=> 1) _ _ H.
  by apply: shared_ext => i _; apply: eq_bigr => e _; rewrite scale1r.
set a := \sum_(e < m) _.
rewrite (eq_bigr (fun j : 'I_(p_l pp) => \sum_(e < m) ss e j *: sb e j + weight pp q j *: a)).
  by rewrite big_split /= scaler_suml /inner exchange_big.
move=> j _; rewrite (eq_interpolated (y' := replaced (products bases scalars m) q
                                     (\sum_(e < m) v`_e *: (bases q)`_e))); last first.
  by move=> p _; rewrite /products /replaced; case: eqP => [->|_].
rewrite interpolated_replaced // (interpolated_shared ok _ Hc) //; congr (_ + _ *: _).
by rewrite /a /products -sumrB; apply: eq_bigr => e _; rewrite scalerBl.
Qed.

(** C78: one party that uses other witness shares, everybody else has the shares of the witness [z].
    The client obtains the honest proof with errors [dA], [dB1], [dB], [dW] in the four inner
    products, all multiples of the sum of the weights of this party. *)
Lemma c78_one_party (F : fftField) (T1 T2 : lmodType F) lam b (pp : pss F) dom d2
    (cF : codec F) (c1 : codec T1) (c2 : codec T2) mb mb1 mb2
    (pk : proving_key T1 T2) (z : seq F) (ni : nat) (q : qap_t F)
    (ra rax rq : rng F) k0 crs a ax qs
    (fm : nat -> seq (fft_mask F)) (gen : F) dm (g1 : T1) g1m (g2 : T2) g2m
    (rsh ssh : seq F) (r s : F) (rs : nat -> rng F) u va vax :
  pss_new F false (2 ^ lam) = Ok pp -> domain_new F (2 ^ (b + lam)) = Some dom ->
  domain_new F (2 * 2 ^ (b + lam)) = Some d2 ->
  codec_ok cF mb -> codec_ok c1 mb1 -> codec_ok c2 mb2 -> (2 ^ b < 256 ^ 8)%N ->
  (* the key belongs to the circuit *)
  (0 < ni <= size z)%N -> size (a_query pk) = size z -> size (b_g1_query pk) = size z ->
  size (b_g2_query pk) = size z -> size (l_query pk) = (size z - ni)%N ->
  (2 ^ (b + lam) - 2 ^ lam < size (h_query pk) <= 2 ^ (b + lam))%N ->
  size (q_a q) = (2 ^ (b + lam))%N -> size (q_b q) = (2 ^ (b + lam))%N ->
  size (q_c q) = (2 ^ (b + lam))%N -> q_domain q = dom ->
  (* the dealer *)
  pack_key false pp pk = Ok crs -> pack_from_witness false pp (drop 1 z) ra = Ok a ->
  pack_from_witness false pp (drop ni z) rax = Ok ax -> qap_pss false pp q rq = Ok qs ->
  (forall i, (i < 3)%N -> fft_masks false pp true (d_gen d2) (d_gen_inv dom) (2 ^ (b + lam))
                            (fun p => nth (no_mask F) (fm p) i)) ->
  (forall i, (3 <= i < 6)%N -> fft_masks false pp false 1 (d_gen dom) (2 ^ (b + lam))
                            (fun p => nth (no_mask F) (fm p) i)) ->
  degred_masks false pp (gen : Fm F) (2 ^ b) dm ->
  (forall i, (i < 4)%N -> msm_masks false pp g1 (fun p => nth (msm_mask_zero T1) (g1m p) i)) ->
  msm_masks false pp g2 g2m ->
  sharing (T := Fm F) pp (2 * 2 ^ lam) rsh (nseq (2 ^ lam) r) ->
  sharing (T := Fm F) pp (2 * 2 ^ lam) ssh (nseq (2 ^ lam) s) ->
  (forall p, (p < p_n pp)%N -> rsh`_p = 0) \/ (forall p, (p < p_n pp)%N -> rsh`_p != 0) ->
  (* party [u] uses [va] and [vax] *)
  (u < p_n pp)%N -> size va = size (nth [::] a u) -> size vax = size (nth [::] ax u) ->
  let w := \sum_(j < 2 ^ lam) weight pp u j in
  let err (T : lmodType F) (bs : seq T) (v : seq F) (sh : seq (seq F)) : T :=
    w *: \sum_(e < size v) (v`_e - (nth [::] sh u)`_e) *: bs`_e in
  let dA := err T1 (k_s (nth k0 crs u)) va a in let dB1 := err T1 (k_h (nth k0 crs u)) va a in
  let dB := err T2 (k_v (nth k0 crs u)) va a in let dW := err T1 (k_w (nth k0 crs u)) vax ax in
  exists (QA QB QC : {poly F}) (out : nat -> T1 * T2 * T1), [/\
    [/\ interpolates (d_gen dom) (2 ^ (b + lam)) (q_a q) QA,
        interpolates (d_gen dom) (2 ^ (b + lam)) (q_b q) QB &
        interpolates (d_gen dom) (2 ^ (b + lam)) (q_c q) QC],
    (2 * 2 ^ (b + lam))%N.-primitive_root (d_gen d2), d_gen d2 ^+ 2 = d_gen dom,
    party_yields (p_n pp) true (fun ords p =>
      dsha256 false pp (p_n pp) p cF c1 c2 (nth k0 crs p) (nth q qs p)
              (replaced (nth [::] a) u va p) (replaced (nth [::] ax) u vax p)
              rsh`_p ssh`_p (fm p) (dm p) (g1m p) (g2m p) ords rs) out &
    let A := pk_alpha_g1 pk + (a_query pk)`_0 + \sum_(1 <= i < size z) z`_i *: (a_query pk)`_i
             + r *: pk_delta_g1 pk in
    let B1 := pk_beta_g1 pk + (b_g1_query pk)`_0 + \sum_(1 <= i < size z) z`_i *: (b_g1_query pk)`_i
             + s *: pk_delta_g1 pk in
    let B := pk_beta_g2 pk + (b_g2_query pk)`_0 + \sum_(1 <= i < size z) z`_i *: (b_g2_query pk)`_i
             + s *: pk_delta_g2 pk in
    let C := s *: A + r *: B1 - (r * s) *: pk_delta_g1 pk
             + \sum_(i < size z - ni) z`_(ni + i) *: (l_query pk)`_i
             + \sum_(i < 2 ^ (b + lam)) (QA * QB - QC).[d_gen d2 ^+ (2 * i + 1)] *: (h_query pk)`_i in
    collect_proof false pp (mkseq out (p_n pp)) =
    Ok (A + dA, B + dB, C + (s *: dA + r *: dB1 + dW))].
Proof.
move=> new Edom Ed2 cok cok1 cok2 m_small Hni sA sB1 sB2 sL sH sqa sqb sqc Eq.
move=> Ecrs Ea Eax Eqs M1 M2 M3 M4 M5 Hr Hs Hz lu sva svax w err dA dB1 dB dW.
have ok := pss_new_ok new; have El := pss_new_l new; have l0 := pp_l_gt0 ok; have n0 := n_gt0 new.
have z0 : (0 < size z)%N by lia.
have [out_k [Ek [[KS KH KV] _ KW _ _]]] :
    exists out, crs = mkseq out (p_n pp) /\ packed_key pp pk out.
  have [||||out [E H]] := c38_pack_key (pk := pk) new; rewrite ?sA ?sB1 ?sB2 //.
  by exists out; split=> //; rewrite E in Ecrs; have := Ok_inj Ecrs.
rewrite !size_drop !(sA, sB1, sB2, sL) in KS KH KV KW.
have [oa [Ea' Ha]] := witness_columns ok false (drop 1 z) ra; rewrite size_drop in Ha.
have [oax [Eax' Hax]] := witness_columns ok false (drop ni z) rax; rewrite size_drop in Hax.
have {Ea} Ea : a = mkseq oa (p_n pp) by rewrite Ea' in Ea; have := Ok_inj Ea.
have {Eax} Eax : ax = mkseq oax (p_n pp) by rewrite Eax' in Eax; have := Ok_inj Eax.
have ext (T : lmodType F) d m (x x' : nat -> seq T) g : (forall p, (p < p_n pp)%N -> x' p = x p) ->
    vsharing pp d m x g -> vsharing pp d m x' g.
  by move=> E; apply: vsharing_ext => // p /E.
have {Ha} Ha : vsharing (T := Fm F) pp (2 * p_l pp) (div_ceil (size z - 1) (p_l pp)) (nth [::] a)
    (blocks (T := Fm F) pp (drop 1 z)).
  by apply: ext Ha => p lp; rewrite Ea nth_mkseq.
have {Hax} Hax : vsharing (T := Fm F) pp (2 * p_l pp) (div_ceil (size z - ni) (p_l pp)) (nth [::] ax)
    (blocks (T := Fm F) pp (drop ni z)).
  by apply: ext Hax => p lp; rewrite Eax nth_mkseq.
have Ecr p : (p < p_n pp)%N -> nth k0 crs p = out_k p by move=> lp; rewrite Ek nth_mkseq.
have {KS} KS := ext _ _ _ _ _ _ (fun p lp => congr1 (@k_s _ _ _) (Ecr p lp)) KS.
have {KH} KH := ext _ _ _ _ _ _ (fun p lp => congr1 (@k_h _ _ _) (Ecr p lp)) KH.
have {KV} KV := ext _ _ _ _ _ _ (fun p lp => congr1 (@k_v _ _ _) (Ecr p lp)) KV.
have {KW} KW := ext _ _ _ _ _ _ (fun p lp => congr1 (@k_w _ _ _) (Ecr p lp)) KW.
have szu : size (nth [::] a u) = div_ceil (size z - 1) (p_l pp) := proj1 Ha u lu.
have szx : size (nth [::] ax u) = div_ceil (size z - ni) (p_l pp) := proj1 Hax u lu.
have sa := size_replaced (T := Fm F) u (proj1 Ha) (etrans sva szu).
have sx := size_replaced (T := Fm F) u (proj1 Hax) (etrans svax szx).
rewrite El in sa sx.
have [] // := c78_prover (k0 := k0) rs new Edom Ed2 cok cok1 cok2 m_small Hni sA sB1 sB2 sL sH sqa sqb sqc Eq
  Ecrs Eqs M1 M2 M3 M4 M5 Hr Hs Hz sa sx.
move=> QA [QB [QC [out [HQ pr Ew Hy Hc]]]].
exists QA, QB, QC, out; split=> //; rewrite Hc {Hc Hy}.
rewrite -El (msm_replaced va ok KS Ha lu) (msm_replaced va ok KH Ha lu) (msm_replaced va ok KV Ha lu).
rewrite (msm_replaced vax ok KW Hax lu).
have sum (T : lmodType F) (v : seq T) :
    inner pp (div_ceil (size z - 1) (p_l pp)) (blocks pp (drop 1 v))
          (blocks (T := Fm F) pp (drop 1 z)) = \sum_(1 <= i < size z) z`_i *: v`_i.
  rewrite (@inner_sum _ _ _ _ _ _ (size z - 1)) ?size_drop //; last exact: div_ceil_ge.
  exact: sum_drop.
have sumW : inner pp (div_ceil (size z - ni) (p_l pp)) (blocks pp (l_query pk))
    (blocks (T := Fm F) pp (drop ni z)) = \sum_(i < size z - ni) z`_(ni + i) *: (l_query pk)`_i.
  rewrite (@inner_sum _ _ _ _ _ _ (size z - ni)) ?size_drop //; last exact: div_ceil_ge.
  by apply: eq_bigr => i _; rewrite nth_drop.
rewrite !sum sumW.
have Ew' : w = \sum_(j < p_l pp) weight pp u j by rewrite /w -El.
rewrite -!Ew' -szu -szx -sva -svax -/(err T1 (k_s (nth k0 crs u)) va a) -/(err T1 (k_h (nth k0 crs u)) va a).
rewrite -/(err T2 (k_v (nth k0 crs u)) va a) -/(err T1 (k_w (nth k0 crs u)) vax ax) -/dA -/dB1 -/dB -/dW.
have sh (T : lmodType F) (K I dI R : T) : K + (I + dI) + R = K + I + R + dI by rewrite addrA addrAC.
rewrite (sh T1 _ _ dA) (sh T2 _ _ dB) (sh T1 _ _ dB1) => A B1 B C.
rewrite -/A -/B1 -/B /C scalerDr (scalerDr r B1).
move: (s *: A) (r *: B1) (s *: dA) (r *: dB1) => X Y dX dY.
by rewrite addrACA [X + Y + _ - _]addrAC [X + Y - _ + _ + (_ + _)]addrACA
  [X + Y - _ + _ + (dX + dY + dW) + _]addrAC.
Qed.
