(** What at most [t] parties see of the whole sha256 example. *)
From mathcomp Require Import all_ssreflect all_algebra.
From mathcomp Require Import zify.
From Verif Require Import RingTac Base ModelField ModelUtils ModelPss ModelPack ModelFft ModelNet.
From Verif Require Import ModelProto ModelQap ModelProve ModelMain.
From Verif Require Import Spec SpecNet SpecView SpecProto SpecGroth SpecVerify.
From Verif Require Import NetProofs KingProofs LogProofs NetThm PartyProofs.
From Verif Require Import FieldProofs UtilsProofs PssProofs PackProofs FftProofs ProtoProofs DegProofs.
From Verif Require Import PssThm ProtoThm QapProofs ExtProofs GrothThm ProveProofs ProveThm MaskProofs.
From Verif Require Import MainProofs ViewProofs ViewThm.
Set Implicit Arguments.
Unset Strict Implicit.
Unset Printing Implicit Defensive.
Import GRing.Theory.
Local Open Scope ring_scope.
Local Notation Fm F := [lmodType F of F^o].

(** ** The views as functions of the inputs and the king's answers *)
Section Views.
Variable F : fftField.
Variables (T1 T2 : lmodType F) (cF : codec F) (c1 : codec T1) (c2 : codec T2).

(** the answers of the king: entry [i] of [an_f] for the [i]-th transform *)
Record answers := Answers {
  an_f : nat -> nat -> seq F;
  an_h : nat -> seq F;
  an_a : T1; an_b1 : T1; an_b2 : T2; an_w : T1; an_u : T1
}.

Definition pi_a (i : inputs T1 T2) (A : answers) : T1 :=
  k_a_query0 (in_crs i) + in_r i *: k_delta_g1 (in_crs i)
  + (an_a A + mm_out (nth (msm_mask_zero T1) (in_g1 i) 0)) + k_alpha_g1 (in_crs i).
Definition pi_b1 (i : inputs T1 T2) (A : answers) : T1 :=
  if in_r i == 0 then 0 else
  k_b_g1_query0 (in_crs i) + in_s i *: k_delta_g1 (in_crs i)
  + (an_b1 A + mm_out (nth (msm_mask_zero T1) (in_g1 i) 1)) + k_beta_g1 (in_crs i).
Definition pi_b2 (i : inputs T1 T2) (A : answers) : T2 :=
  k_b_g2_query0 (in_crs i) + in_s i *: k_delta_g2 (in_crs i)
  + (an_b2 A + mm_out (in_g2 i)) + k_beta_g2 (in_crs i).
Definition pi_c (i : inputs T1 T2) (A : answers) : T1 :=
  in_s i *: pi_a i A + in_r i *: pi_b1 i A - (in_r i * in_s i) *: k_delta_g1 (in_crs i)
  + (an_w A + mm_out (nth (msm_mask_zero T1) (in_g1 i) 2))
  + (an_u A + mm_out (nth (msm_mask_zero T1) (in_g1 i) 3)).
Definition result (A : answers) (i : inputs T1 T2) : T1 * T2 * T1 := (pi_a i A, pi_b2 i A, pi_c i A).

Definition fmsg (A : answers) (i p : nat) : seq bytes :=
  king_msgs (fun p => enc (vec_codec cF) (an_f A i p)) p.
Definition msgs (r : F) (A : answers) (p : nat) : seq (seq bytes) :=
  ([:: fmsg A 0 p; fmsg A 1 p; fmsg A 2 p] ++ ([:: fmsg A 3 p; fmsg A 4 p; fmsg A 5 p] ++
  [:: king_msgs (fun p => enc (vec_codec cF) (an_h A p)) p])) ++
  [:: king_msgs (fun=> enc c1 (an_a A)) p] ++
  [:: if r == 0 then [::] else king_msgs (fun=> enc c1 (an_b1 A)) p] ++
  [:: king_msgs (fun=> enc c2 (an_b2 A)) p] ++
  [:: king_msgs (fun=> enc c1 (an_w A)) p; king_msgs (fun=> enc c1 (an_u A)) p] ++ [::].

End Views.

Section Run.
Variable F : fftField.
Variables (T1 T2 : lmodType F) (cF : codec F) (c1 : codec T1) (c2 : codec T2) (mb mb1 mb2 : nat).
Variables (dbg : bool) (pp : pss F) (lam b : nat) (dom d2 : domain F).
Hypothesis new : pss_new F dbg (2 ^ lam) = Ok pp.
Hypothesis Edom : domain_new F (2 ^ (b + lam)) = Some dom.
Hypothesis Ed2 : domain_new F (2 * 2 ^ (b + lam)) = Some d2.
Hypotheses (cok : codec_ok cF mb) (cok1 : codec_ok c1 mb1) (cok2 : codec_ok c2 mb2).
Hypothesis b8 : (2 ^ b < 256 ^ 8)%N.
  Local Notation N := (2 ^ (b + lam))%N.
  Local Notation m := (2 ^ b)%N.
  Local Notation n := (p_n pp).
  Local Notation l := (p_l pp).

(** the key *)
Variables (crs : nat -> key_share T1 T2) (mA mW : nat) (sS sH sW sU : nat -> nat -> T1) (sV : nat -> nat -> T2).
Hypothesis KS : vsharing pp (2 * l) mA (fun p => k_s (crs p)) sS.
Hypothesis KH : vsharing pp (2 * l) mA (fun p => k_h (crs p)) sH.
Hypothesis KV : vsharing pp (2 * l) mA (fun p => k_v (crs p)) sV.
Hypothesis KW : vsharing pp (2 * l) mW (fun p => k_w (crs p)) sW.
Hypothesis KU : vsharing pp (2 * l) m (fun p => k_u (crs p)) sU.

(** the randomness of the king *)
Variable rs : nat -> rng F.

Definition f_answers (s1 : nat -> nat -> nat -> F) (vf : nat -> rng F) (i : nat) : nat -> seq F :=
  if (i < 3)%N then dealing (T := Fm F) pp dbg (slots (T := Fm F) pp true b (b + lam)
               (king_values pp lam b (d_gen d2) (d_gen_inv dom) (s1 i) (vf i))) m (rs i)
  else dealing (T := Fm F) pp dbg (slots (T := Fm F) pp false b (b + lam)
               (king_values pp lam b 1 (d_gen dom) (s1 i) (vf i))) m (rs i).

Definition the_answers (s1 : nat -> nat -> nat -> F) (sh sw sx : nat -> nat -> F) (vf : nat -> rng F)
    (vd : nat -> nat -> F) (v0 v1 v2 v3 : nat -> T1) (v4 : nat -> T2) : answers T1 T2 := Answers
  (f_answers s1 vf)
  (dealing (T := Fm F) pp dbg (fun e j => sh e j + vd e j) m (rs 6%N))
  (inner pp mA sS sw + \sum_(j < l) v0 j)
  (inner pp mA sH sw + \sum_(j < l) v1 j)
  (inner pp mA sV sw + \sum_(j < l) v4 j)
  (inner pp mW sW sx + \sum_(j < l) v2 j)
  (inner pp m sU sh + \sum_(j < l) v3 j).

(** masks for a multi-scalar multiplication *)
Definition mmask_of (T : lmodType F) (v : nat -> T) (masks : nat -> msm_mask T) : Prop :=
  shared pp (2 * l) (fun p => mm_in (masks p)) v /\
  shared pp (2 * l) (fun p => mm_out (masks p)) (fun=> - \sum_(j < l) v j).

Lemma run_logs (r s : F) (sa sb sc sw sx : nat -> nat -> F) :
  exists (s1 : nat -> nat -> nat -> F) (sh : nat -> nat -> F),
  forall (inp : nat -> inputs T1 T2) vf vd v0 v1 v2 v3 v4,
  (forall p, (p < n)%N -> [/\ in_crs (inp p) = crs p, q_domain (in_qap (inp p)) = dom,
     in_r (inp p) = r & in_s (inp p) = s]) ->
  [/\ vsharing (T := Fm F) pp (2 * l) m (fun p => q_a (in_qap (inp p))) sa,
      vsharing (T := Fm F) pp (2 * l) m (fun p => q_b (in_qap (inp p))) sb,
      vsharing (T := Fm F) pp (2 * l) m (fun p => q_c (in_qap (inp p))) sc,
      vsharing (T := Fm F) pp (2 * l) mA (fun p => in_a (inp p)) sw &
      vsharing (T := Fm F) pp (2 * l) mW (fun p => in_ax (inp p)) sx] ->
  (forall i, (i < 3)%N -> mask_of lam b pp true (d_gen d2) (d_gen_inv dom) (vf i)
     (fun p => nth (no_mask F) (in_fft (inp p)) i)) ->
  (forall i, (3 <= i < 6)%N -> mask_of lam b pp false 1 (d_gen dom) (vf i)
     (fun p => nth (no_mask F) (in_fft (inp p)) i)) ->
  vsharing (T := Fm F) pp (2 * l) m (fun p => dr_in (in_degred (inp p))) vd ->
  vsharing (T := Fm F) pp (2 * l) m (fun p => dr_out (in_degred (inp p))) (fun e j => - vd e j) ->
  [/\ mmask_of v0 (fun p => nth (msm_mask_zero T1) (in_g1 (inp p)) 0),
      mmask_of v1 (fun p => nth (msm_mask_zero T1) (in_g1 (inp p)) 1),
      mmask_of v2 (fun p => nth (msm_mask_zero T1) (in_g1 (inp p)) 2),
      mmask_of v3 (fun p => nth (msm_mask_zero T1) (in_g1 (inp p)) 3) &
      mmask_of v4 (fun p => in_g2 (inp p))] ->
  let A := the_answers s1 sh sw sx vf vd v0 v1 v2 v3 v4 in
  forall ords, (forall i, hash_ok (ords i)) ->
  party_log n (fun d => d != 0%N) (fun p => run_party dbg pp cF c1 c2 (inp p) ords rs p)
    (fun p => result A (inp p)) (fun p => msgs cF c1 c2 r A p).
Proof.
have ok := pss_new_ok new; have El := pss_new_l new; have l0 := pp_l_gt0 ok; have n0 := n_gt0 new.
have le2 : (2 * l <= 4 * 2 ^ lam - 1)%N by rewrite -El; lia.
have [Edr _ _] := double_rootP Edom Ed2.
have I sec := d_ifft_logs new Edom cok b8 true (d_gen d2) sec le2.
have D sec := d_fft_logs new Edom cok b8 false sec le2.
have [a1 [a2 Ia]] := I sa; have [b1 [b2 Ib]] := I sb; have [e1 [e2 Ic]] := I sc.
have [a3 [a4 Da]] := D a2; have [b3 [b4 Db]] := D b2; have [e3 [e4 Dc]] := D e2.
pose s1 i := nth (fun _ _ => 0) [:: a1; b1; e1; a3; b3; e3] i.
pose sh e j := (a4 e j * b4 e j - e4 e j) * 1.
exists s1, sh => inp vf vd v0 v1 v2 v3 v4 Hin [Ha Hb Hc Hw Hx] Mi Mf Md1 Md2 [M0 M1 M2 M3 M4] A ords Ho.
have [Va Pa] := Ia _ Ha (rs 0%N) _ _ (Mi 0%N isT).
have [Vb Pb] := Ib _ Hb (rs 1%N) _ _ (Mi 1%N isT).
have [Vc Pc] := Ic _ Hc (rs 2%N) _ _ (Mi 2%N isT).
have [Wa Qa] := Da _ Va (rs 3%N) _ _ (Mf 3%N isT).
have [Wb Qb] := Db _ Vb (rs 4%N) _ _ (Mf 4%N isT).
have [Wc Qc] := Dc _ Vc (rs 5%N) _ _ (Mf 5%N isT).
pose co i p := zipmap +%R (an_f A i p) (fm_out (nth (no_mask F) (in_fft (inp p)) i)).
have Habc := vsharing_abc ok El 1 Wa Wb Wc.
pose he p := zipmap (fun ab c => ab.1 * ab.2 - c) (zip (co 3%N p) (co 4%N p)) (co 5%N p).
have Hhe : vsharing (T := Fm F) pp (4 * l - 1) m he sh.
  by apply: vsharing_ext Habc => // p lt_p; rewrite /he /zipmap; apply: eq_map => ab; rewrite mulr1.
have m8 : (0 < m < 256 ^ 8)%N by rewrite expn_gt0.
have [Vh Ph] := deg_red_answer (T := Fm F) ok cok dbg (rs 6%N) m8 (leqnn _) Md1 Md2 Hhe.
set h := (fun p => zipmap _ _ _) in Vh Ph.
have [_ PA] := d_msm_answer ok cok1 dbg M0.1 M0.2 KS Hw.
have [_ PB] := d_msm_answer ok cok1 dbg M1.1 M1.2 KH Hw.
have [_ PV] := d_msm_answer ok cok2 dbg M4.1 M4.2 KV Hw.
have [_ PW] := d_msm_answer ok cok1 dbg M2.1 M2.2 KW Hx.
have [_ PU] := d_msm_answer ok cok1 dbg M3.1 M3.2 KU Vh.
have bind1 (T : lmodType F) (t : nat -> cproc T) (k : nat -> T -> T) v lg :
    king_log n (fun d => d != 0%N) t v lg ->
    king_log n (fun d => d != 0%N) (fun p => cbind (t p) (fun x => clift (Ok (k p x))))
      (fun p => k p (v p)) lg.
  move=> H; have K : king_log n (fun d => d != 0%N) (fun p => clift (Ok (k p (v p))))
    (fun p => k p (v p)) (fun=> [::]) by apply: KL_ret.
  by apply: king_log_ext (king_log_bind n0 H K) => // p _; rewrite cats0.
have HA : party_log n (fun d => d != 0%N) (fun p =>
    pbind (circom_h dbg pp n p ords cF (in_qap (inp p)) (in_fft (inp p)) (in_degred (inp p)) rs)
    (fun hp => pbind (pthread 0 (compute_A dbg pp n p c1 (k_a_query0 (in_crs (inp p)))
        (k_delta_g1 (in_crs (inp p))) (k_alpha_g1 (in_crs (inp p))) (k_s (crs p)) (in_a (inp p)) r
        (ords 7%N) (nth (msm_mask_zero T1) (in_g1 (inp p)) 0)))
    (fun pa => pbind (pthread 0 (compute_B1 dbg pp n p c1 (k_b_g1_query0 (in_crs (inp p)))
        (k_delta_g1 (in_crs (inp p))) (k_beta_g1 (in_crs (inp p))) (k_h (crs p)) (in_a (inp p)) s r
        (ords 8%N) (nth (msm_mask_zero T1) (in_g1 (inp p)) 1)))
    (fun pb1 => pbind (pthread 0 (compute_B2 dbg pp n p c2 (k_b_g2_query0 (in_crs (inp p)))
        (k_delta_g2 (in_crs (inp p))) (k_beta_g2 (in_crs (inp p))) (k_v (crs p)) (in_a (inp p)) s
        (ords 9%N) (in_g2 (inp p))))
    (fun pb2 => pbind (compute_C dbg pp n p c1 pa pb1 (k_delta_g1 (in_crs (inp p))) s r (k_w (crs p))
        (k_u (crs p)) (in_ax (inp p)) hp (fun i => ords (10 + i)%N)
        [:: nth (msm_mask_zero T1) (in_g1 (inp p)) 2; nth (msm_mask_zero T1) (in_g1 (inp p)) 3])
    (fun pc => PRet (Ok (pa, pb2, pc))))))))
    (fun p => result A (inp p)) (fun p => msgs cF c1 c2 r A p).
  apply: (party_log_bind (v1 := h)).
    pose q p := in_qap (inp p); pose f p i := nth (no_mask F) (in_fft (inp p)) i.
    apply: (party_log_ext (P' := (fun p =>
      pbind (try_join3 (d_ifft dbg pp n p (ords 0%N) cF (q_a (q p)) (f p 0%N) true dom (d_gen d2) (rs 0%N))
                       (d_ifft dbg pp n p (ords 1%N) cF (q_b (q p)) (f p 1%N) true dom (d_gen d2) (rs 1%N))
                       (d_ifft dbg pp n p (ords 2%N) cF (q_c (q p)) (f p 2%N) true dom (d_gen d2) (rs 2%N)))
      (fun '(a, bb, c) =>
      pbind (try_join3 (d_fft dbg pp n p (ords 3%N) cF a (f p 3%N) false dom (rs 3%N))
                       (d_fft dbg pp n p (ords 4%N) cF bb (f p 4%N) false dom (rs 4%N))
                       (d_fft dbg pp n p (ords 5%N) cF c (f p 5%N) false dom (rs 5%N)))
      (fun '(a, bb, c) =>
      pthread 0 (deg_red dbg pp n p (ords 6%N) (T := Fm F) cF
        (zipmap (fun ab c => ab.1 * ab.2 - c) (zip a bb) c) (in_degred (inp p)) (rs 6%N)))))));
      [|by []|by []|].
      by move=> p lt_p; have [_ E _ _] := Hin p lt_p; rewrite /circom_h E Edr.
    apply: (party_log_bind (v1 := fun p => (co 0%N p, co 1%N p, co 2%N p))).
      by apply: try_join3_log; [apply: Pa|apply: Pb|apply: Pc].
    apply: (party_log_bind (v1 := fun p => (co 3%N p, co 4%N p, co 5%N p))).
      by apply: try_join3_log; [apply: Qa|apply: Qb|apply: Qc].
    by apply: pthread_log; apply: Ph.
  apply: (party_log_bind (v1 := fun p => pi_a (inp p) A)).
    apply: pthread_log; apply: king_log_ext (bind1 _ _ (fun p x => k_a_query0 (in_crs (inp p))
      + r *: k_delta_g1 (in_crs (inp p)) + x + k_alpha_g1 (in_crs (inp p))) _ _ (PA _ (Ho 7%N))) => // p lt_p.
    by have [_ _ E3 _] := Hin p lt_p; rewrite /pi_a E3.
  apply: (party_log_bind (v1 := fun p => pi_b1 (inp p) A)).
    case: (r =P 0) => [r0|/eqP r0].
      apply: (@pthread_log n (fun d => d != 0%N) _ _ _ _ (fun=> [::])); apply: KL_ret => // p lt_p.
      by have [_ _ E3 _] := Hin p lt_p; rewrite /compute_B1 /pi_b1 E3 r0 eqxx.
    apply: pthread_log; apply: king_log_ext (bind1 _ _ (fun p x => k_b_g1_query0 (in_crs (inp p))
      + s *: k_delta_g1 (in_crs (inp p)) + x + k_beta_g1 (in_crs (inp p))) _ _ (PB _ (Ho 8%N))) => // p lt_p.
      by rewrite /compute_B1 (negbTE r0).
    by have [_ _ E3 E4] := Hin p lt_p; rewrite /pi_b1 E3 E4 (negbTE r0).
  apply: (party_log_bind (v1 := fun p => pi_b2 (inp p) A)).
    apply: pthread_log; apply: king_log_ext (bind1 _ _ (fun p x => k_b_g2_query0 (in_crs (inp p))
      + s *: k_delta_g2 (in_crs (inp p)) + x + k_beta_g2 (in_crs (inp p))) _ _ (PV _ (Ho 9%N))) => // p lt_p.
    by have [_ _ _ E4] := Hin p lt_p; rewrite /pi_b2 E4.
  apply: (party_log_bind (v1 := fun p => pi_c (inp p) A)); last exact: PL_ret.
  apply: (party_log_ext (logs' := fun p => [:: king_msgs (fun=> enc c1 (an_w A)) p;
    king_msgs (fun=> enc c1 (an_u A)) p] ++ [::])) => //.
  pose w p := an_w A + mm_out (nth (msm_mask_zero T1) (in_g1 (inp p)) 2).
  pose u p := an_u A + mm_out (nth (msm_mask_zero T1) (in_g1 (inp p)) 3).
  apply: (party_log_bind (v1 := fun p => [:: w p; u p])).
    apply: (@PL_join _ _ _ _ _ _ _ [:: 0%N; 1%N]
      (fun p j => if j is 0%N then d_msm dbg pp n p (ords 10%N) c1 (k_w (crs p)) (in_ax (inp p))
                                    (nth (msm_mask_zero T1) (in_g1 (inp p)) 2)
                  else d_msm dbg pp n p (ords 11%N) c1 (k_u (crs p)) (h p)
                                    (nth (msm_mask_zero T1) (in_g1 (inp p)) 3))
      (fun p j => if j is 0%N then w p else u p)
      (fun p j => if j is 0%N then king_msgs (fun=> enc c1 (an_w A)) p
                  else king_msgs (fun=> enc c1 (an_u A)) p) (fun p rs => PRet (Ok rs)) (fun=> [::])) => //.
      by case=> [|j] _; [apply: PW|apply: PU].
    exact: PL_ret.
  apply: PL_ret => // p lt_p; have [_ _ E3 E4] := Hin p lt_p.
  by rewrite /pi_c E3 E4.
apply: party_log_ext HA => // p lt_p; have [E1 E2 E3 E4] := Hin p lt_p.
by rewrite /run_party /dsha256 E1 E3 E4.
Qed.

End Run.

(** ** The inputs handed out by the dealer *)
Section Deal.
Variables (F : fftField) (T1 T2 : lmodType F).
Variables (dbg : bool) (pp : pss F) (lam b : nat) (dom d2 : domain F).
Hypothesis new : pss_new F dbg (2 ^ lam) = Ok pp.
Hypothesis rel : dbg = false.
Hypothesis Edom : domain_new F (2 ^ (b + lam)) = Some dom.
Hypothesis Ed2 : domain_new F (2 * 2 ^ (b + lam)) = Some d2.
  Local Notation N := (2 ^ (b + lam))%N.
  Local Notation n := (p_n pp).
  Local Notation l := (p_l pp).
Variables (gen1 : T1) (gen2 : T2) (pk : proving_key T1 T2) (out_k : nat -> key_share T1 T2).
Hypothesis Ek : pack_key dbg pp pk = Ok (mkseq out_k n).
Variables (m : matrices F) (r s : F).
  Local Notation ni := (num_instance_variables m).

Definition deal_fmask (rf : nat -> rng F) (i : nat) : nat -> fft_mask F :=
  if (i < 3)%N then fmask dbg lam b pp true (d_gen d2) (d_gen_inv dom) (rf (3 * i)%N) (rf (3 * i + 1)%N) (rf (3 * i + 2)%N)
  else fmask dbg lam b pp false 1 (d_gen dom) (rf (3 * i)%N) (rf (3 * i + 1)%N) (rf (3 * i + 2)%N).

Definition deal_qap (q : qap_t F) (rr : rng F) (p : nat) : qap_t F :=
  let deal_of v r := dealing (T := Fm F) pp dbg (strides (T := Fm F) b (b + lam) v) (2 ^ b) r in
  Qap (num_inputs q) (num_constraints q) (deal_of (q_a q) rr p)
    (deal_of (q_b q) (rskip (2 ^ b * p_t pp) rr) p)
    (deal_of (q_c q) (rskip (2 ^ b * p_t pp + 2 ^ b * p_t pp) rr) p) (q_domain q).

Definition deal_wit (z : seq F) (rr : rng F) (p : nat) : seq F :=
  dealing (T := Fm F) pp dbg (blocks (T := Fm F) pp z) (div_ceil (size z) l) rr p.

Definition dealt (rf : nat -> rng F) (r1 : nat -> rng T1) (r2 : nat -> rng T2) (test_rng : rng F)
    (z : seq F) (q : qap_t F) (p : nat) : inputs T1 T2 :=
  Inputs (out_k p) (deal_qap q test_rng p) (deal_wit (drop 1 z) (rf 33%N) p)
    (deal_wit (drop ni z) (rf 32%N) p) r s
    (mkseq (fun i => deal_fmask rf i p) 6)
    (dmask pp dbg (1 : Fm F) (2 ^ b) (rf 18%N) (rf 19%N) (rf 20%N) p)
    (mkseq (fun i => mmask pp dbg gen1 (rf (21 + i)%N) (r1 i) p) 4)
    (mmask pp dbg gen2 (rf 25%N) (r2 0%N) p).

Lemma dealE rf r1 r2 test_rng z q : qap m z = Ok q -> q_domain q = dom ->
  size (q_a q) = N -> size (q_b q) = N -> size (q_c q) = N -> (0 < ni <= size z)%N ->
  deal_inputs dbg pp rf r1 r2 gen1 gen2 test_rng pk m z r s =
  Ok (mkseq (dealt rf r1 r2 test_rng z q) n).
Proof.
move=> Eq Ed sqa sqb sqc Hni.
have ok := pss_new_ok new; have El := pss_new_l new; have l0 := pp_l_gt0 ok.
have n0 : (0 < n)%N by rewrite (ppn ok); lia.
have [ni0 le_ni] := andP Hni.
have [_ Es _] := dom_ok Edom.
have [Edr _ _] := double_rootP Edom Ed2.
have Er x rr : pack (T := Fm F) dbg pp (nseq n x) rr = Ok (nseq n x).
  have := new; rewrite rel => new'; by have [] := c10_overlong_leaks (x : Fm F) rr new'.
have Hpr := dom_prim Edom; have Hpr' := dom_prim_inv Edom.
have b_gt0 : (0 < 2 ^ b)%N by rewrite expn_gt0.
have Ef i : (i < 3)%N -> sample_fft dbg pp rf i true (d_gen d2) (d_gen_inv dom) dom
    = Ok (mkseq (deal_fmask rf i) n).
  by move=> lt_i; rewrite /sample_fft Es (fft_sample_dealing new) // /deal_fmask lt_i.
have Ef' i : (3 <= i)%N -> sample_fft dbg pp rf i false 1 (d_gen dom) dom = Ok (mkseq (deal_fmask rf i) n).
  by move=> le_i; rewrite /sample_fft Es (fft_sample_dealing new) // /deal_fmask ltnNge le_i.
have Em (T : lmodType F) (gen : T) values rr :
    msm_mask_sample dbg pp gen values rr = Ok (mkseq (mmask pp dbg gen values rr) n).
  by have [] := msm_sample_dealing ok dbg gen values rr.
rewrite /deal_inputs Eq [rbind (Ok _) _]/= !Er [rbind (Ok _) _]/= (qap_pssE ok El dbg _ sqa sqb sqc).
rewrite [rbind (Ok _) _]/= Ek [rbind (Ok _) _]/= {1}/rassert le_ni [rbind (Ok _) _]/= (witnessE ok) [rbind (Ok _) _]/=.
rewrite {1}/rassert (leq_trans ni0 le_ni) [rbind (Ok _) _]/= (witnessE ok) [rbind (Ok _) _]/=.
rewrite -/(deal_qap q test_rng) (vget_nth q) ?size_mkseq // nth_mkseq // [rbind (Ok _) _]/=.
rewrite [q_domain (deal_qap _ _ _)]/= Ed Edr [rbind (Ok _) _]/=.
do 3![rewrite Ef // [rbind (Ok _) _]/=]; do 3![rewrite Ef' // [rbind (Ok _) _]/=].
rewrite /rassert l0 [rbind (Ok _) _]/=.
have -> : (d_size dom %/ l)%N = (2 ^ b)%N by rewrite Es El expnD mulnK // expn_gt0.
rewrite (degred_sample_dealing (T := Fm F) ok) // [rbind (Ok _) _]/=.
do 5![rewrite Em [rbind (Ok _) _]/=].
apply: mapM_ok => x0 p; rewrite size_iota => lt_p; rewrite nth_iota // add0n.
rewrite (vget_nth (out_k 0%N)) ?size_mkseq // nth_mkseq // [rbind (Ok _) _]/=.
do 2!rewrite (vget_nth [::]) ?size_mkseq // nth_mkseq // [rbind (Ok _) _]/=.
rewrite (vget_nth q) ?size_mkseq // nth_mkseq // [rbind (Ok _) _]/=.
do 2!rewrite (vget_nth 0) ?size_nseq // nth_nseq lt_p [rbind (Ok _) _]/=.
rewrite (vget_nth (degred_mask_zero (Fm F) 0)) ?size_mkseq // nth_mkseq // [rbind (Ok _) _]/=.
rewrite (vget_nth (msm_mask_zero T2)) ?size_mkseq // nth_mkseq // [rbind (Ok _) _]/=.
rewrite /mapM.
do 6!rewrite (vget_nth (no_mask F)) ?size_mkseq // nth_mkseq // [rbind (Ok _) _]/=.
by do 4!rewrite (vget_nth (msm_mask_zero T1)) ?size_mkseq // nth_mkseq // [rbind (Ok _) _]/=.
Qed.

End Deal.

(** ** The run of the parties on the inputs of the dealer *)
Section Dealt.
Variables (F : fftField) (T1 T2 : lmodType F).
Variables (cF : codec F) (c1 : codec T1) (c2 : codec T2) (mb mb1 mb2 : nat).
Variables (dbg : bool) (pp : pss F) (lam b : nat) (dom d2 : domain F).
Hypothesis new : pss_new F dbg (2 ^ lam) = Ok pp.
Hypothesis rel : dbg = false.
Hypothesis Edom : domain_new F (2 ^ (b + lam)) = Some dom.
Hypothesis Ed2 : domain_new F (2 * 2 ^ (b + lam)) = Some d2.
Hypotheses (cok : codec_ok cF mb) (cok1 : codec_ok c1 mb1) (cok2 : codec_ok c2 mb2).
Hypothesis b8 : (2 ^ b < 256 ^ 8)%N.
  Local Notation N := (2 ^ (b + lam))%N.
  Local Notation n := (p_n pp).
  Local Notation l := (p_l pp).
Variables (gen1 : T1) (gen2 : T2) (pk : proving_key T1 T2) (out_k : nat -> key_share T1 T2).
Variables (m : matrices F) (r s : F) (nv : nat).
  Local Notation ni := (num_instance_variables m).
  Local Notation mA := (div_ceil (nv - 1) l).
  Local Notation mW := (div_ceil (nv - ni) l).
Hypothesis PK : packed_key pp pk out_k.
Hypotheses (sA : size (a_query pk) = nv) (sB1 : size (b_g1_query pk) = nv)
  (sB2 : size (b_g2_query pk) = nv) (sL : size (l_query pk) = (nv - ni)%N)
  (sH : (N - 2 ^ lam < size (h_query pk) <= N)%N).
Variable rs : nat -> rng F.

  Local Notation bl1 v := (blocks (T := T1) pp v).
  Local Notation bl2 v := (blocks (T := T2) pp v).

Definition dealt_answers s1 sh (z : seq F) (rf : nat -> rng F) : answers T1 T2 :=
  the_answers dbg pp lam b dom d2 mA mW (bl1 (drop 1 (a_query pk))) (bl1 (drop 1 (b_g1_query pk)))
    (bl1 (l_query pk)) (bl1 (h_query pk)) (bl2 (drop 1 (b_g2_query pk))) rs s1 sh
    (blocks (T := Fm F) pp (drop 1 z)) (blocks (T := Fm F) pp (drop ni z)) (fun i => rf (3 * i)%N)
    (fun e j => rf 18%N (e * l + j)%N *: (1 : Fm F))
    (fun j => rf 21%N j *: gen1) (fun j => rf 22%N j *: gen1) (fun j => rf 23%N j *: gen1)
    (fun j => rf 24%N j *: gen1) (fun j => rf 25%N j *: gen2).

Lemma dealt_logs (z : seq F) (q : qap_t F) : size z = nv -> q_domain q = dom ->
  size (q_a q) = N -> size (q_b q) = N -> size (q_c q) = N ->
  exists (s1 : nat -> nat -> nat -> F) (sh : nat -> nat -> F),
  forall rf r1 r2 test_rng inp,
  (forall p, (p < n)%N -> inp p = dealt dbg pp lam b dom d2 gen1 gen2 out_k m r s rf r1 r2 test_rng z q p) ->
  let A := dealt_answers s1 sh z rf in
  party_yields n false (fun ords p => plog (run_party dbg pp cF c1 c2 (inp p) ords rs p) [::])
    (fun p => (result A (inp p), msgs cF c1 c2 r A p)).
Proof.
move=> sz Ed sqa sqb sqc.
have ok := pss_new_ok new; have El := pss_new_l new; have l0 := pp_l_gt0 ok; have n0 := n_gt0 new.
have [[KS KH KV] KU KW _ _] := PK; rewrite !size_drop !(sA, sB1, sB2, sL) in KS KH KV KU KW.
have ED : div_ceil (size (h_query pk)) l = (2 ^ b)%N.
  apply: div_ceil_le => //; rewrite El -expnD; first by case/andP: sH.
  by case/andP: sH; clear; lia.
rewrite ED in KU.
pose st v := strides (T := Fm F) b (b + lam) v.
have [s1 [sh RL]] := run_logs new Edom Ed2 cok cok1 cok2 b8 KS KH KV KW KU rs r s (st (q_a q)) (st (q_b q))
  (st (q_c q)) (blocks (T := Fm F) pp (drop 1 z)) (blocks (T := Fm F) pp (drop ni z)).
exists s1, sh => rf r1 r2 test_rng inp Einp A.
apply: party_yields_prog => // [ords p|ords Ho].
  by apply: separate_plog; apply: separate_dsha256.
have dl sec mm rr := dealingP (T := Fm F) ok dbg sec mm rr.
have mm_of (T : lmodType F) (gen : T) values rr : mmask_of pp (fun j => values j *: gen) (mmask pp dbg gen values rr).
  by have [] := msm_sample_dealing ok dbg gen values rr.
have mm_ext (T : lmodType F) (v : nat -> T) f f' : (forall p, (p < n)%N -> f p = f' p) ->
    mmask_of pp v f' -> mmask_of pp v f.
  by move=> E [H1 H2]; split; [apply: shared_ext H1|apply: shared_ext H2] => // p lt_p; rewrite E.
have HL : party_log n (fun d => d != 0%N) (fun p => run_party dbg pp cF c1 c2 (inp p) ords rs p)
    (fun p => result A (inp p)) (fun p => msgs cF c1 c2 r A p).
  apply: RL => //.
  - by move=> p lt_p; rewrite Einp.
  - have sD k : (size (drop k z) = nv - k)%N by rewrite size_drop sz.
    split; [apply: vsharing_ext (dl (st (q_a q)) (2 ^ b)%N test_rng)
           |apply: vsharing_ext (dl (st (q_b q)) (2 ^ b)%N (rskip (2 ^ b * p_t pp) test_rng))
           |apply: vsharing_ext (dl (st (q_c q)) (2 ^ b)%N (rskip (2 ^ b * p_t pp + 2 ^ b * p_t pp) test_rng))
           |apply: vsharing_ext (dl (blocks (T := Fm F) pp (drop 1 z)) mA (rf 33%N))
           |apply: vsharing_ext (dl (blocks (T := Fm F) pp (drop ni z)) mW (rf 32%N))] => // p lt_p;
      by rewrite Einp //= /deal_wit ?sD.
  - move=> i lt_i; apply: mask_of_ext (fmask_ok b new true (d_gen d2) (d_gen_inv dom) (rf (3 * i)%N)
      (rf (3 * i + 1)%N) (rf (3 * i + 2)%N)) => p lt_p.
    by rewrite Einp // nth_mkseq ?(leq_trans lt_i) // /deal_fmask lt_i.
  - move=> i /andP[ge_i lt_i]; apply: mask_of_ext (fmask_ok b new false 1 (d_gen dom) (rf (3 * i)%N)
      (rf (3 * i + 1)%N) (rf (3 * i + 2)%N)) => p lt_p.
    by rewrite Einp // nth_mkseq // /deal_fmask ltnNge ge_i.
  - have [H _] := dmask_ok (T := Fm F) ok dbg 1 (2 ^ b) (rf 18%N) (rf 19%N) (rf 20%N).
    by apply: vsharing_ext H => // p lt_p; rewrite Einp.
  - have [_ H] := dmask_ok (T := Fm F) ok dbg 1 (2 ^ b) (rf 18%N) (rf 19%N) (rf 20%N).
    by apply: vsharing_ext H => // p lt_p; rewrite Einp.
  - by split; apply: mm_ext (mm_of _ _ _ _) => p lt_p; rewrite Einp.
exact: party_log_plog (fun=> [::]) HL.
Qed.

End Dealt.

Lemma eq_msgs (F : fftField) (T1 T2 : lmodType F) cF (c1 : codec T1) (c2 : codec T2) r (A A' : answers T1 T2) p :
  (forall i, (i < 6)%N -> an_f A' i p = an_f A i p) -> an_h A' p = an_h A p ->
  an_a A' = an_a A -> an_b1 A' = an_b1 A -> an_b2 A' = an_b2 A -> an_w A' = an_w A -> an_u A' = an_u A ->
  msgs cF c1 c2 r A' p = msgs cF c1 c2 r A p.
Proof.
move=> Ef Eh Ea Eb1 Eb2 Ew Eu; rewrite /msgs /fmsg /king_msgs.
by rewrite !Ef // Eh Ea Eb1 Eb2 Ew Eu.
Qed.

(*** theorems ***)

(** C58: what at most [t] parties see of the whole sha256 example does not depend on the witness, if
    the shares of the QAP are made with fresh randomness [tr] (C55: the code uses a published
    stream).  Some translation of the randomness of the dealer leaves their inputs, their proof
    shares and all messages they receive as they are when the witness changes; the king's own
    randomness [rs] may be known.  The randomness [r], [s] of the proof is in the inputs of every
    party (C39), and the messages the king collects are not part of these views (C28). *)
Lemma c58_hiding (F : fftField) (T1 T2 : lmodType F) lam b (pp : pss F) dom d2
    (cF : codec F) (c1 : codec T1) (c2 : codec T2) mb mb1 mb2 (cs : r1cs F) (z z' : seq F)
    (pk : proving_key T1 T2) gen1 gen2 (r s : F) (rs : nat -> rng F) (P : seq nat) i0 :
  pss_new F false (2 ^ lam) = Ok pp ->
  domain_new F (2 ^ (b + lam)) = Some dom -> domain_new F (2 * 2 ^ (b + lam)) = Some d2 ->
  codec_ok cF mb -> codec_ok c1 mb1 -> codec_ok c2 mb2 -> (2 ^ b < 256 ^ 8)%N ->
  well_formed cs (size z) -> size z' = size z ->
  let m := r1_matrices cs in
  least_pow2 (cm_num_constraints m + num_instance_variables m) (2 ^ (b + lam)) ->
  (* the key belongs to the circuit *)
  size (a_query pk) = size z -> size (b_g1_query pk) = size z -> size (b_g2_query pk) = size z ->
  size (l_query pk) = (size z - num_instance_variables m)%N ->
  (2 ^ (b + lam) - 2 ^ lam < size (h_query pk) <= 2 ^ (b + lam))%N ->
  (* the groups have the generators [gen1] and [gen2] *)
  (forall x : T1, exists c, x = c *: gen1) -> (forall x : T2, exists c, x = c *: gen2) ->
  ff_generator F ^+ p_n pp != 1 ->
  uniq P -> all (fun p => p < p_n pp)%N P -> (size P <= p_t pp)%N ->
  exists (dt : rng F) (df : nat -> rng F) (dg1 : nat -> rng T1) (dg2 : nat -> rng T2),
  forall (tr : rng F) (rf : nat -> rng F) (r1 : nat -> rng T1) (r2 : nat -> rng T2),
  exists ins ins' out out',
  [/\ deal_inputs false pp rf r1 r2 gen1 gen2 tr pk m z r s = Ok ins,
      deal_inputs false pp (fun k i => rf k i + df k i) (fun k i => r1 k i + dg1 k i)
        (fun k i => r2 k i + dg2 k i) gen1 gen2 (fun i => tr i + dt i) pk m z' r s = Ok ins',
      party_yields (p_n pp) false
        (fun ords p => plog (run_party false pp cF c1 c2 (nth i0 ins p) ords rs p) [::]) out,
      party_yields (p_n pp) false
        (fun ords p => plog (run_party false pp cF c1 c2 (nth i0 ins' p) ords rs p) [::]) out' &
      forall p, p \in P -> nth i0 ins' p = nth i0 ins p /\ out' p = out p].
Proof.
set N := (2 ^ (b + lam))%N => new Edom Ed2 cok cok1 cok2 b8 wf sz' m least sA sB1 sB2 sL sH.
move=> surj1 surj2 gn uP ltP sP; set ni := num_instance_variables m in sL *.
have ok := pss_new_ok new; have El := pss_new_l new; have l0 := pp_l_gt0 ok.
have [[sa sb sc] Hni Ha Hb Hc] := wf; have [ni0 le_ni] := andP Hni.
have [_ Es Eo] := dom_ok Edom.
have Edom' : domain_new F (cm_num_constraints m + ni) = Some dom by rewrite (domain_new_least F least).
have Q (v : seq F) : size v = size z -> exists q, [/\ qap m v = Ok q, q_domain q = dom,
    [/\ size (q_a q) = N, size (q_b q) = N & size (q_c q) = N] &
    num_inputs q = ni /\ num_constraints q = cm_num_constraints m].
  move=> sv; have := @qapP _ m v dom Edom'; rewrite sv => /(_ sa sb le_ni Ha Hb) E.
  by eexists; split; [exact: E|by []|rewrite !size_mkseq Es|].
have [q [Eq Edq [sqa sqb sqc] [Ei Ec]]] := Q z erefl.
have [q' [Eq' Edq' [sqa' sqb' sqc'] [Ei' Ec']]] := Q z' sz'.
have z0 : (0 < size z)%N by apply: leq_trans le_ni.
have [||||out_k [Ek PK]] := c38_pack_key (pk := pk) new; rewrite ?sA ?sB1 ?sB2 //.
have [s1 [sh R]] := dealt_logs new Edom Ed2 cok cok1 cok2 b8 gen1 gen2 (m := m) r s PK sA sB1 sB2 sL sH rs
  erefl Edq sqa sqb sqc.
have [s1' [sh' R']] := dealt_logs new Edom Ed2 cok cok1 cok2 b8 gen1 gen2 (m := m) r s PK sA sB1 sB2 sL sH rs
  sz' Edq' sqa' sqb' sqc'.
(* the QAP and the witness *)
pose K (v v' : seq F) := dealing_shift (T := Fm F) new gn uP ltP (strides (T := Fm F) b (b + lam) v)
  (strides (T := Fm F) b (b + lam) v') (2 ^ b) sP.
have [da Da] := K (q_a q) (q_a q'); have [db Db] := K (q_b q) (q_b q').
have [dc Dc] := K (q_c q) (q_c q'); set u := (2 ^ b * p_t pp)%N in Da Db Dc.
pose dt i := if (i < u)%N then da i else if (i < u + u)%N then db (i - u)%N else dc (i - (u + u))%N.
have [dw Dw] := dealing_shift (T := Fm F) new gn uP ltP (blocks (T := Fm F) pp (drop 1 z))
  (blocks (T := Fm F) pp (drop 1 z')) (div_ceil (size z - 1) (p_l pp)) sP.
have [dx Dx] := dealing_shift (T := Fm F) new gn uP ltP (blocks (T := Fm F) pp (drop ni z))
  (blocks (T := Fm F) pp (drop ni z')) (div_ceil (size z - ni) (p_l pp)) sP.
(* the masks of the transforms *)
pose rearr i := (i < 3)%N.
pose g i := if rearr i then d_gen d2 else 1; pose ge i := if rearr i then d_gen_inv dom else d_gen dom.
have [i lt_i|D HD] := choice_upto (fun=> 0, fun=> 0, fun=> 0) (m := 6) (P := fun i (D : rng F * rng F * rng F) =>
    forall values r_in r_out,
    (forall p, p \in P -> fmask false lam b pp (rearr i) (g i) (ge i) (fun j => values j + D.1.1 j)
      (fun j => r_in j + D.1.2 j) (fun j => r_out j + D.2 j) p =
      fmask false lam b pp (rearr i) (g i) (ge i) values r_in r_out p) /\
    king_values pp lam b (g i) (ge i) (s1' i) (fun j => values j + D.1.1 j) =
      king_values pp lam b (g i) (ge i) (s1 i) values).
  by have [dv [di [do_ H]]] := fresh_masks b new gn uP ltP sP (rearr i) (g i) (ge i) (s1 i) (s1' i);
     exists (dv, di, do_).
(* the mask of the degree reduction *)
have [dv [di [do_ Dd]]] := fresh_dmask (T := Fm F) new gn uP ltP sP 1 (2 ^ b)
  (fun e j => sh e j - sh' e j).
(* the masks of the multi-scalar multiplications *)
pose wa k v := blocks (T := Fm F) pp (drop k v).
pose mA := div_ceil (size z - 1) (p_l pp); pose mW := div_ceil (size z - ni) (p_l pp).
have M1 mm (x : seq T1) (w w' : nat -> nat -> F) : exists (dv : rng F) (dr : rng T1), forall values rr,
    (forall p, p \in P -> mmask pp false gen1 (fun i => values i + dv i) (fun i => rr i + dr i) p =
       mmask pp false gen1 values rr p) /\
    inner pp mm (blocks pp x) w' + \sum_(j < p_l pp) (values j + dv j) *: gen1 =
    inner pp mm (blocks pp x) w + \sum_(j < p_l pp) values j *: gen1.
  have [c Ec1] := surj1 (inner pp mm (blocks pp x) w - inner pp mm (blocks pp x) w').
  have [dv1 [dr H]] := fresh_mmask new gn uP ltP sP gen1 c; exists dv1, dr => values rr.
  have [H1 ->] := H values rr; split=> //.
  by rewrite -Ec1 addrCA [X in _ + X]addrC subrK addrC.
have M2 mm (x : seq T2) (w w' : nat -> nat -> F) : exists (dv : rng F) (dr : rng T2), forall values rr,
    (forall p, p \in P -> mmask pp false gen2 (fun i => values i + dv i) (fun i => rr i + dr i) p =
       mmask pp false gen2 values rr p) /\
    inner pp mm (blocks pp x) w' + \sum_(j < p_l pp) (values j + dv j) *: gen2 =
    inner pp mm (blocks pp x) w + \sum_(j < p_l pp) values j *: gen2.
  have [c Ec1] := surj2 (inner pp mm (blocks pp x) w - inner pp mm (blocks pp x) w').
  have [dv1 [dr H]] := fresh_mmask new gn uP ltP sP gen2 c; exists dv1, dr => values rr.
  have [H1 ->] := H values rr; split=> //.
  by rewrite -Ec1 addrCA [X in _ + X]addrC subrK addrC.
have [v0 [w0 H0]] := M1 mA (drop 1 (a_query pk)) (wa 1%N z) (wa 1%N z').
have [v1 [w1 H1]] := M1 mA (drop 1 (b_g1_query pk)) (wa 1%N z) (wa 1%N z').
have [v2 [w2 H2]] := M1 mW (l_query pk) (wa ni z) (wa ni z').
have [v3 [w3 H3]] := M1 (2 ^ b)%N (h_query pk) sh sh'.
have [v4 [w4 H4]] := M2 mA (drop 1 (b_g2_query pk)) (wa 1%N z) (wa 1%N z').
pose zr : rng F := fun=> 0.
pose df k := nth zr [:: (D 0%N).1.1; (D 0%N).1.2; (D 0%N).2; (D 1%N).1.1; (D 1%N).1.2; (D 1%N).2;
  (D 2%N).1.1; (D 2%N).1.2; (D 2%N).2; (D 3%N).1.1; (D 3%N).1.2; (D 3%N).2;
  (D 4%N).1.1; (D 4%N).1.2; (D 4%N).2; (D 5%N).1.1; (D 5%N).1.2; (D 5%N).2;
  dv; di; do_; v0; v1; v2; v3; v4; zr; zr; zr; zr; zr; zr; dx; dw] k.
exists dt, df, (nth (fun=> 0) [:: w0; w1; w2; w3]), (fun=> w4) => tr rf r1 r2.
do 4!eexists; split.
- by apply: (dealE new erefl Edom Ed2 gen1 gen2 Ek r s rf r1 r2 tr Eq Edq sqa sqb sqc Hni).
- apply: (dealE new erefl Edom Ed2 gen1 gen2 Ek r s _ _ _ _ Eq' Edq' sqa' sqb' sqc').
  by rewrite sz'.
- by apply: R => p lt_p; rewrite nth_mkseq.
- by apply: R' => p lt_p; rewrite nth_mkseq.
move=> p p_P; have lt_p := allP ltP _ p_P; cbv beta; rewrite !nth_mkseq //.
set A := dealt_answers _ _ _ _ _ _ _ _ _ _ _ _ s1 _ _ _.
set A' := dealt_answers _ _ _ _ _ _ _ _ _ _ _ _ s1' _ _ _.
set inp := dealt _ _ _ _ _ _ _ _ _ _ _ _ rf _ _ _ _ _ _.
set inp' := dealt _ _ _ _ _ _ _ _ _ _ _ _ (fun k i => rf k i + df k i) _ _ _ _ _ _.
have Einp : inp' = inp.
  rewrite /inp' /inp /dealt; congr Inputs.
  - rewrite /deal_qap Ei Ei' Ec Ec' Edq Edq' -/u; congr Qap.
    + by apply: Da => // i lt_i; rewrite /dt lt_i.
    + apply: Db => // i lt_i; rewrite /rskip /dt ifN ?ltn_add2l ?lt_i; last by lia.
      by congr (_ + db _); lia.
    + apply: Dc => // i lt_i; rewrite /rskip /dt ifN; last by lia.
      rewrite ifN; last by lia.
      by congr (_ + dc _); lia.
  - by rewrite /deal_wit !size_drop sz'; apply: Dw.
  - by rewrite /deal_wit !size_drop sz'; apply: Dx.
  - apply: eq_mkseq_in => i lt_i; rewrite /deal_fmask.
    have [H _] := HD i lt_i (rf (3 * i)%N) (rf (3 * i + 1)%N) (rf (3 * i + 2)%N).
    by move: H; case: i lt_i => [|[|[|[|[|[|i]]]]]] // _ /(_ p p_P).
  - by have [H _] := Dd (rf 18%N) (rf 19%N) (rf 20%N); apply: H.
  - by rewrite /mkseq /=; congr [:: _; _; _; _]; [have [H _] := H0 (rf 21%N) (r1 0%N)
      |have [H _] := H1 (rf 22%N) (r1 1%N)|have [H _] := H2 (rf 23%N) (r1 2%N)
      |have [H _] := H3 (rf 24%N) (r1 3%N)]; apply: H.
  - by have [H _] := H4 (rf 25%N) (r2 0%N); apply: H.
have [Ea Eb1 Eb2] : [/\ an_a A' = an_a A, an_b1 A' = an_b1 A & an_b2 A' = an_b2 A].
  by split; [have [_ H] := H0 (rf 21%N) (r1 0%N)|have [_ H] := H1 (rf 22%N) (r1 1%N)
    |have [_ H] := H4 (rf 25%N) (r2 0%N)].
have [Ew Eu] : an_w A' = an_w A /\ an_u A' = an_u A.
  by split; [have [_ H] := H2 (rf 23%N) (r1 2%N)|have [_ H] := H3 (rf 24%N) (r1 3%N)].
split=> //; rewrite Einp; congr (_, _).
  by rewrite /result /pi_c /pi_b2 /pi_b1 /pi_a Ea Eb1 Eb2 Ew Eu.
apply: eq_msgs => // [i lt_i|].
  have EF sec vf : f_answers false pp lam b dom d2 rs sec vf i = dealing (T := Fm F) pp false
      (slots (T := Fm F) pp (rearr i) b (b + lam) (king_values pp lam b (g i) (ge i) (sec i) (vf i)))
      (2 ^ b) (rs i).
    by rewrite /f_answers /g /ge /rearr; case: (i < 3)%N.
  have -> : an_f A' i = f_answers false pp lam b dom d2 rs s1' (fun i j => rf (3 * i)%N j + df (3 * i)%N j) i by [].
  have -> : an_f A i = f_answers false pp lam b dom d2 rs s1 (fun i => rf (3 * i)%N) i by [].
  rewrite !EF; have [_ H] := HD i lt_i (rf (3 * i)%N) (rf (3 * i + 1)%N) (rf (3 * i + 2)%N).
  have -> : (fun j => rf (3 * i)%N j + df (3 * i)%N j) = (fun j => rf (3 * i)%N j + (D i).1.1 j).
    by move: (lt_i); clear; case: i => [|[|[|[|[|[|i]]]]]].
  by rewrite H.
have -> : an_h A' = dealing (T := Fm F) pp false (fun e j => sh' e j
  + (rf 18%N (e * p_l pp + j)%N + dv (e * p_l pp + j)%N) *: (1 : Fm F)) (2 ^ b) (rs 6%N) by [].
have -> : an_h A = dealing (T := Fm F) pp false (fun e j => sh e j
  + rf 18%N (e * p_l pp + j)%N *: (1 : Fm F)) (2 ^ b) (rs 6%N) by [].
apply: (dealing_ext (T := Fm F)) => e j lt_e lt_j.
have [_ H] := Dd (rf 18%N) (rf 19%N) (rf 20%N).
by rewrite H // /GRing.scale /= !mulr1 addrCA [X in _ + X]addrC subrK addrC.
Qed.
