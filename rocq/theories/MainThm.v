(** Theorems about the whole example: setup, dealer, parties, client, verifier. *)
From mathcomp Require Import all_ssreflect all_algebra.
From mathcomp Require Import zify.
From Verif Require Import RingTac Base ModelField ModelUtils ModelPss ModelPack ModelFft ModelNet.
From Verif Require Import ModelProto ModelQap ModelProve ModelMain.
From Verif Require Import Spec SpecNet SpecProto SpecGroth SpecVerify.
From Verif Require Import NetProofs KingProofs NetThm PartyProofs.
From Verif Require Import FieldProofs UtilsProofs PssProofs PackProofs FftProofs ProtoProofs DegProofs.
From Verif Require Import PssThm ProtoThm QapProofs ExtProofs GrothThm ProveProofs ProveThm MaskProofs.
From Verif Require Import MainProofs.
Set Implicit Arguments.
Unset Strict Implicit.
Unset Printing Implicit Defensive.
Import GRing.Theory.
Local Open Scope ring_scope.

Local Notation Fm F := [lmodType F of F^o].

(** ** The verification equation *)
Section Equation.
Variables (F : fftField) (T1 T2 T3 : lmodType F) (e : T1 -> T2 -> T3).
Add Field FF : (stdlib_field F).
Hypothesis bil : bilinear_map e.

Lemma pair_scale x y g1 g2 : e (x *: g1) (y *: g2) = (x * y) *: e g1 g2.
Proof.
case: bil => [L R].
have e0 y' : e 0 y' = 0.
  have := L 1 0 0 y'; rewrite scale1r addr0 => /eqP.
  by rewrite scale1r -subr_eq0 opprD addrA subrr sub0r oppr_eq0 => /eqP.
have e0' x' : e x' 0 = 0.
  have := R 1 x' 0 0; rewrite scale1r addr0 => /eqP.
  by rewrite scale1r -subr_eq0 opprD addrA subrr sub0r oppr_eq0 => /eqP.
by rewrite -[x *: g1]addr0 L e0 addr0 -[y *: g2]addr0 R e0' addr0 scalerA.
Qed.

Lemma sum_scale (T : lmodType F) n (f : nat -> F) (g : T) :
  \sum_(i < n) f i *: g = (\sum_(i < n) f i) *: g.
Proof. by rewrite scaler_suml. Qed.

Variables (nv ni : nat) (a b c z h : seq F) (alpha beta gamma delta t : F) (g1 : T1) (g2 : T2).
Hypotheses (sa : size a = nv) (sb : size b = nv) (sc : size c = nv) (sz : size z = nv).
Hypotheses (Hni : (0 < ni <= nv)%N) (z0 : z`_0 = 1) (gamma0 : gamma != 0) (delta0 : delta != 0).
Let sums := mkseq (fun i => beta * a`_i + alpha * b`_i + c`_i) nv.
Let pk := ProvingKey [seq x *: g1 | x <- a] [seq x *: g1 | x <- b] [seq x *: g2 | x <- b]
                 [seq x *: g1 | x <- h] [seq x * delta^-1 *: g1 | x <- drop ni sums]
                 (delta *: g1) (delta *: g2) (alpha *: g1) (beta *: g1) (beta *: g2).
Let vk := VerifyingKey (alpha *: g1) (beta *: g2) (gamma *: g2) (delta *: g2)
                   [seq x * gamma^-1 *: g1 | x <- take ni sums].

Lemma head_sum (T : lmodType F) (v : seq F) (g : T) : size v = nv ->
  [seq x *: g | x <- v]`_0 + \sum_(1 <= i < size z) z`_i *: [seq x *: g | x <- v]`_i =
  combine nv z v *: g.
Proof.
move=> sv; have [nv0 nv1] : (0 < nv)%N /\ (1 <= nv)%N by lia.
rewrite /combine -(big_mkord predT (fun i => z`_i * v`_i)) [in RHS]big_ltn // z0 mul1r scalerDl sz.
rewrite nth_scale; congr (_ + _); rewrite scaler_suml; apply: eq_bigr => i _.
by rewrite nth_scale scalerA.
Qed.

Lemma combine_sums : combine nv z sums =
  beta * combine nv z a + alpha * combine nv z b + combine nv z c.
Proof.
rewrite /combine !mulr_sumr -!big_split /=; apply: eq_bigr => i _; rewrite nth_mkseq //.
by rewrite !mulrDr; congr (_ + _ + _); rewrite mulrCA.
Qed.

Lemma groth_equation (r s P D : F) :
  combine nv z a * combine nv z b = P + (combine nv z c + D) ->
  let A := pk_alpha_g1 pk + (a_query pk)`_0 + \sum_(1 <= i < size z) z`_i *: (a_query pk)`_i
             + r *: pk_delta_g1 pk in
  let B1 := pk_beta_g1 pk + (b_g1_query pk)`_0 + \sum_(1 <= i < size z) z`_i *: (b_g1_query pk)`_i
             + s *: pk_delta_g1 pk in
  let B := pk_beta_g2 pk + (b_g2_query pk)`_0 + \sum_(1 <= i < size z) z`_i *: (b_g2_query pk)`_i
             + s *: pk_delta_g2 pk in
  let C := s *: A + r *: B1 - (r * s) *: pk_delta_g1 pk
             + \sum_(i < size z - ni) z`_(ni + i) *: (l_query pk)`_i + (delta^-1 * P) *: g1 in
  accepts e vk (take (ni - 1) (drop 1 z)) (A, B, C) <-> D *: e g1 g2 = 0.
Proof.
move=> HP A B1 B C; have [ni0 le_ni] := andP Hni.
set qa := combine nv z a in HP; set qb := combine nv z b in HP; set qc := combine nv z c in HP.
have EA : A = (alpha + qa + r * delta) *: g1.
  by rewrite /A -[_ + _ + \sum_(_ <= _ < _) _]addrA head_sum //= scalerA -!scalerDl.
have EB1 : B1 = (beta + qb + s * delta) *: g1.
  by rewrite /B1 -[_ + _ + \sum_(_ <= _ < _) _]addrA head_sum //= scalerA -!scalerDl.
have EB : B = (beta + qb + s * delta) *: g2.
  by rewrite /B -[_ + _ + \sum_(_ <= _ < _) _]addrA head_sum //= scalerA -!scalerDl.
have ssum : size sums = nv by rewrite size_mkseq.
pose priv := \sum_(i < nv - ni) z`_(ni + i) * sums`_(ni + i).
pose pub := \sum_(i < ni) z`_i * sums`_i.
have Epp : pub + priv = combine nv z sums.
  rewrite /combine -(big_mkord predT (fun i => z`_i * sums`_i)) -[X in \sum_(0 <= i < X) _](subnKC le_ni).
  by rewrite big_mkord big_split_ord.
have EC : C = (s * (alpha + qa + r * delta) + r * (beta + qb + s * delta) - r * s * delta
               + delta^-1 * priv + delta^-1 * P) *: g1.
  rewrite /C EA EB1 /= !scalerA -!(scalerDl, scalerBl) sz.
  rewrite [in RHS]scalerDl [in RHS]scalerDl; congr (_ + _ + _).
  rewrite /priv mulr_sumr scaler_suml; apply: eq_bigr => i _.
  rewrite (nth_map 0); last by rewrite size_drop ssum.
  by rewrite nth_drop scalerA [sums`_ _ * _]mulrC mulrCA.
have sp : size (take (ni - 1) (drop 1 z)) = (ni - 1)%N by rewrite size_takel // size_drop sz; lia.
have Epub : (vk_gamma_abc_g1 vk)`_0 + \sum_(i < size (take (ni - 1) (drop 1 z)))
    (take (ni - 1) (drop 1 z))`_i *: (vk_gamma_abc_g1 vk)`_i.+1 = (gamma^-1 * pub) *: g1.
  have nv_ i : (i < ni)%N -> (vk_gamma_abc_g1 vk)`_i = (gamma^-1 * sums`_i) *: g1.
    move=> lt_i; rewrite /= (nth_map 0) ?size_takel ?ssum // nth_take //.
    by rewrite mulrC.
  have -> : pub = sums`_0 + \sum_(i < ni - 1) z`_i.+1 * sums`_i.+1.
    rewrite /pub subn1; case: (ni) ni0 => // k _.
    by rewrite big_ord_recl z0 mul1r.
  rewrite sp mulrDr scalerDl nv_ //; congr (_ + _).
  rewrite mulr_sumr scaler_suml; apply: eq_bigr => i _; have := ltn_ord i => lt_i.
  rewrite nv_; last by lia.
  by rewrite nth_take // nth_drop scalerA mulrCA.
have sg : size (vk_gamma_abc_g1 vk) = ni by rewrite size_map size_takel ?ssum.
rewrite /accepts Epub EA EB EC sp sg [vk_alpha_g1 vk]/= [vk_beta_g2 vk]/= [vk_gamma_g2 vk]/=.
rewrite [vk_delta_g2 vk]/= !pair_scale.
have cs := combine_sums; rewrite -/qa -/qb -/qc -Epp in cs.
have gg : gamma^-1 * pub * gamma = pub by rewrite mulrC mulrA mulfV // mul1r.
set KA := alpha + qa + r * delta; set KB := beta + qb + s * delta.
have key : KA * KB = alpha * beta + gamma^-1 * pub * gamma +
    (s * KA + r * KB - r * s * delta + delta^-1 * priv + delta^-1 * P) * delta + D.
  rewrite gg; have -> : priv = beta * qa + alpha * qb + qc - pub by rewrite -cs addrAC subrr add0r.
  have -> : P = qa * qb - (qc + D) by rewrite HP addrK.
  rewrite /KA /KB; move/eqP: delta0 => d0; ffield F.
  exact: d0.
rewrite -!scalerDl key; set R := (X in _ = X *: _).
rewrite scalerDl; split=> [[_]|->]; last by rewrite addr0; split=> //; lia.
by rewrite -[X in _ = X]addr0 => /addrI.
Qed.

End Equation.

(** ** The dealer *)
Section Deal.
Variables (F : fftField) (T1 T2 : lmodType F).
Variables (dbg : bool) (pp : pss F) (lam b : nat) (dom d2 : domain F).
Hypothesis new : pss_new F dbg (2 ^ lam) = Ok pp.
Hypothesis rel : dbg = false.
Hypothesis Edom : domain_new F (2 ^ (b + lam)) = Some dom.
Hypothesis Ed2 : domain_new F (2 * 2 ^ (b + lam)) = Some d2.
  Local Notation N := (2 ^ (b + lam))%N.

Lemma msm_sample_some (T : lmodType F) (gen : T) values r :
  exists s, msm_mask_sample dbg pp gen values r = Ok s /\ size s = p_n pp.
Proof.
have ok := pss_new_ok new; rewrite /msm_mask_sample.
have s1 : size (mkseq (fun i => values i *: gen) (p_l pp)) = p_l pp by rewrite size_mkseq.
set v := - foldr _ _ _; have [ins [-> si _]] := pack_sharing ok dbg r s1; rewrite [rbind (Ok _) _]/=.
have s2 : size (nseq (p_l pp) v) = p_l pp by rewrite size_nseq.
have [outs [-> so _]] := pack_sharing ok dbg (rskip (p_t pp) r) s2; rewrite [rbind (Ok _) _]/=.
by eexists; split; [by []|rewrite size_zipmap si so minnn].
Qed.

Variables (rf : nat -> rng F) (r1 : nat -> rng T1) (r2 : nat -> rng T2).
Variables (gen1 : T1) (gen2 : T2) (test_rng : rng F) (pk : proving_key T1 T2).
Variables (m : matrices F) (z : seq F) (r s : F) (q : qap_t F).
  Local Notation ni := (num_instance_variables m).
Hypotheses (Eq : qap m z = Ok q) (Ed : q_domain q = dom).
Hypotheses (sqa : size (q_a q) = N) (sqb : size (q_b q) = N) (sqc : size (q_c q) = N).
Hypotheses (Hni : (0 < ni <= size z)%N).
Hypotheses (a0 : (0 < size (a_query pk))%N) (b0 : (0 < size (b_g1_query pk))%N)
  (c0 : (0 < size (b_g2_query pk))%N).

Lemma dealP i0 k0 : exists ins crs a ax qs rsh ssh,
  [/\ deal_inputs dbg pp rf r1 r2 gen1 gen2 test_rng pk m z r s = Ok ins, size ins = p_n pp &
      forall p, (p < p_n pp)%N ->
        [/\ in_crs (nth i0 ins p) = nth k0 crs p, in_qap (nth i0 ins p) = nth q qs p,
            in_a (nth i0 ins p) = nth [::] a p, in_ax (nth i0 ins p) = nth [::] ax p &
            in_r (nth i0 ins p) = rsh`_p /\ in_s (nth i0 ins p) = ssh`_p]] /\
  [/\ pack_key dbg pp pk = Ok crs, pack_from_witness dbg pp (drop 1 z) (rf 33) = Ok a,
      pack_from_witness dbg pp (drop ni z) (rf 32) = Ok ax, qap_pss dbg pp q test_rng = Ok qs &
      pack (T := Fm F) dbg pp (nseq (p_n pp) r) (rf 30) = Ok rsh /\
      pack (T := Fm F) dbg pp (nseq (p_n pp) s) (rf 31) = Ok ssh] /\
  [/\ forall i, (i < 3)%N -> fft_masks dbg pp true (d_gen d2) (d_gen_inv dom) N
                            (fun p => nth (no_mask F) (in_fft (nth i0 ins p)) i),
      forall i, (3 <= i < 6)%N -> fft_masks dbg pp false 1 (d_gen dom) N
                            (fun p => nth (no_mask F) (in_fft (nth i0 ins p)) i),
      degred_masks dbg pp (1 : Fm F) (2 ^ b) (fun p => in_degred (nth i0 ins p)),
      forall i, (i < 4)%N -> msm_masks dbg pp gen1
                            (fun p => nth (msm_mask_zero T1) (in_g1 (nth i0 ins p)) i) &
      msm_masks dbg pp gen2 (fun p => in_g2 (nth i0 ins p))].
Proof.
have ok := pss_new_ok new; have El := pss_new_l new; have l0 := pp_l_gt0 ok.
have n0 : (0 < p_n pp)%N by rewrite (ppn ok); lia.
have [ni0 le_ni] := andP Hni.
have [_ Es _] := dom_ok Edom.
have [Edr _ _] := double_rootP Edom Ed2.
have Er x rr : pack (T := Fm F) dbg pp (nseq (p_n pp) x) rr = Ok (nseq (p_n pp) x).
  have := new; rewrite rel => new'; by have [] := c10_overlong_leaks (x : Fm F) rr new'.
have [xa [xb [xc [Eqs _ _ _]]]] := qap_pssP ok El dbg test_rng sqa sqb sqc.
have [|out_k [Ek _]] := c38_pack_key (pk := pk) new a0 b0 c0; first by rewrite rel.
have [oax [Eax _]] := witness_columns ok dbg (drop ni z) (rf 32).
have [oa [Ea _]] := witness_columns ok dbg (drop 1 z) (rf 33).
have Hpr := dom_prim Edom; have Hpr' := dom_prim_inv Edom.
have F_ rearr g gen i : N.-primitive_root gen -> exists f,
    sample_fft dbg pp rf i rearr g gen dom = Ok (mkseq f (p_n pp)) /\
    forall fm : nat -> fft_mask F, (forall p, (p < p_n pp)%N -> fm p = f p) ->
      fft_masks dbg pp rearr g gen N fm.
  move=> pr; have [ii [oo [_ E]]] := fft_sampleE ok El dbg rearr g
    (rf (3 * i)) (rf (3 * i + 1)) (rf (3 * i + 2)) pr.
  exists (fun p => FftMask (ii p) (oo p)); rewrite /sample_fft Es; split=> // fm Efm.
  right; do 3!eexists; eexists; split; first exact: E.
  by move=> p lt_p; rewrite Efm // nth_mkseq.
have [f0 [E0 M0]] := F_ true (d_gen d2) (d_gen_inv dom) 0%N Hpr'.
have [f1 [E1 M1]] := F_ true (d_gen d2) (d_gen_inv dom) 1%N Hpr'.
have [f2 [E2 M2]] := F_ true (d_gen d2) (d_gen_inv dom) 2%N Hpr'.
have [f3 [E3 M3]] := F_ false 1 (d_gen dom) 3%N Hpr.
have [f4 [E4 M4]] := F_ false 1 (d_gen dom) 4%N Hpr.
have [f5 [E5 M5]] := F_ false 1 (d_gen dom) 5%N Hpr.
have b_gt0 : (0 < 2 ^ b)%N by rewrite expn_gt0.
have [di [do_ [_ [_ Edm]]]] := degred_sampleE (T := Fm F) ok dbg 1 (rf 18) (rf 19) (rf 20) b_gt0.
have [g0 [G0 sg0]] := msm_sample_some gen1 (rf 21) (r1 0%N).
have [g1 [G1 sg1]] := msm_sample_some gen1 (rf 22) (r1 1%N).
have [g2 [G2 sg2]] := msm_sample_some gen1 (rf 23) (r1 2%N).
have [g3 [G3 sg3]] := msm_sample_some gen1 (rf 24) (r1 3%N).
have [g4 [G4 sg4]] := msm_sample_some gen2 (rf 25) (r2 0%N).
pose inp p := Inputs (out_k p)
  (Qap (num_inputs q) (num_constraints q) (xa p) (xb p) (xc p) (q_domain q)) (oa p) (oax p) r s
  [:: f0 p; f1 p; f2 p; f3 p; f4 p; f5 p] (DegRedMask (di p) (do_ p))
  [:: nth (msm_mask_zero T1) g0 p; nth (msm_mask_zero T1) g1 p; nth (msm_mask_zero T1) g2 p;
      nth (msm_mask_zero T1) g3 p] (nth (msm_mask_zero T2) g4 p).
exists (mkseq inp (p_n pp)), (mkseq out_k (p_n pp)), (mkseq oa (p_n pp)), (mkseq oax (p_n pp)),
  (mkseq (fun p => Qap (num_inputs q) (num_constraints q) (xa p) (xb p) (xc p) (q_domain q)) (p_n pp)),
  (nseq (p_n pp) r), (nseq (p_n pp) s).
split; last split=> //.
- split; [|by rewrite size_mkseq|by move=> p lt_p; rewrite !nth_mkseq // !nth_nseq lt_p].
  rewrite /deal_inputs Eq [rbind (Ok _) _]/= !Er [rbind (Ok _) _]/= Eqs [rbind (Ok _) _]/=.
  rewrite Ek [rbind (Ok _) _]/= {1}/rassert le_ni [rbind (Ok _) _]/= Eax [rbind (Ok _) _]/=.
  rewrite {1}/rassert (leq_trans ni0 le_ni) [rbind (Ok _) _]/= Ea [rbind (Ok _) _]/=.
  rewrite (vget_nth q) ?size_mkseq // nth_mkseq // [rbind (Ok _) _]/= Ed Edr [rbind (Ok _) _]/=.
  rewrite E0 [rbind (Ok _) _]/= E1 [rbind (Ok _) _]/= E2 [rbind (Ok _) _]/= E3 [rbind (Ok _) _]/=.
  rewrite E4 [rbind (Ok _) _]/= E5 [rbind (Ok _) _]/= /rassert l0 [rbind (Ok _) _]/=.
  have -> : (d_size dom %/ p_l pp)%N = (2 ^ b)%N by rewrite Es El expnD mulnK // expn_gt0.
  rewrite Edm [rbind (Ok _) _]/= G0 [rbind (Ok _) _]/= G1 [rbind (Ok _) _]/= G2 [rbind (Ok _) _]/=.
  rewrite G3 [rbind (Ok _) _]/= G4 [rbind (Ok _) _]/=.
  apply: mapM_ok => x0 p; rewrite size_iota => lt_p; rewrite nth_iota // add0n.
  rewrite (vget_nth k0) ?size_mkseq // nth_mkseq // [rbind (Ok _) _]/=.
  do 2!rewrite (vget_nth [::]) ?size_mkseq // nth_mkseq // [rbind (Ok _) _]/=.
  rewrite (vget_nth q) ?size_mkseq // nth_mkseq // [rbind (Ok _) _]/=.
  do 2!rewrite (vget_nth 0) ?size_nseq // nth_nseq lt_p [rbind (Ok _) _]/=.
  rewrite (vget_nth (degred_mask_zero (Fm F) 0)) ?size_mkseq // nth_mkseq // [rbind (Ok _) _]/=.
  rewrite (vget_nth (msm_mask_zero T2)) ?sg4 // [rbind (Ok _) _]/=.
  rewrite /mapM.
  do 6!rewrite (vget_nth (no_mask F)) ?size_mkseq // nth_mkseq // [rbind (Ok _) _]/=.
  rewrite (vget_nth (msm_mask_zero T1)) ?sg0 // (vget_nth (msm_mask_zero T1)) ?sg1 //.
  rewrite (vget_nth (msm_mask_zero T1)) ?sg2 // (vget_nth (msm_mask_zero T1)) ?sg3 //=.
  by rewrite /inp Ed.
split.
- by case=> [|[|[|i]]] // _; [apply: M0|apply: M1|apply: M2] => p lt_p; rewrite nth_mkseq.
- by case=> [|[|[|[|[|[|i]]]]]] // _; [apply: M3|apply: M4|apply: M5] => p lt_p; rewrite nth_mkseq.
- right; do 3!eexists; eexists; split; first exact: Edm.
  by move=> p lt_p; rewrite !nth_mkseq.
- by case=> [|[|[|[|i]]]] // _; right;
    [exists (rf 21), (r1 0%N), g0|exists (rf 22), (r1 1%N), g1|exists (rf 23), (r1 2%N), g2
    |exists (rf 24), (r1 3%N), g3]; split=> // p lt_p; rewrite nth_mkseq.
right; do 2!eexists; eexists; split; first exact: G4.
by move=> p lt_p; rewrite nth_mkseq.
Qed.

End Deal.

(*** theorems ***)

(** C57: in debug builds the dealer of the sha256 example panics: it packs vectors of length [n]. *)
Lemma c57_debug_panic (F : fftField) (T1 T2 : lmodType F) lam (pp : pss F) rf
    (r1 : nat -> rng T1) (r2 : nat -> rng T2) gen1 gen2 test_rng pk (m : matrices F) z r s q :
  pss_new F true (2 ^ lam) = Ok pp -> qap m z = Ok q ->
  deal_inputs true pp rf r1 r2 gen1 gen2 test_rng pk m z r s = Panic.
Proof.
move=> new Eq; rewrite /deal_inputs Eq.
have ok := pss_new_ok new; have l0 := pp_l_gt0 ok.
rewrite [rbind (Ok _) _]/=; set t := (X in rbind _ X).
by rewrite /pack /pack_pts /dassert size_nseq (ppn ok); have -> : (4 * p_l pp == p_l pp)%N = false by lia.
Qed.

(** C57: the whole example in release builds.  The setup succeeds, the dealer hands out the inputs,
    all parties finish on every schedule, the client obtains a proof, and the verifier accepts it
    exactly if the polynomial through the defects of the constraints vanishes at the secret point. *)
Lemma c57_example (F : fftField) (T1 T2 T3 : lmodType F) (e : T1 -> T2 -> T3) lam b (pp : pss F) dom d2
    (cF : codec F) (c1 : codec T1) (c2 : codec T2) mb mb1 mb2
    (cs : r1cs F) (z : seq F) (alpha beta gamma delta t : F) (g1 : T1) (g2 : T2)
    rf (r1 : nat -> rng T1) (r2 : nat -> rng T2) gen1 gen2 test_rng (r s : F) (rs : nat -> rng F) i0 :
  bilinear_map e -> pss_new F false (2 ^ lam) = Ok pp -> (0 < b + lam)%N ->
  domain_new F (2 ^ (b + lam)) = Some dom -> domain_new F (2 * 2 ^ (b + lam)) = Some d2 ->
  codec_ok cF mb -> codec_ok c1 mb1 -> codec_ok c2 mb2 -> (2 ^ b < 256 ^ 8)%N ->
  well_formed cs (size z) -> z`_0 = 1 ->
  least_pow2 (cm_num_constraints (r1_matrices cs) + num_instance_variables (r1_matrices cs))
             (2 ^ (b + lam)) ->
  gamma != 0 -> delta != 0 ->
  exists pk vk ins (out : nat -> T1 * T2 * T1) proof, [/\
    setup cs (size z) alpha beta gamma delta t g1 g2 = Ok (pk, vk),
    deal_inputs false pp rf r1 r2 gen1 gen2 test_rng pk (r1_matrices cs) z r s = Ok ins,
    party_yields (p_n pp) false
      (fun ords p => run_party false pp cF c1 c2 (nth i0 ins p) ords rs p) out,
    collect_proof false pp (mkseq out (p_n pp)) = Ok proof &
    forall D : {poly F}, interpolates (d_gen dom) (2 ^ (b + lam))
        (mkseq (defect cs z) (cm_num_constraints (r1_matrices cs))) D ->
      (accepts e vk (public_part cs z) proof <-> D.[t] *: e g1 g2 = 0)].
Proof.
set N := (2 ^ (b + lam))%N; set m := r1_matrices cs.
set nc := cm_num_constraints m; set ni := num_instance_variables m.
move=> bil new bl0 Edom Ed2 cok cok1 cok2 m_small wf z0 least gamma0 delta0.
have [[sa sb sc] Hni Ha Hb Hc] := wf; have [ni0 le_ni] := andP Hni.
have [_ Es Eo] := dom_ok Edom.
have [a [bb [c [h [Esetup [za zb zc zh] Hev Hh]]]]] :=
  setupP wf least bl0 Edom Ed2 alpha beta t g1 g2 gamma0 delta0.
set sums := mkseq _ _ in Esetup; set pk := ProvingKey _ _ _ _ _ _ _ _ _ _ in Esetup.
set vk := VerifyingKey _ _ _ _ _ in Esetup.
have Edom' : domain_new F (nc + ni) = Some dom by rewrite (domain_new_least F least).
have Eq := qapP Edom' sa sb le_ni Ha Hb; rewrite Es -/N -/m -/nc -/ni in Eq.
set q := Qap _ _ _ _ _ _ in Eq.
have [||||||ins [crs [pa [pax [qs [rsh [ssh [[Edeal sins Hin] [[Ecrs Epa Epax Eqs [Er Es']] [M1 M2 M3 M4 M5]]]]]]]]]] :=
  dealP new erefl Edom Ed2 rf r1 r2 gen1 gen2 test_rng (pk := pk) r s Eq erefl _ _ _ Hni _ _ _ i0 (in_crs i0);
  rewrite ?size_mkseq ?size_map ?za ?zb //=; try by apply: leq_trans le_ni.
have [Hr Hz] := c39_example_randomness new Er; have [Hs _] := c39_example_randomness new Es'.
have [|||||||||QA [QB [QC [out [[IA IB IC] prw Ew Hout [RA RB RC]]]]]] :=
  c39_prover (in_crs i0) rs new Edom Ed2 cok cok1 cok2 m_small Hni _ _ _ _ _ _ _ _ _ Ecrs Epa Epax Eqs
    M1 M2 M3 M4 M5 Hr Hs Hz; rewrite ?size_map ?size_drop ?size_mkseq ?size_map ?size_iota ?za ?zb ?zh //.
  by rewrite leqnn andbT ltn_subrL !expn_gt0.
set PA := (X in Ok X) in RA; set PB := (X in Ok X) in RB; set PC := (X in Ok X) in RC.
exists pk, vk, ins, out, (PA, PB, PC); split=> //.
- move=> ords d f ms Hords d0 nob; have := Hout ords d f ms Hords d0 nob.
  congr (every_schedule _ _ _); apply: eq_mkseq_in => p lt_p; rewrite /run_party.
  by have [-> -> -> -> [-> ->]] := Hin p lt_p.
- rewrite /collect_proof -!map_comp -[map _ (iota _ _)]/(mkseq _ _) RA [rbind (Ok _) _]/=.
  by rewrite -[map _ (iota _ _)]/(mkseq _ _) RB [rbind (Ok _) _]/= -[map _ (iota _ _)]/(mkseq _ _) RC.
move=> D ID.
have IC' : interpolates (d_gen dom) N (cz cs dom z) (QC - D).
  case: IC ID => [s1 H1] [s2 H2]; split.
    by apply: leq_trans (size_add _ _) _; rewrite size_opp geq_max s1.
  move=> i lt_i; rewrite hornerD hornerN H1 // H2 // nth_mkseq // [RHS]nth_mkseq ?Es //.
  rewrite -/m -/nc; case: ltnP => lt_c; last by rewrite nth_default ?subr0 // size_mkseq.
  by rewrite nth_mkseq // /defect subKr.
have [Ea Eb Ec] := Hev z _ _ _ IA IB IC'.
have EP : combine (size z) z a * combine (size z) z bb = (QA * QB - QC).[t]
    + (combine (size z) z c + D.[t]).
  by rewrite Ea Eb Ec !(hornerD, hornerN, hornerM) !subrK.
have [sA HA] := IA; have [sB HB] := IB; have [sC HC] := IC.
have EC : PC = s *: PA + r *: (pk_beta_g1 pk + (b_g1_query pk)`_0
    + \sum_(1 <= i < size z) z`_i *: (b_g1_query pk)`_i + s *: pk_delta_g1 pk)
    - (r * s) *: pk_delta_g1 pk + \sum_(i < size z - ni) z`_(ni + i) *: (l_query pk)`_i
    + (delta^-1 * (QA * QB - QC).[t]) *: g1; last first.
  rewrite EC; exact: (@groth_equation _ _ _ _ e bil _ _ _ _ _ _ h alpha beta gamma delta g1 g2 za zb zc
    erefl Hni z0 gamma0 delta0 r s _ _ EP).
rewrite /PC; congr (_ + _); rewrite -Hh.
- by rewrite scaler_suml; apply: eq_bigr => i _; rewrite nth_scale scalerA.
- apply: leq_trans (size_add _ _) _; rewrite size_opp geq_max; have N0 := expn_gt0 2 (b + lam).
  apply/andP; split; last by apply: leq_trans sC _; lia.
  by apply: leq_trans (size_mul_leq _ _) _; lia.
move=> i lt_i; rewrite exprM Ew !(hornerD, hornerN, hornerM) HA // HB // HC // !nth_mkseq //.
rewrite -/m -/nc; case: ifP => _; first by rewrite subrr.
by rewrite mulr0 subr0.
Qed.

(** C57: for a satisfied constraint system the verifier accepts. *)
Lemma c57_accepted (F : fftField) (T1 T2 T3 : lmodType F) (e : T1 -> T2 -> T3) lam b (pp : pss F) dom d2
    (cF : codec F) (c1 : codec T1) (c2 : codec T2) mb mb1 mb2
    (cs : r1cs F) (z : seq F) (alpha beta gamma delta t : F) (g1 : T1) (g2 : T2)
    rf (r1 : nat -> rng T1) (r2 : nat -> rng T2) gen1 gen2 test_rng (r s : F) (rs : nat -> rng F) i0 :
  bilinear_map e -> pss_new F false (2 ^ lam) = Ok pp -> (0 < b + lam)%N ->
  domain_new F (2 ^ (b + lam)) = Some dom -> domain_new F (2 * 2 ^ (b + lam)) = Some d2 ->
  codec_ok cF mb -> codec_ok c1 mb1 -> codec_ok c2 mb2 -> (2 ^ b < 256 ^ 8)%N ->
  well_formed cs (size z) -> z`_0 = 1 ->
  least_pow2 (cm_num_constraints (r1_matrices cs) + num_instance_variables (r1_matrices cs))
             (2 ^ (b + lam)) ->
  gamma != 0 -> delta != 0 ->
  satisfied cs z ->
  exists pk vk ins (out : nat -> T1 * T2 * T1) proof, [/\
    setup cs (size z) alpha beta gamma delta t g1 g2 = Ok (pk, vk),
    deal_inputs false pp rf r1 r2 gen1 gen2 test_rng pk (r1_matrices cs) z r s = Ok ins,
    party_yields (p_n pp) false
      (fun ords p => run_party false pp cF c1 c2 (nth i0 ins p) ords rs p) out,
    collect_proof false pp (mkseq out (p_n pp)) = Ok proof &
    accepts e vk (public_part cs z) proof].
Proof.
move=> bil new bl0 Edom Ed2 cok cok1 cok2 m_small wf z0 least gamma0 delta0 sat.
have [pk [vk [ins [out [proof [H1 H2 H3 H4 H5]]]]]] := c57_example alpha beta t g1 g2 rf r1 r2
  gen1 gen2 test_rng r s rs i0 bil new bl0 Edom Ed2 cok cok1 cok2 m_small wf z0 least gamma0 delta0.
exists pk, vk, ins, out, proof; split=> //; apply/(H5 0); last by rewrite horner0 scale0r.
split=> [|i _]; first by rewrite size_poly0.
rewrite horner0; case: (ltnP i (cm_num_constraints (r1_matrices cs))) => lt_i.
  by rewrite nth_mkseq // sat.
by rewrite nth_default // size_mkseq.
Qed.

(** C57: otherwise, among any [N] possible secret points there is one for which it rejects ([N] is
    the size of the domain). *)
Lemma c57_rejected (F : fftField) (T1 T2 T3 : lmodType F) (e : T1 -> T2 -> T3) lam b (pp : pss F) dom d2
    (cF : codec F) (c1 : codec T1) (c2 : codec T2) mb mb1 mb2
    (cs : r1cs F) (z : seq F) (alpha beta gamma delta : F) (g1 : T1) (g2 : T2)
    rf (r1 : nat -> rng T1) (r2 : nat -> rng T2) gen1 gen2 test_rng (r s : F) (rs : nat -> rng F) i0 :
  bilinear_map e -> pss_new F false (2 ^ lam) = Ok pp -> (0 < b + lam)%N ->
  domain_new F (2 ^ (b + lam)) = Some dom -> domain_new F (2 * 2 ^ (b + lam)) = Some d2 ->
  codec_ok cF mb -> codec_ok c1 mb1 -> codec_ok c2 mb2 -> (2 ^ b < 256 ^ 8)%N ->
  well_formed cs (size z) -> z`_0 = 1 ->
  least_pow2 (cm_num_constraints (r1_matrices cs) + num_instance_variables (r1_matrices cs))
             (2 ^ (b + lam)) ->
  gamma != 0 -> delta != 0 ->
  ~ satisfied cs z -> e g1 g2 != 0 ->
  forall ts : seq F, uniq ts -> (2 ^ (b + lam) <= size ts)%N -> exists2 t, t \in ts &
  exists pk vk ins (out : nat -> T1 * T2 * T1) proof, [/\
    setup cs (size z) alpha beta gamma delta t g1 g2 = Ok (pk, vk),
    deal_inputs false pp rf r1 r2 gen1 gen2 test_rng pk (r1_matrices cs) z r s = Ok ins,
    party_yields (p_n pp) false
      (fun ords p => run_party false pp cF c1 c2 (nth i0 ins p) ords rs p) out,
    collect_proof false pp (mkseq out (p_n pp)) = Ok proof &
    ~ accepts e vk (public_part cs z) proof].
Proof.
move=> bil new bl0 Edom Ed2 cok cok1 cok2 m_small wf z0 least gamma0 delta0 unsat nz ts uts sts.
have [_ Es Eo] := dom_ok Edom; set N := (2 ^ (b + lam))%N in sts *.
set nc := cm_num_constraints (r1_matrices cs).
have le_c : (nc <= N)%N.
  by case: least => k [_ le _]; apply: leq_trans le; apply: leq_addr.
pose v := mkseq (fun i => if (i < nc)%N then defect cs z i else 0) N.
have [|c sc Ev] := interpolate (v := v) Edom; first by rewrite size_mkseq Es.
rewrite Es in sc Ev; have [ID _] := interpolates_evals dom 1 sc; rewrite -Ev in ID.
have {}ID : interpolates (d_gen dom) N (mkseq (defect cs z) nc) (Poly c).
  case: ID => s1 H1; split=> // i lt_i; rewrite H1 // nth_mkseq //.
  by case: ltnP => H; [rewrite nth_mkseq|rewrite nth_default ?size_mkseq].
have D0 : Poly c != 0.
  apply/eqP => E; case: unsat => i lt_i; have [_ /(_ i)] := ID; rewrite E horner0 nth_mkseq // => <- //.
  exact: leq_trans le_c.
have /allPn[t t_in nr] : ~~ all (root (Poly c)) ts.
  apply/negP => /(max_poly_roots D0) /(_ uts); apply/negP; rewrite -leqNgt.
  by apply: leq_trans sts; case: ID.
exists t => //.
have [pk [vk [ins [out [proof [H1 H2 H3 H4 H5]]]]]] := c57_example alpha beta t g1 g2 rf r1 r2
  gen1 gen2 test_rng r s rs i0 bil new bl0 Edom Ed2 cok cok1 cok2 m_small wf z0 least gamma0 delta0.
exists pk, vk, ins, out, proof; split=> //; rewrite (H5 _ ID) => /eqP.
by rewrite scaler_eq0 (negbTE nz) orbF; apply/negP.
Qed.
