(** Theorems about the reference functions of the tests of the witness extension, and these tests. *)
From mathcomp Require Import all_ssreflect all_algebra.
From mathcomp Require Import zify.
From Verif Require Import Base ModelField ModelUtils ModelPss ModelPack ModelFft ModelNet ModelProto ModelQap.
From Verif Require Import ModelTests Spec SpecNet SpecProto SpecGroth.
From Verif Require Import KingProofs FieldProofs UtilsProofs PssProofs PackProofs FftProofs.
From Verif Require Import ProtoProofs DegProofs ProtoThm ExtProofs GrothThm TestsThm.
Set Implicit Arguments.
Unset Strict Implicit.
Unset Printing Implicit Defensive.
Import GRing.Theory.
Local Open Scope ring_scope.
Local Notation Fm F := [lmodType F of F^o].

Lemma party_yields_ext A n nobody (P Q : (nat -> hash_order) -> nat -> pproc A) out :
  (forall ords p, (p < n)%N -> P ords p = Q ords p) ->
  party_yields n nobody P out -> party_yields n nobody Q out.
Proof.
move=> E H ords d f ms h1 h2 h3; have := H ords d f ms h1 h2 h3.
suff -> : crashing n d f ms (P ords) = crashing n d f ms (Q ords) by [].
by apply/eq_in_map => p; rewrite mem_iota add0n => /andP[_ lt_p]; rewrite E.
Qed.

Lemma zipmap_mkseq (A B C : Type) (f : A -> B -> C) (g : nat -> A) (h : nat -> B) n :
  zipmap f (mkseq g n) (mkseq h n) = mkseq (fun i => f (g i) (h i)) n.
Proof. by rewrite /zipmap /mkseq; elim: (iota 0 n) => //= i s ->. Qed.

Section Ref.
Variable F : fftField.
Variables (b lam : nat) (dom : domain F).
Hypothesis Edom : domain_new F (2 ^ (b + lam)) = Some dom.
  Local Notation N := (2 ^ (b + lam))%N.
  Local Notation w := (d_gen dom).

(** the coefficients of the interpolating polynomial *)
Lemma ifft_interp v P : size v = N -> interpolates w N v P ->
  ifft dom (v : seq (Fm F)) = mkseq (fun i => P`_i) N.
Proof.
move=> sv IP; have [dok Es Eo] := dom_ok Edom; have pr := dom_prim Edom.
have sc : size (mkseq (fun i => P`_i) N) = N by rewrite size_mkseq.
rewrite -[RHS](fftK (T := Fm F) dok) ?sc ?Es //; congr (ifft (T := Fm F) dom _).
rewrite fft_mkseq ?sc ?Es // -[LHS](mkseq_nth 0) sv.
apply/eq_in_map => i; rewrite mem_iota add0n => /andP[_ lt_i].
by rewrite pval_horner (Poly_coefs IP.1) /element Eo mul1r IP.2.
Qed.

Lemma fft_coset g d2 (P : {poly F}) : (size P <= N)%N -> d_size d2 = N -> d_gen d2 = w ->
  d_offset d2 = g ->
  fft d2 (mkseq (fun i => P`_i) N : seq (Fm F)) = mkseq (fun i => P.[g * w ^+ i]) N.
Proof.
move=> sP Es Eg Eo; rewrite fft_mkseq ?size_mkseq ?Es //.
by apply: eq_map => i; rewrite pval_horner Poly_coefs // /element Eo Eg.
Qed.

Lemma fft_distribute z (P : {poly F}) : (size P <= N)%N ->
  fft dom (distribute_powers (mkseq (fun i => P`_i) N : seq F^o) z : seq (Fm F)) =
  mkseq (fun i => P.[z * w ^+ i]) N.
Proof.
move=> sP; have [dok Es Eo] := dom_ok Edom.
have sc : size (mkseq (fun i => P`_i) N) = N by rewrite size_mkseq.
rewrite distribute_powersE sc -[mkseq _ _]/(mkseq (fun i => z ^+ i *: ((mkseq (fun i => P`_i) N)`_i : F^o)) N).
rewrite -{2}sc -/(coset_coeffs (T := Fm F) z _) fft_mkseq ?size_mkseq ?Es //.
transitivity (evals (T := Fm F) 1 w N (coset_coeffs (T := Fm F) z (mkseq (fun i => P`_i) N))).
  by apply: eq_map => i; rewrite /element Eo.
rewrite coset_evals (interpolates_evals dom z sc).2.
by apply: eq_map => i; rewrite Poly_coefs.
Qed.

(** [libsnark_ref] for any vectors *)
Lemma libsnark_refE (va vb vc : seq F) (A B C : {poly F}) (hc : seq F) (g := ff_generator F) :
  size va = N -> size vb = N -> size vc = N -> g ^+ N != 1 ->
  interpolates w N va A -> interpolates w N vb B -> interpolates w N vc C ->
  size hc = N ->
  (forall i, (i < N)%N -> (A * B - C).[g * w ^+ i] = (Poly hc).[g * w ^+ i] * (g ^+ N - 1)) ->
  libsnark_ref dom va vb vc = Ok hc.
Proof.
move=> sa sb sc gN IA IB IC sh Eh; have [dok Es Eo] := dom_ok Edom.
have g0 : g != 0 by apply: ff_generator_neq0.
have z0 : g ^+ N - 1 != 0 by rewrite subr_eq0.
rewrite /libsnark_ref (ifft_interp sa IA) (ifft_interp sb IB) (ifft_interp sc IC).
case Ec: (get_coset dom (ff_generator F)) => [cd|]; last first.
  by move: Ec; rewrite /get_coset (negbTE g0).
have [cok Ecs Ecg Eco] := get_coset_ok dok Ec; rewrite [unwrap _]/= ; cbn [rbind].
rewrite Es in Ecs; rewrite !(fft_coset _ Ecs Ecg Eco) ?IA.1 ?IB.1 ?IC.1 //.
rewrite /mul_evals !size_mkseq eqxx /rassert; cbn [rbind].
rewrite /eval_vanishing Eo expr1n Es -/g /inverse (negbTE z0); cbn [rbind].
rewrite zipmap_mkseq; congr Ok.
rewrite -[RHS](fftK (T := Fm F) cok) ?Ecs //; congr (ifft (T := Fm F) cd _).
rewrite fft_mkseq ?Ecs ?sh //; apply: (etrans (zipmap_mkseq _ _ _ _)); apply/eq_in_map => i; rewrite mem_iota add0n => /andP[_ lt_i].
by rewrite pval_horner /element Ecg Eco -/g -[LHS]/((A.[_] * B.[_] - C.[_]) / _) -hornerM -hornerN -hornerD Eh // mulfK.
Qed.

(** [circom_ref] for any vectors *)
Lemma circom_refE d2 (va vb vc : seq F) (A B C : {poly F}) :
  domain_new F (2 * N) = Some d2 -> size va = N -> size vb = N -> size vc = N ->
  interpolates w N va A -> interpolates w N vb B -> interpolates w N vc C ->
  circom_ref dom va vb vc = Ok (mkseq (fun i => (A * B - C).[d_gen d2 ^+ (2 * i + 1)]) N).
Proof.
move=> Ed2 sa sb sc IA IB IC; have [Edr _ Ez2] := double_rootP Edom Ed2.
rewrite /circom_ref (ifft_interp sa IA) (ifft_interp sb IB) (ifft_interp sc IC) Edr; cbn [rbind].
rewrite !fft_distribute ?IA.1 ?IB.1 ?IC.1 //.
rewrite /mul_evals !size_mkseq eqxx /rassert; cbn [rbind].
rewrite zipmap_mkseq; congr Ok; apply: (etrans (zipmap_mkseq _ _ _ _)); apply: eq_map => i.
by rewrite -Ez2 -exprM -exprS addn1 !hornerE.
Qed.

End Ref.

(*** theorems ***)

(** C68: the reference of the tests: the polynomial that has the values of the quotient on the coset;
    for a satisfied QAP the quotient itself. *)
Lemma c68_libsnark_ref (F : fftField) b lam dom (va vb vc : seq F) (N := (2 ^ (b + lam))%N)
    (g := ff_generator F) :
  domain_new F N = Some dom -> size va = N -> size vb = N -> size vc = N -> g ^+ N != 1 ->
  exists (A B C : {poly F}) (hc : seq F), [/\
    [/\ interpolates (d_gen dom) N va A, interpolates (d_gen dom) N vb B &
        interpolates (d_gen dom) N vc C],
    libsnark_ref dom va vb vc = Ok hc, size hc = N,
    forall i, (i < N)%N -> let x := g * d_gen dom ^+ i in
      (A * B - C).[x] = (Poly hc).[x] * (x ^+ N - 1) &
    (forall i, va`_i * vb`_i = vc`_i) -> A * B - C = Poly hc * ('X^N - 1)].
Proof.
move=> Edom sa sb sc gN; have [dok Es Eo] := dom_ok Edom; have pr := dom_prim Edom.
have interp v : size v = N -> exists P, interpolates (d_gen dom) N v P.
  move=> sv; have [|c scc Ev] := interpolate (v := v) Edom; first by rewrite sv Es.
  rewrite Es -/N in scc Ev; exists (Poly c); rewrite Ev.
  by have [] := interpolates_evals dom 1 scc.
have [[A IA] [B IB] [C IC]] := And3 (interp va sa) (interp vb sb) (interp vc sc).
have g0 : g != 0 by apply: ff_generator_neq0.
have z0 : g ^+ N - 1 != 0 by rewrite subr_eq0.
have xN i : (g * d_gen dom ^+ i) ^+ N = g ^+ N.
  by rewrite exprMn -exprM mulnC exprM (prim_expr_order pr) expr1n mulr1.
pose hv := mkseq (fun i => (A * B - C).[g * d_gen dom ^+ i] / (g ^+ N - 1)) N.
have [|c sc' Ev] := interpolate (v := hv) Edom; first by rewrite size_mkseq Es.
rewrite Es -/N in sc' Ev; pose hc := coset_coeffs (T := Fm F) g^-1 c.
have shc : size hc = N by rewrite size_mkseq.
have Ehv : evals (T := Fm F) g (d_gen dom) N hc = hv.
  by rewrite -coset_evals -/N -[X in coset_coeffs X]invrK coset_inverse ?invr_eq0.
have Ehc i : (i < N)%N -> (A * B - C).[g * d_gen dom ^+ i] = (Poly hc).[g * d_gen dom ^+ i] * (g ^+ N - 1).
  move=> lt_i; rewrite -pval_horner -(nth_mkseq 0 (fun i => pval _ _) lt_i) -/(evals _ _ _ _) Ehv nth_mkseq //.
  by rewrite mulfVK.
exists A, B, C, hc; split=> //; first exact: (libsnark_refE Edom sa sb sc gN IA IB IC shc Ehc).
  by move=> i lt_i x; rewrite xN Ehc.
move=> sat; have [|h Eh sh] := quotient pr IA.1 IB.1 IC.1.
  by move=> i lt_i; rewrite IA.2 // IB.2 // IC.2.
rewrite Eh; congr (_ * _); apply/esym.
have N0 : (0 < N)%N by rewrite expn_gt0.
apply: (coset_uniq pr g0) => [||i lt_i]; first by apply: leq_trans (size_Poly _) _; rewrite shc.
  by rewrite -/N; lia.
by have := Ehc i lt_i; rewrite Eh !hornerE hornerXn xN => /(mulIf z0).
Qed.

(** C68: the other reference: the values on the odd powers of the root of double order. *)
Lemma c68_circom_ref (F : fftField) b lam dom d2 (va vb vc : seq F) (N := (2 ^ (b + lam))%N) :
  domain_new F N = Some dom -> domain_new F (2 * N) = Some d2 ->
  size va = N -> size vb = N -> size vc = N ->
  exists (A B C : {poly F}), [/\
    [/\ interpolates (d_gen dom) N va A, interpolates (d_gen dom) N vb B &
        interpolates (d_gen dom) N vc C],
    (2 * N)%N.-primitive_root (d_gen d2) &
    circom_ref dom va vb vc = Ok (mkseq (fun i => (A * B - C).[d_gen d2 ^+ (2 * i + 1)]) N)].
Proof.
move=> Edom Ed2 sa sb sc; have [dok Es Eo] := dom_ok Edom.
have interp v : size v = N -> exists P, interpolates (d_gen dom) N v P.
  move=> sv; have [|c scc Ev] := interpolate (v := v) Edom; first by rewrite sv Es.
  rewrite Es -/N in scc Ev; exists (Poly c); rewrite Ev.
  by have [] := interpolates_evals dom 1 scc.
have [[A IA] [B IB] [C IC]] := And3 (interp va sa) (interp vb sb) (interp vc sc).
have [_ prz _] := double_rootP Edom Ed2.
by exists A, B, C; split=> //; apply: circom_refE Ed2 sa sb sc IA IB IC.
Qed.

(** C68: [libsnark_dummy_ext_witness], for any three vectors: the parties hold shares of what the
    reference computes. *)
Lemma c68_libsnark_test (F : fftField) dbg lam b (pp : pss F) dom (cF : codec F) mb (q : qap_t F)
    (masks : nat -> seq (fft_mask F)) (r0 : rng F) (r : nat -> rng F) :
  pss_new F dbg (2 ^ lam) = Ok pp -> domain_new F (2 ^ (b + lam)) = Some dom ->
  codec_ok cF mb -> (2 ^ b < 256 ^ 8)%N ->
  ff_generator F ^+ (2 ^ (b + lam)) != 1 ->
  (forall i, (i < 3)%N -> fft_masks dbg pp true (ff_generator F) (d_gen_inv dom) (2 ^ (b + lam))
                            (fun p => nth (no_mask F) (masks p) i)) ->
  (forall i, (3 <= i < 6)%N -> fft_masks dbg pp true 1 (d_gen dom) (2 ^ (b + lam))
                            (fun p => nth (no_mask F) (masks p) i)) ->
  fft_masks dbg pp false (ff_generator F)^-1 (d_gen_inv dom) (2 ^ (b + lam))
                            (fun p => nth (no_mask F) (masks p) 6) ->
  size (q_a q) = (2 ^ (b + lam))%N -> size (q_b q) = (2 ^ (b + lam))%N ->
  size (q_c q) = (2 ^ (b + lam))%N -> q_domain q = dom ->
  exists qs h out, [/\ qap_pss dbg pp q r0 = Ok qs, libsnark_ref dom (q_a q) (q_b q) (q_c q) = Ok h,
    party_yields (p_n pp) false (fun ords p =>
      libsnark_test_party dbg pp (p_n pp) p ords cF (masks p) r qs) out,
    vsharing (T := Fm F) pp (2 * 2 ^ lam) (2 ^ b) out (blocks (T := Fm F) pp h) &
    unpack2_rows dbg pp (mkseq out (p_n pp)) = Ok h /\
    libsnark_check dbg pp dom (q_a q) (q_b q) (q_c q) (mkseq out (p_n pp)) = Ok tt].
Proof.
move=> new Edom cok m_small gN M1 M2 M3 sa sb sc Eq; have El := pss_new_l new; have ok := pss_new_ok new.
have [xa [xb [xc [Eqs Ha Hb Hc]]]] := c35_qap_pss r0 new sa sb sc.
have l0 := pp_l_gt0 ok; have Hdeg : (2 * p_l pp <= 4 * 2 ^ lam - 1)%N by rewrite -El; lia.
have [A [B [C [hc [out [[IA IB IC] shc Ehc Ho Hp]]]]]] := libsnark_party
  (q := fun p => Qap (num_inputs q) (num_constraints q) (xa p) (xb p) (xc p) (q_domain q))
  r new Edom cok m_small Hdeg gN M1 M2 M3 sa sb sc (fun p _ => Eq) Ha Hb Hc.
have Er := libsnark_refE Edom sa sb sc gN IA IB IC shc Ehc.
have m0 : (0 < 2 ^ b)%N by rewrite expn_gt0.
have Em : (2 ^ (b + lam) = 2 ^ b * p_l pp)%N by rewrite El expnD.
have Ho' := Ho; rewrite -El in Ho'.
have U := unpack2_rows_blocks ok dbg m0 (etrans shc Em) Ho'.
eexists; exists hc, out; split=> //; first exact: Eqs.
  apply: party_yields_ext Hp => ords p lt_p.
  by rewrite /libsnark_test_party (vget_nth (Qap 0 0 [::] [::] [::] dom)) ?size_mkseq ?nth_mkseq.
by split; rewrite // /libsnark_check Er U /rassert; cbn [rbind]; rewrite eqxx.
Qed.

(** C68: [circom_dummy_ext_witness], for any three vectors; [unpack] in place of [unpack2] gives the
    same (the last lines of [ext_witness_circom]). *)
Lemma c68_circom_test (F : fftField) dbg lam b (pp : pss F) dom d2 (cF : codec F) mb (gen : F) (q : qap_t F)
    (masks : nat -> seq (fft_mask F)) (dmasks : nat -> degred_mask (Fm F)) (r0 : rng F) (r : nat -> rng F) :
  pss_new F dbg (2 ^ lam) = Ok pp -> domain_new F (2 ^ (b + lam)) = Some dom ->
  domain_new F (2 * 2 ^ (b + lam)) = Some d2 ->
  codec_ok cF mb -> (2 ^ b < 256 ^ 8)%N ->
  (forall i, (i < 3)%N -> fft_masks dbg pp true (d_gen d2) (d_gen_inv dom) (2 ^ (b + lam))
                            (fun p => nth (no_mask F) (masks p) i)) ->
  (forall i, (3 <= i < 6)%N -> fft_masks dbg pp false 1 (d_gen dom) (2 ^ (b + lam))
                            (fun p => nth (no_mask F) (masks p) i)) ->
  degred_masks dbg pp (gen : Fm F) (2 ^ b) dmasks ->
  size (q_a q) = (2 ^ (b + lam))%N -> size (q_b q) = (2 ^ (b + lam))%N ->
  size (q_c q) = (2 ^ (b + lam))%N -> q_domain q = dom ->
  exists qs h out, [/\ qap_pss dbg pp q r0 = Ok qs, circom_ref dom (q_a q) (q_b q) (q_c q) = Ok h,
    party_yields (p_n pp) false (fun ords p =>
      circom_test_party dbg pp (p_n pp) p ords cF (masks p) r qs (dmasks p)) out,
    vsharing (T := Fm F) pp (2 * 2 ^ lam) (2 ^ b) out (blocks (T := Fm F) pp h) &
    unpack2_rows dbg pp (mkseq out (p_n pp)) = Ok h /\
    unpack_rows pp (mkseq out (p_n pp)) = Ok h /\
    circom_check dbg pp dom (q_a q) (q_b q) (q_c q) (mkseq out (p_n pp)) = Ok tt].
Proof.
move=> new Edom Ed2 cok m_small M1 M2 M3 sa sb sc Eq; have El := pss_new_l new; have ok := pss_new_ok new.
have [xa [xb [xc [Eqs Ha Hb Hc]]]] := c35_qap_pss r0 new sa sb sc.
have l0 := pp_l_gt0 ok; have Hdeg : (2 * p_l pp <= 4 * 2 ^ lam - 1)%N by rewrite -El; lia.
have [A [B [C [out [[IA IB IC] _ _ Ho Hp]]]]] := c37_circom_h
  (q := fun p => Qap (num_inputs q) (num_constraints q) (xa p) (xb p) (xc p) (q_domain q))
  r new Edom Ed2 cok m_small Hdeg M1 M2 M3 sa sb sc (fun p _ => Eq) Ha Hb Hc.
have Er := circom_refE Edom Ed2 sa sb sc IA IB IC.
set h := mkseq _ _ in Er Ho; have sh : size h = (2 ^ b * p_l pp)%N by rewrite size_mkseq El expnD.
have m0 : (0 < 2 ^ b)%N by rewrite expn_gt0.
have Ho' := Ho; rewrite -El in Ho'.
have U := unpack2_rows_blocks ok dbg m0 sh Ho'.
eexists; exists h, out; split=> //; first exact: Eqs.
  apply: party_yields_ext Hp => ords p lt_p.
  by rewrite /circom_test_party (vget_nth (Qap 0 0 [::] [::] [::] dom)) ?size_mkseq ?nth_mkseq.
split=> //; split; first exact: unpack_rows_blocks Ho'.
by rewrite /circom_check Er U /rassert; cbn [rbind]; rewrite eqxx.
Qed.

(** C69: the final check of the test accepts results exactly if the vector which they share is that
    of the squares. *)
Lemma c69_check_exact (F : fftField) dbg lam (pp : pss F) (secrets z : seq F) (y : nat -> seq F) k :
  pss_new F dbg (2 ^ lam) = Ok pp -> size secrets = p_l pp -> size z = p_l pp ->
  vsharing (T := Fm F) pp (2 * p_l pp) 1 y (fun _ j => z`_j) ->
  ((if dbg then p_n pp - 1 else 2 * p_l pp) <= k)%N -> (k <= p_n pp)%N ->
  deg_red_check dbg pp secrets (Received (mkseq y k) (iota 0 k)) = Ok tt <->
  z = [seq x ^+ 2 | x <- secrets].
Proof.
move=> new ss sz [Ho1 Ho2] le_k le_n; have ok := pss_new_ok new.
have l0 := pp_l_gt0 ok; have En := ppn ok.
pose sqs := [seq x * x | x <- secrets].
have -> : [seq x ^+ 2 | x <- secrets] = sqs by apply: eq_map => x; rewrite expr2.
rewrite /deg_red_check -/sqs.
have k0 : (0 < k)%N by case: (dbg) le_k; lia.
have R : rect k 1 (mkseq y k).
  by split=> [|i lt_i]; rewrite ?size_mkseq // nth_mkseq // Ho1 // (leq_trans lt_i).
rewrite [ModelNet.shares _]/= [parties _]/= (transpose_rect (0 : F) k0 _ R) //; cbn [rbind].
have -> : mkseq (fun c => mkseq (fun i => (nth [::] (mkseq y k) i)`_c) k) 1 =
    [:: mkseq (fun i => (y i)`_0) k].
  by congr (_ :: _); apply/eq_in_map => i; rewrite mem_iota add0n => /andP[_ lt_i]; rewrite nth_mkseq.
have Hsh := Ho2 0%N isT; rewrite -sz mkseq_nth sz in Hsh.
have fin : rassert (z == sqs) = Ok tt <-> z = sqs.
  by rewrite /rassert; case: eqP => // E; split.
rewrite size_iota; case: eqP => [Ek|_]; cbn [rbind].
  by rewrite Ek /= (unpack_sharing ok Hsh) cats0.
have := lagrange_unpack_sharing ok (dbg := dbg) Hsh (iota_uniq 0 k).
have -> : [seq (mkseq (fun p => (y p)`_0) (p_n pp))`_q | q <- iota 0 k] = mkseq (fun i => (y i)`_0) k.
  apply/eq_in_map => i; rewrite mem_iota add0n => /andP[_ lt_i]; rewrite nth_mkseq //; exact: leq_trans le_n.
rewrite [mapM _ _]/= => -> //=; first by rewrite cats0.
- by apply/allP => i; rewrite mem_iota add0n => /andP[_ lt_i]; apply: leq_trans le_n.
- by rewrite size_iota; case: (dbg) le_k; lia.
by rewrite size_iota => d; move: le_k; rewrite d; lia.
Qed.

(** C69: [test_deg_red], for any secrets: squared shares give sharings of the squares again.  The
    test reconstructs from the first [k = n - 1] parties; a release build from any [2l] or more. *)
Lemma c69_deg_red_test (F : fftField) dbg lam (pp : pss F) (gen : F) (cF : codec F) mb (secrets : seq F)
    (masks : nat -> degred_mask (Fm F)) (r0 : rng F) (r : nat -> rng F) :
  pss_new F dbg (2 ^ lam) = Ok pp -> codec_ok cF mb -> size secrets = p_l pp ->
  degred_masks dbg pp (gen : Fm F) 1 masks ->
  exists shares (out : nat -> seq F), [/\ deg_red_shares dbg pp secrets r0 = Ok shares,
    vsharing (T := Fm F) pp (2 * p_l pp) 1 out (fun _ j => secrets`_j ^+ 2),
    yields (p_n pp) false (fun ords p =>
      deg_red_party dbg pp (p_n pp) p ords cF r shares (masks p)) out &
    forall k, ((if dbg then p_n pp - 1 else 2 * p_l pp) <= k)%N -> (k <= p_n pp)%N ->
      deg_red_check dbg pp secrets (Received (mkseq out k) (iota 0 k)) = Ok tt].
Proof.
move=> new cok ss Hm; have ok := pss_new_ok new; have El := pss_new_l new; have n0 := n_gt0 new.
have l0 := pp_l_gt0 ok; have En := ppn ok.
have [sh [Esh szs Hs]] := pack_sharing (T := Fm F) ok dbg r0 ss.
pose sq : seq F := [seq x * x | x <- (sh : seq F)]; pose sqs := [seq x * x | x <- secrets].
have szq : size sq = p_n pp by rewrite size_map.
have szqs : size sqs = p_l pp by rewrite size_map.
have square (s : seq F) : zipmap (fun x y : F^o => x *: y) s s = [seq x * x | x <- s].
  by rewrite /zipmap; elim: s => //= x s ->.
have Hv : vsharing (T := Fm F) pp (4 * p_l pp - 1) 1 (fun p => [:: sq`_p]) (fun _ j => sqs`_j).
  split=> // -[|//] _.
  have l2 : (0 < 2 * p_l pp)%N by lia.
  have := sharing_mul (T := Fm F) l2 Hs Hs; rewrite !square.
  rewrite -[X in mkseq _ X]szq -[X in _ -> sharing _ _ _ (mkseq _ X)]szqs !mkseq_nth.
  by have -> : (2 * p_l pp + 2 * p_l pp).-1 = (4 * p_l pp - 1)%N by lia.
have Hdeg : (4 * p_l pp - 1 <= 4 * 2 ^ lam - 1)%N by rewrite El.
have m8 : (0 < 1 < 256 ^ 8)%N by rewrite ltnS leq0n -[X in (X < _)%N](expn0 256) ltn_exp2l.
have [out [Ho Hp]] := c27_deg_red (T := Fm F) (r 0%N) new cok m8 Hdeg Hm Hv.
have Ho' : vsharing (T := Fm F) pp (2 * p_l pp) 1 out (fun _ j => sqs`_j) by rewrite [in (2 * _)%N]El.
exists sq, out; split.
- by rewrite /deg_red_shares Esh.
- by apply: vsharing_ext Ho' => // e j _ lt_j; rewrite (nth_map 0) ?ss // expr2.
- move=> ords sid d f ms h1 h2 h3; have := Hp ords sid d f ms h1 h2 h3.
  suff -> : crashing (p_n pp) d f ms (fun p => pthread sid
      (deg_red dbg pp (p_n pp) p (ords 0%N) (T := Fm F) cF [:: sq`_p] (masks p) (r 0%N))) =
    crashing (p_n pp) d f ms (fun p => pthread sid
      (deg_red_party dbg pp (p_n pp) p ords cF r sq (masks p))) by [].
  apply/eq_in_map => p; rewrite mem_iota add0n => /andP[_ lt_p].
  by rewrite /deg_red_party (vget_nth 0) ?szq.
move=> k le_k le_n; apply/(c69_check_exact new ss szqs Ho' le_k le_n).
by apply: eq_map => x; rewrite expr2.
Qed.

(** C67: the final checks of the tests of the transforms accept a list of results exactly if what is
    unpacked from it is right. *)
Lemma c67_checks_exact (F : fftField) k (pp : pss F) dom (v : seq F) (result : seq (seq F)) :
  domain_new F (2 ^ k) = Some dom -> size v = (2 ^ k)%N -> [/\
    d_ifft_works_check pp dom v result = Ok tt <->
      exists c, [/\ unpack_rows pp result = Ok c, size c = (2 ^ k)%N &
                    v = evals (T := Fm F) 1 (d_gen dom) (2 ^ k) c],
    d_fft_works_check pp dom v result = Ok tt <->
      unpack_rows pp result = Ok (evals (T := Fm F) 1 (d_gen dom) (2 ^ k) v) &
    round_trip_check pp v result = Ok tt <-> unpack_rows pp result = Ok v].
Proof.
move=> Edom sv; have [dok Es Eo _] := domain_new_ok Edom; rewrite next_pow2_expn in Es.
have fE c : size c = (2 ^ k)%N -> fft dom (c : seq (Fm F)) = evals (T := Fm F) 1 (d_gen dom) (2 ^ k) c.
  by move=> sc; rewrite fft_mkseq ?sc ?Es //; apply: eq_map => i; rewrite /element Eo.
rewrite /d_ifft_works_check /d_fft_works_check /round_trip_check.
case: (unpack_rows pp result) => [c|//|//]; cbn [rbind]; rewrite /rassert; last 2 first.
- by split; split=> // -[? []].
- by split; split=> // -[? []].
split.
- case: eqP => E; split=> //.
    have sc : size c = (2 ^ k)%N by rewrite -E size_mkseq Es.
    by move=> _; exists c; split=> //; rewrite -fE // -E (ifftK (T := Fm F) dok) // sv Es.
  move=> [c' [[Ec] sc Ev]]; case: E; rewrite Ec Ev -fE //.
  by apply: (fftK (T := Fm F) dok); rewrite sc Es.
- by rewrite fE //; case: eqP => [->|N]; split=> // -[E']; case: N; rewrite E'.
by case: eqP => [->|N]; split=> // -[E']; case: N; rewrite E'.
Qed.

(** C68: likewise for the tests of the witness extensions. *)
Lemma c68_checks_exact (F : fftField) (dbg : bool) (pp : pss F) dom (va vb vc : seq F) (result : seq (seq F)) :
  (libsnark_check dbg pp dom va vb vc result = Ok tt <->
     exists2 h, libsnark_ref dom va vb vc = Ok h & unpack2_rows dbg pp result = Ok h) /\
  (circom_check dbg pp dom va vb vc result = Ok tt <->
     exists2 h, circom_ref dom va vb vc = Ok h & unpack2_rows dbg pp result = Ok h).
Proof.
have E (x y : res (seq F)) : (let! e := x in let! c := y in rassert (e == c)) = Ok tt <->
    exists2 h, x = Ok h & y = Ok h.
  case: x => [e|//|//]; last 2 first.
  - by split=> // -[].
  - by split=> // -[].
  cbn [rbind]; case: y => [c|//|//]; last 2 first.
  - by split=> // -[].
  - by split=> // -[].
  cbn [rbind]; rewrite /rassert; case: eqP => [->|N]; split=> //; first by exists c.
  by move=> [h [Eh] [Eh']]; case: N; rewrite Eh Eh'.
by split; apply: E.
Qed.
