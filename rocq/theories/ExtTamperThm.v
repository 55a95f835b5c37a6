(** Theorems about wrong shares of the QAP: [circom_h], [libsnark_h] and the prover on any vectors. *)
From mathcomp Require Import all_ssreflect all_algebra.
From mathcomp Require Import zify.
From Verif Require Import RingTac Base ModelField ModelUtils ModelPss ModelPack ModelFft ModelNet.
From Verif Require Import ModelProto ModelQap ModelProve ModelMain Spec SpecNet SpecProto SpecGroth.
From Verif Require Import SpecVerify SpecTamper SpecExtTamper.
From Verif Require Import NetProofs KingProofs NetThm PartyProofs.
From Verif Require Import FieldProofs UtilsProofs PssProofs PackProofs FftProofs ProtoProofs DegProofs.
From Verif Require Import PssThm ProtoThm QapProofs ExtProofs GrothThm ProveProofs ProveThm.
From Verif Require Import TamperProofs TamperFft TamperThm ProveTamperThm.
Set Implicit Arguments.
Unset Strict Implicit.
Unset Printing Implicit Defensive.
Import GRing.Theory.
Local Open Scope ring_scope.

Local Notation Fm F := [lmodType F of F^o].

Section Chains.
Variable F : fftField.
Variables (dbg : bool) (pp : pss F) (lam b : nat) (dom : domain F) (cF : codec F) (mb : nat).
Hypothesis new : pss_new F dbg (2 ^ lam) = Ok pp.
Hypothesis Edom : domain_new F (2 ^ (b + lam)) = Some dom.
Hypotheses (cok : codec_ok cF mb) (m_small : (2 ^ b < 256 ^ 8)%N).
  Local Notation alone := (fun d => (d != 0%N) && (p_n pp <= d)%N).

Lemma guessed_exists (x : nat -> seq F) : exists v, guessed_strides pp lam b x v.
Proof.
have El := pss_new_l new.
have [v [sv Ev]] := strides_exist El m_small
  (fun e j => interpolated (T := Fm F) pp (entry (T := Fm F) x e) j).
by exists v; split=> // e j le lj; apply: Ev => //; rewrite El.
Qed.

Lemma chain_any rearrange g masks masks' (x : nat -> seq F) (v : seq F) (r r' : rng F) :
  fft_masks dbg pp true g (d_gen_inv dom) (2 ^ (b + lam)) masks ->
  fft_masks dbg pp rearrange 1 (d_gen dom) (2 ^ (b + lam)) masks' ->
  (forall p, (p < p_n pp)%N -> size (x p) = (2 ^ b)%N) ->
  (dbg -> forall e, (e < 2 ^ b)%N -> imbalance (T := Fm F) pp (entry (T := Fm F) x e) = 0) ->
  guessed_strides pp lam b x v ->
  exists (P : {poly F}) (y out : nat -> seq F), [/\
    interpolates (d_gen dom) (2 ^ (b + lam)) v P,
    forall ord, hash_ok ord -> king_prog (p_n pp) alone
      (fun p => d_ifft dbg pp (p_n pp) p ord cF (x p) (masks p) true dom g r) y,
    forall ord, hash_ok ord -> king_prog (p_n pp) alone
      (fun p => d_fft dbg pp (p_n pp) p ord cF (y p) (masks' p) rearrange dom r') out &
    vsharing (T := Fm F) pp (2 * p_l pp) (2 ^ b) out (slots (T := Fm F) pp rearrange b (b + lam)
      (mkseq (fun i => P.[g * d_gen dom ^+ i]) (2 ^ (b + lam))))].
Proof.
move=> Hm Hm' sx bal [sv Ev]; have ok := pss_new_ok new; have El := pss_new_l new.
have l0 := pp_l_gt0 ok; have [_ Es _] := dom_ok Edom.
have M := fft_masks_ok new (dom_prim_inv Edom) Hm.
have M' := fft_masks_ok new (dom_prim Edom) Hm'.
have bal' : ~~ (dbg && unbalanced (T := Fm F) pp x (2 ^ b)).
  by apply/negP => /andP[dbgT /unbalancedP[e le]]; rewrite (bal dbgT e le) eqxx.
have [|c sc Evc] := interpolate (v := v) Edom; first by rewrite sv Es.
rewrite Es in sc Evc; rewrite Evc in Ev.
have Ev' e j : (e < 2 ^ b)%N -> (j < p_l pp)%N -> strides (T := Fm F) b (b + lam)
    (evals (T := Fm F) 1 (d_gen dom) (2 ^ (b + lam)) c) e j =
    interpolated (T := Fm F) pp (entry (T := Fm F) x e) j by move=> le; rewrite El; apply: Ev.
have [y [Hy Hp]] := d_ifft_any ok El cok m_small Edom r M sx bal' sc Ev'.
have scc : size (coset_coeffs (T := Fm F) g c) = (2 ^ (b + lam))%N by rewrite size_mkseq.
have Hd2 : (2 * p_l pp <= 4 * p_l pp - 1)%N by lia.
have [out [Ho Hp']] := d_fft_prog ok El cok m_small Edom dbg r' Hd2 M' scc Hy.
exists (Poly c), y, out; split=> //.
- by rewrite Evc; have [] := interpolates_evals dom 1 sc.
- by move=> ord Ho'; apply: king_prog_dok (Hp' _ Ho') => d /andP[].
by rewrite coset_evals in Ho; rewrite (interpolates_evals dom g sc).2 in Ho.
Qed.

End Chains.

Section Programs.
Variable F : fftField.
Variables (dbg : bool) (pp : pss F) (lam b : nat) (dom : domain F) (cF : codec F) (mb : nat).
Variables (q : nat -> qap_t F) (masks : nat -> seq (fft_mask F)) (va vb vc : seq F) (r : nat -> rng F).
Hypothesis new : pss_new F dbg (2 ^ lam) = Ok pp.
Hypothesis Edom : domain_new F (2 ^ (b + lam)) = Some dom.
Hypotheses (cok : codec_ok cF mb) (m_small : (2 ^ b < 256 ^ 8)%N).
Hypothesis Hq : forall p, (p < p_n pp)%N -> q_domain (q p) = dom.
Hypothesis sq : forall p, (p < p_n pp)%N ->
  [/\ size (q_a (q p)) = (2 ^ b)%N, size (q_b (q p)) = (2 ^ b)%N & size (q_c (q p)) = (2 ^ b)%N].
Hypothesis bal : dbg -> forall e, (e < 2 ^ b)%N ->
  [/\ imbalance (T := Fm F) pp (entry (T := Fm F) (fun p => q_a (q p)) e) = 0,
      imbalance (T := Fm F) pp (entry (T := Fm F) (fun p => q_b (q p)) e) = 0 &
      imbalance (T := Fm F) pp (entry (T := Fm F) (fun p => q_c (q p)) e) = 0].
Hypothesis Ga : guessed_strides pp lam b (fun p => q_a (q p)) va.
Hypothesis Gb : guessed_strides pp lam b (fun p => q_b (q p)) vb.
Hypothesis Gc : guessed_strides pp lam b (fun p => q_c (q p)) vc.
  Local Notation alone := (fun d => (d != 0%N) && (p_n pp <= d)%N).

Lemma circom_any d2 (gen : F) (dmasks : nat -> degred_mask (Fm F)) :
  domain_new F (2 * 2 ^ (b + lam)) = Some d2 ->
  (forall i, (i < 3)%N -> fft_masks dbg pp true (d_gen d2) (d_gen_inv dom) (2 ^ (b + lam))
                            (fun p => nth (no_mask F) (masks p) i)) ->
  (forall i, (3 <= i < 6)%N -> fft_masks dbg pp false 1 (d_gen dom) (2 ^ (b + lam))
                            (fun p => nth (no_mask F) (masks p) i)) ->
  degred_masks dbg pp (gen : Fm F) (2 ^ b) dmasks ->
  exists (A B C : {poly F}) (out : nat -> seq F), [/\
    [/\ interpolates (d_gen dom) (2 ^ (b + lam)) va A,
        interpolates (d_gen dom) (2 ^ (b + lam)) vb B &
        interpolates (d_gen dom) (2 ^ (b + lam)) vc C],
    (2 * 2 ^ (b + lam))%N.-primitive_root (d_gen d2), d_gen d2 ^+ 2 = d_gen dom,
    vsharing (T := Fm F) pp (2 * 2 ^ lam) (2 ^ b) out (blocks (T := Fm F) pp
      (mkseq (fun i => (A * B - C).[d_gen d2 ^+ (2 * i + 1)]) (2 ^ (b + lam)))) &
    forall ords, (forall i, hash_ok (ords i)) -> king_party (p_n pp) alone
      (fun p => circom_h dbg pp (p_n pp) p ords cF (q p) (masks p) (dmasks p) r) out].
Proof.
set N := (2 ^ (b + lam))%N.
move=> Ed2 M1 M2 M3; have ok := pss_new_ok new; have El := pss_new_l new.
have [dok Es Eo] := dom_ok Edom; have pr := dom_prim Edom.
have N0 : (0 < N)%N by rewrite expn_gt0.
have [Edr prz Ez2] := double_rootP Edom Ed2; set z := d_gen d2 in Edr prz Ez2 M1.
have [||A [ya [oa [IA A1 A2 A3]]]] := chain_any new Edom cok m_small (r 0%N) (r 3%N)
  (M1 0%N isT) (M2 3%N isT) _ _ Ga; [by move=> p /sq[]|by move=> d e /(bal d)[]|].
have [||B [yb [ob [IB B1 B2 B3]]]] := chain_any new Edom cok m_small (r 1%N) (r 4%N)
  (M1 1%N isT) (M2 4%N isT) _ _ Gb; [by move=> p /sq[]|by move=> d e /(bal d)[]|].
have [||C [yc [oc [IC C1 C2 C3]]]] := chain_any new Edom cok m_small (r 2%N) (r 5%N)
  (M1 2%N isT) (M2 5%N isT) _ _ Gc; [by move=> p /sq[]|by move=> d e /(bal d)[]|].
have Habc := vsharing_abc ok El 1 A3 B3 C3.
pose he p := zipmap (fun ab c => ab.1 * ab.2 - c) (zip (oa p) (ob p)) (oc p).
have Hhe : vsharing (T := Fm F) pp (4 * p_l pp - 1) (2 ^ b) he (blocks (T := Fm F) pp
      (mkseq (fun i => (A * B - C).[z ^+ (2 * i + 1)]) N)).
  apply: vsharing_ext Habc => [p lt_p|e j lt_e lt_j].
    by rewrite /he /zipmap; apply: eq_map => ab; rewrite mulr1.
  rewrite -[blocks (T := Fm F) pp]/(slots (T := Fm F) pp false b (b + lam)).
  rewrite !(slots_mkseq El (T := Fm F)) //; move: (slot_ix _ _ _ _ _ _) => i.
  by rewrite mulr1 -Ez2 -exprM -exprS addn1 !hornerE.
have m8 : (0 < 2 ^ b < 256 ^ 8)%N by rewrite expn_gt0.
have [out [Ho Hp]] := deg_red_prog (T := Fm F) ok cok dbg (r 6%N) m8 (leqnn _)
  (degred_masks_ok new (andP m8).1 M3) Hhe.
exists A, B, C, out; split=> //; first by rewrite El in Ho.
move=> ords Hords; have n0 := n_gt0 new.
apply: (@king_party_ext _ _ _ _ (fun p =>
  pbind (try_join3 (d_ifft dbg pp (p_n pp) p (ords 0%N) cF (q_a (q p)) (nth (no_mask F) (masks p) 0) true dom z (r 0%N))
                   (d_ifft dbg pp (p_n pp) p (ords 1%N) cF (q_b (q p)) (nth (no_mask F) (masks p) 1) true dom z (r 1%N))
                   (d_ifft dbg pp (p_n pp) p (ords 2%N) cF (q_c (q p)) (nth (no_mask F) (masks p) 2) true dom z (r 2%N)))
  (fun '(a, bb, c) =>
  pbind (try_join3 (d_fft dbg pp (p_n pp) p (ords 3%N) cF a (nth (no_mask F) (masks p) 3) false dom (r 3%N))
                   (d_fft dbg pp (p_n pp) p (ords 4%N) cF bb (nth (no_mask F) (masks p) 4) false dom (r 4%N))
                   (d_fft dbg pp (p_n pp) p (ords 5%N) cF c (nth (no_mask F) (masks p) 5) false dom (r 5%N)))
  (fun '(a, bb, c) =>
  pthread 0 (deg_red dbg pp (p_n pp) p (ords 6%N) (T := Fm F) cF
    (zipmap (fun ab c => ab.1 * ab.2 - c) (zip a bb) c) (dmasks p) (r 6%N)))))) => //.
  by move=> p lt_p; rewrite /circom_h Hq // Edr.
apply: (king_party_bind (v1 := fun p => (ya p, yb p, yc p))) => //.
  by apply: try_join3_party; [apply: A1|apply: B1|apply: C1].
apply: (king_party_bind (v1 := fun p => (oa p, ob p, oc p))) => //.
  by apply: try_join3_party; [apply: A2|apply: B2|apply: C2].
apply: pthread_party; apply: (king_prog_dok _ (Hp _ (Hords 6%N))) => d /andP[] //.
Qed.

Lemma libsnark_any :
  ff_generator F ^+ (2 ^ (b + lam)) != 1 ->
  (forall i, (i < 3)%N -> fft_masks dbg pp true (ff_generator F) (d_gen_inv dom) (2 ^ (b + lam))
                            (fun p => nth (no_mask F) (masks p) i)) ->
  (forall i, (3 <= i < 6)%N -> fft_masks dbg pp true 1 (d_gen dom) (2 ^ (b + lam))
                            (fun p => nth (no_mask F) (masks p) i)) ->
  fft_masks dbg pp false (ff_generator F)^-1 (d_gen_inv dom) (2 ^ (b + lam))
                            (fun p => nth (no_mask F) (masks p) 6) ->
  exists (A B C : {poly F}) (hc : seq F) (out : nat -> seq F), [/\
    [/\ interpolates (d_gen dom) (2 ^ (b + lam)) va A,
        interpolates (d_gen dom) (2 ^ (b + lam)) vb B &
        interpolates (d_gen dom) (2 ^ (b + lam)) vc C],
    size hc = (2 ^ (b + lam))%N,
    forall i, (i < 2 ^ (b + lam))%N -> let x := ff_generator F * d_gen dom ^+ i in
      (A * B - C).[x] = (Poly hc).[x] * (ff_generator F ^+ (2 ^ (b + lam)) - 1),
    vsharing (T := Fm F) pp (2 * 2 ^ lam) (2 ^ b) out (blocks (T := Fm F) pp hc) &
    party_yields (p_n pp) true
      (fun ords p => libsnark_h dbg pp (p_n pp) p ords cF (q p) (masks p) r) out].
Proof.
set N := (2 ^ (b + lam))%N; set g := ff_generator F.
move=> gN M1 M2 M3; have ok := pss_new_ok new; have El := pss_new_l new.
have [dok Es Eo] := dom_ok Edom; have pr := dom_prim Edom.
have N0 : (0 < N)%N by rewrite expn_gt0.
have g0 : g != 0 by apply: ff_generator_neq0.
have [||A [ya [oa [IA A1 A2 A3]]]] := chain_any new Edom cok m_small (r 0%N) (r 3%N)
  (M1 0%N isT) (M2 3%N isT) _ _ Ga; [by move=> p /sq[]|by move=> d e /(bal d)[]|].
have [||B [yb [ob [IB B1 B2 B3]]]] := chain_any new Edom cok m_small (r 1%N) (r 4%N)
  (M1 1%N isT) (M2 4%N isT) _ _ Gb; [by move=> p /sq[]|by move=> d e /(bal d)[]|].
have [||C [yc [oc [IC C1 C2 C3]]]] := chain_any new Edom cok m_small (r 2%N) (r 5%N)
  (M1 2%N isT) (M2 5%N isT) _ _ Gc; [by move=> p /sq[]|by move=> d e /(bal d)[]|].
have Ez : eval_vanishing dom g = g ^+ N - 1 by rewrite /eval_vanishing Eo expr1n Es.
have z0 : g ^+ N - 1 != 0 by rewrite subr_eq0.
set z := (g ^+ N - 1)^-1.
pose hv := mkseq (fun i => (A * B - C).[g * d_gen dom ^+ i] * z) N.
have [|c sc' Ev] := interpolate (v := hv) Edom; first by rewrite size_mkseq Es.
rewrite Es -/N in sc' Ev; pose hc := coset_coeffs (T := Fm F) g^-1 c.
have shc : size hc = N by rewrite size_mkseq.
have Ehv : evals (T := Fm F) g (d_gen dom) N hc = hv.
  by rewrite -coset_evals -/N -[X in coset_coeffs X]invrK coset_inverse ?invr_eq0.
have Ehc i : (i < N)%N -> (Poly hc).[g * d_gen dom ^+ i] = (A * B - C).[g * d_gen dom ^+ i] * z.
  by move=> lt_i; rewrite -pval_horner -(nth_mkseq 0 (fun i => pval _ _) lt_i) -/(evals _ _ _ _) Ehv nth_mkseq.
have Habc := vsharing_abc ok El z A3 B3 C3.
set he := (fun p => zipmap _ _ _) in Habc.
have Hhe : vsharing (T := Fm F) pp (4 * p_l pp - 1) (2 ^ b) he (strides (T := Fm F) b (b + lam)
    (evals (T := Fm F) 1 (d_gen dom) N (coset_coeffs (T := Fm F) g hc))).
  apply: vsharing_ext Habc => // e j lt_e lt_j.
  rewrite coset_evals -/N Ehv.
  rewrite -[strides (T := Fm F) b (b + lam)]/(slots (T := Fm F) pp true b (b + lam)).
  by rewrite !(slots_mkseq El (T := Fm F)) // !hornerE.
have shcc : size (coset_coeffs (T := Fm F) g hc) = N by rewrite size_mkseq.
have M3' := fft_masks_ok new (dom_prim_inv Edom) M3.
have [out [Ho Hp]] := d_ifft_prog ok El cok m_small Edom dbg (r 6%N) (leqnn _) M3' shcc Hhe.
exists A, B, C, hc, out; split=> //.
- by move=> i lt_i x; rewrite Ehc // mulfVK.
- by rewrite coset_inverse // El in Ho.
apply: party_yields_any; [exact: n_gt0 new|by move=> *; apply: separate_libsnark|].
move=> ords Hords; have n0 := n_gt0 new.
apply: (@king_party_ext _ _ _ _ (fun p =>
  pbind (try_join3 (d_ifft dbg pp (p_n pp) p (ords 0%N) cF (q_a (q p)) (nth (no_mask F) (masks p) 0) true dom g (r 0%N))
                   (d_ifft dbg pp (p_n pp) p (ords 1%N) cF (q_b (q p)) (nth (no_mask F) (masks p) 1) true dom g (r 1%N))
                   (d_ifft dbg pp (p_n pp) p (ords 2%N) cF (q_c (q p)) (nth (no_mask F) (masks p) 2) true dom g (r 2%N)))
  (fun '(a, bb, c) =>
  pbind (try_join3 (d_fft dbg pp (p_n pp) p (ords 3%N) cF a (nth (no_mask F) (masks p) 3) true dom (r 3%N))
                   (d_fft dbg pp (p_n pp) p (ords 4%N) cF bb (nth (no_mask F) (masks p) 4) true dom (r 4%N))
                   (d_fft dbg pp (p_n pp) p (ords 5%N) cF c (nth (no_mask F) (masks p) 5) true dom (r 5%N)))
  (fun '(a, bb, c) =>
  pthread 0 (d_ifft dbg pp (p_n pp) p (ords 6%N) cF
    (zipmap (fun ab c => (ab.1 * ab.2 - c) * z) (zip a bb) c) (nth (no_mask F) (masks p) 6) false dom g^-1 (r 6%N)))))) => //.
  move=> p lt_p; rewrite /libsnark_h Hq // /get_coset -/g (negbTE g0) /=.
  by rewrite Ez /inverse (negbTE z0) /=.
apply: (king_party_bind (v1 := fun p => (ya p, yb p, yc p))) => //.
  by apply: try_join3_party; [apply: A1|apply: B1|apply: C1].
apply: (king_party_bind (v1 := fun p => (oa p, ob p, oc p))) => //.
  by apply: try_join3_party; [apply: A2|apply: B2|apply: C2].
by apply: pthread_party; apply: (king_prog_dok _ (Hp _ (Hords 6%N))) => d /andP[].
Qed.

End Programs.

(*** theorems ***)

(** C79: whatever vectors the parties use, they determine one vector. *)
Lemma c79_guessed (F : fftField) dbg lam b (pp : pss F) (x : nat -> seq F) :
  pss_new F dbg (2 ^ lam) = Ok pp -> (2 ^ b < 256 ^ 8)%N ->
  exists! v, guessed_strides pp lam b x v.
Proof.
move=> new m_small; have [v [sv Gv]] := guessed_exists new m_small x.
exists v; split=> // w [sw Gw]; apply: (@eq_from_nth _ 0) => [|i]; rewrite sv ?sw // => li.
set y := bitrev (b + lam) i; have m0 : (0 < 2 ^ b)%N by rewrite expn_gt0.
have le : (y %% 2 ^ b < 2 ^ b)%N by rewrite ltn_mod.
have lj : (y %/ 2 ^ b < 2 ^ lam)%N by rewrite ltn_divLR // mulnC -expnD /y bitrev_lt.
have Ey : (y %% 2 ^ b + y %/ 2 ^ b * 2 ^ b)%N = y by rewrite addnC -divn_eq.
by have := Gw _ _ le lj; rewrite -(Gv _ _ le lj) /strides Ey /y bitrevK.
Qed.

(** C79: [circom_h] on any vectors of the right lengths, if nobody crashes.  In release builds all
    parties finish on every schedule, with what C37 says about the vectors that the inputs
    interpolate to.  The same holds in debug builds if the inputs are balanced. *)
Lemma c79_circom_h (F : fftField) dbg lam b (pp : pss F) dom d2 (cF : codec F) mb (gen : F)
    (q : nat -> qap_t F) (masks : nat -> seq (fft_mask F)) (dmasks : nat -> degred_mask (Fm F))
    (r : nat -> rng F) (va vb vc : seq F) :
  pss_new F dbg (2 ^ lam) = Ok pp -> domain_new F (2 ^ (b + lam)) = Some dom ->
  domain_new F (2 * 2 ^ (b + lam)) = Some d2 -> codec_ok cF mb -> (2 ^ b < 256 ^ 8)%N ->
  (forall i, (i < 3)%N -> fft_masks dbg pp true (d_gen d2) (d_gen_inv dom) (2 ^ (b + lam))
                            (fun p => nth (no_mask F) (masks p) i)) ->
  (forall i, (3 <= i < 6)%N -> fft_masks dbg pp false 1 (d_gen dom) (2 ^ (b + lam))
                            (fun p => nth (no_mask F) (masks p) i)) ->
  degred_masks dbg pp (gen : Fm F) (2 ^ b) dmasks ->
  (forall p, (p < p_n pp)%N -> q_domain (q p) = dom) ->
  (forall p, (p < p_n pp)%N ->
    [/\ size (q_a (q p)) = (2 ^ b)%N, size (q_b (q p)) = (2 ^ b)%N & size (q_c (q p)) = (2 ^ b)%N]) ->
  (dbg -> forall e, (e < 2 ^ b)%N ->
    [/\ imbalance (T := Fm F) pp (entry (T := Fm F) (fun p => q_a (q p)) e) = 0,
        imbalance (T := Fm F) pp (entry (T := Fm F) (fun p => q_b (q p)) e) = 0 &
        imbalance (T := Fm F) pp (entry (T := Fm F) (fun p => q_c (q p)) e) = 0]) ->
  guessed_strides pp lam b (fun p => q_a (q p)) va ->
  guessed_strides pp lam b (fun p => q_b (q p)) vb ->
  guessed_strides pp lam b (fun p => q_c (q p)) vc ->
  exists (A B C : {poly F}) (out : nat -> seq F), [/\
    [/\ interpolates (d_gen dom) (2 ^ (b + lam)) va A,
        interpolates (d_gen dom) (2 ^ (b + lam)) vb B &
        interpolates (d_gen dom) (2 ^ (b + lam)) vc C],
    (2 * 2 ^ (b + lam))%N.-primitive_root (d_gen d2) /\ d_gen d2 ^+ 2 = d_gen dom,
    vsharing (T := Fm F) pp (2 * 2 ^ lam) (2 ^ b) out (blocks (T := Fm F) pp
      (mkseq (fun i => (A * B - C).[d_gen d2 ^+ (2 * i + 1)]) (2 ^ (b + lam)))) &
    party_yields (p_n pp) true
      (fun ords p => circom_h dbg pp (p_n pp) p ords cF (q p) (masks p) (dmasks p) r) out].
Proof.
move=> new Edom Ed2 cok m_small M1 M2 M3 Hq sq bal Ga Gb Gc.
have [A [B [C [out [HI pr Ew Ho Hp]]]]] :=
  circom_any r new Edom cok m_small Hq sq bal Ga Gb Gc Ed2 M1 M2 M3.
exists A, B, C, out; split=> //.
by apply: party_yields_any; [exact: n_gt0 new|move=> *; apply: separate_circom|].
Qed.

(** C79: the same for [libsnark_h].  What comes out is the vector [hc] with
    (A B - C)(x) = hc(x) Z(x) on the coset; if A B - C is not a multiple of Z it is not a quotient. *)
Lemma c79_libsnark_h (F : fftField) dbg lam b (pp : pss F) dom (cF : codec F) mb
    (q : nat -> qap_t F) (masks : nat -> seq (fft_mask F)) (r : nat -> rng F) (va vb vc : seq F) :
  pss_new F dbg (2 ^ lam) = Ok pp -> domain_new F (2 ^ (b + lam)) = Some dom ->
  codec_ok cF mb -> (2 ^ b < 256 ^ 8)%N -> ff_generator F ^+ (2 ^ (b + lam)) != 1 ->
  (forall i, (i < 3)%N -> fft_masks dbg pp true (ff_generator F) (d_gen_inv dom) (2 ^ (b + lam))
                            (fun p => nth (no_mask F) (masks p) i)) ->
  (forall i, (3 <= i < 6)%N -> fft_masks dbg pp true 1 (d_gen dom) (2 ^ (b + lam))
                            (fun p => nth (no_mask F) (masks p) i)) ->
  fft_masks dbg pp false (ff_generator F)^-1 (d_gen_inv dom) (2 ^ (b + lam))
                            (fun p => nth (no_mask F) (masks p) 6) ->
  (forall p, (p < p_n pp)%N -> q_domain (q p) = dom) ->
  (forall p, (p < p_n pp)%N ->
    [/\ size (q_a (q p)) = (2 ^ b)%N, size (q_b (q p)) = (2 ^ b)%N & size (q_c (q p)) = (2 ^ b)%N]) ->
  (dbg -> forall e, (e < 2 ^ b)%N ->
    [/\ imbalance (T := Fm F) pp (entry (T := Fm F) (fun p => q_a (q p)) e) = 0,
        imbalance (T := Fm F) pp (entry (T := Fm F) (fun p => q_b (q p)) e) = 0 &
        imbalance (T := Fm F) pp (entry (T := Fm F) (fun p => q_c (q p)) e) = 0]) ->
  guessed_strides pp lam b (fun p => q_a (q p)) va ->
  guessed_strides pp lam b (fun p => q_b (q p)) vb ->
  guessed_strides pp lam b (fun p => q_c (q p)) vc ->
  exists (A B C : {poly F}) (hc : seq F) (out : nat -> seq F), [/\
    [/\ interpolates (d_gen dom) (2 ^ (b + lam)) va A,
        interpolates (d_gen dom) (2 ^ (b + lam)) vb B &
        interpolates (d_gen dom) (2 ^ (b + lam)) vc C],
    size hc = (2 ^ (b + lam))%N /\
    (forall i, (i < 2 ^ (b + lam))%N -> let x := ff_generator F * d_gen dom ^+ i in
      (A * B - C).[x] = (Poly hc).[x] * (ff_generator F ^+ (2 ^ (b + lam)) - 1)),
    vsharing (T := Fm F) pp (2 * 2 ^ lam) (2 ^ b) out (blocks (T := Fm F) pp hc) &
    party_yields (p_n pp) true
      (fun ords p => libsnark_h dbg pp (p_n pp) p ords cF (q p) (masks p) r) out].
Proof.
move=> new Edom cok m_small gN M1 M2 M3 Hq sq bal Ga Gb Gc.
have [A [B [C [hc [out [HI shc Eh Ho Hp]]]]]] :=
  libsnark_any r new Edom cok m_small Hq sq bal Ga Gb Gc gN M1 M2 M3.
by exists A, B, C, hc, out; split.
Qed.

(** C79: the errors of one party: it uses [v] instead of its share vector, and the vector that the
    others' and its own interpolate to differs by the errors times its weights. *)
Lemma c79_one_party (F : fftField) dbg lam b (pp : pss F) deg (x : nat -> seq F) (vx w : seq F) u
    (v : seq F) :
  pss_new F dbg (2 ^ lam) = Ok pp -> (deg <= 4 * 2 ^ lam)%N -> (u < p_n pp)%N ->
  vsharing (T := Fm F) pp deg (2 ^ b) x (strides (T := Fm F) b (b + lam) vx) ->
  guessed_strides pp lam b (replaced x u v) w ->
  forall e j, (e < 2 ^ b)%N -> (j < 2 ^ lam)%N ->
    strides (T := Fm F) b (b + lam) w e j =
    strides (T := Fm F) b (b + lam) vx e j + weight pp u j * (v`_e - (x u)`_e).
Proof.
move=> new Hdeg lu /vsharingP[sx Hx] [_ Ew] e j le lj; have ok := pss_new_ok new.
have El := pss_new_l new; have En := ppn ok; rewrite Ew //.
rewrite (eq_interpolated (T := Fm F) (y' := replaced (entry (T := Fm F) x e) u v`_e)); last first.
  by move=> p _; apply: (entry_replaced (T := Fm F)).
rewrite (interpolated_replaced (T := Fm F)) //; congr (_ + _).
by apply: (interpolated_shared (T := Fm F) ok _ (Hx e le)); rewrite ?El // En El.
Qed.

(** C79: the prover on any shares of the QAP and of the witness. *)
Lemma c79_prover (F : fftField) (T1 T2 : lmodType F) dbg lam b (pp : pss F) dom d2
    (cF : codec F) (c1 : codec T1) (c2 : codec T2) mb mb1 mb2
    (pk : proving_key T1 T2) (nz ni : nat) (q : nat -> qap_t F)
    k0 crs (a ax : nat -> seq F)
    (fm : nat -> seq (fft_mask F)) (gen : F) dm (g1 : T1) g1m (g2 : T2) g2m
    (rsh ssh : seq F) (r s : F) (rs : nat -> rng F) (va vb vc : seq F) :
  pss_new F dbg (2 ^ lam) = Ok pp -> domain_new F (2 ^ (b + lam)) = Some dom ->
  domain_new F (2 * 2 ^ (b + lam)) = Some d2 ->
  codec_ok cF mb -> codec_ok c1 mb1 -> codec_ok c2 mb2 -> (2 ^ b < 256 ^ 8)%N ->
  (* the key belongs to a circuit with [nz] variables, [ni] of them public *)
  (0 < ni <= nz)%N -> size (a_query pk) = nz -> size (b_g1_query pk) = nz ->
  size (b_g2_query pk) = nz -> size (l_query pk) = (nz - ni)%N ->
  (2 ^ (b + lam) - 2 ^ lam < size (h_query pk) <= 2 ^ (b + lam))%N ->
  (* the dealer *)
  pack_key dbg pp pk = Ok crs ->
  (forall i, (i < 3)%N -> fft_masks dbg pp true (d_gen d2) (d_gen_inv dom) (2 ^ (b + lam))
                            (fun p => nth (no_mask F) (fm p) i)) ->
  (forall i, (3 <= i < 6)%N -> fft_masks dbg pp false 1 (d_gen dom) (2 ^ (b + lam))
                            (fun p => nth (no_mask F) (fm p) i)) ->
  degred_masks dbg pp (gen : Fm F) (2 ^ b) dm ->
  (forall i, (i < 4)%N -> msm_masks dbg pp g1 (fun p => nth (msm_mask_zero T1) (g1m p) i)) ->
  msm_masks dbg pp g2 g2m ->
  sharing (T := Fm F) pp (2 * 2 ^ lam) rsh (nseq (2 ^ lam) r) ->
  sharing (T := Fm F) pp (2 * 2 ^ lam) ssh (nseq (2 ^ lam) s) ->
  (forall p, (p < p_n pp)%N -> rsh`_p = 0) \/ (forall p, (p < p_n pp)%N -> rsh`_p != 0) ->
  (* what the parties use as shares of the QAP *)
  (forall p, (p < p_n pp)%N -> q_domain (q p) = dom) ->
  (forall p, (p < p_n pp)%N ->
    [/\ size (q_a (q p)) = (2 ^ b)%N, size (q_b (q p)) = (2 ^ b)%N & size (q_c (q p)) = (2 ^ b)%N]) ->
  (dbg -> forall e, (e < 2 ^ b)%N ->
    [/\ imbalance (T := Fm F) pp (entry (T := Fm F) (fun p => q_a (q p)) e) = 0,
        imbalance (T := Fm F) pp (entry (T := Fm F) (fun p => q_b (q p)) e) = 0 &
        imbalance (T := Fm F) pp (entry (T := Fm F) (fun p => q_c (q p)) e) = 0]) ->
  guessed_strides pp lam b (fun p => q_a (q p)) va ->
  guessed_strides pp lam b (fun p => q_b (q p)) vb ->
  guessed_strides pp lam b (fun p => q_c (q p)) vc ->
  (* what the parties use as witness shares *)
  let m := div_ceil (nz - 1) (2 ^ lam) in let mx := div_ceil (nz - ni) (2 ^ lam) in
  (forall p, (p < p_n pp)%N -> size (a p) = m) -> (forall p, (p < p_n pp)%N -> size (ax p) = mx) ->
  let yA := products (fun p => k_s (nth k0 crs p)) a m in
  let yB1 := products (fun p => k_h (nth k0 crs p)) a m in
  let yB := products (fun p => k_v (nth k0 crs p)) a m in
  let yW := products (fun p => k_w (nth k0 crs p)) ax mx in
  (dbg -> [/\ imbalance pp yA = 0, rsh`_0 != 0 -> imbalance pp yB1 = 0, imbalance pp yB = 0 &
              imbalance pp yW = 0]) ->
  exists (QA QB QC : {poly F}) (out : nat -> T1 * T2 * T1), [/\
    [/\ interpolates (d_gen dom) (2 ^ (b + lam)) va QA,
        interpolates (d_gen dom) (2 ^ (b + lam)) vb QB &
        interpolates (d_gen dom) (2 ^ (b + lam)) vc QC],
    (2 * 2 ^ (b + lam))%N.-primitive_root (d_gen d2) /\ d_gen d2 ^+ 2 = d_gen dom,
    party_yields (p_n pp) true (fun ords p =>
      dsha256 dbg pp (p_n pp) p cF c1 c2 (nth k0 crs p) (q p) (a p) (ax p)
              rsh`_p ssh`_p (fm p) (dm p) (g1m p) (g2m p) ords rs) out &
    let A := pk_alpha_g1 pk + (a_query pk)`_0 + \sum_(j < 2 ^ lam) interpolated pp yA j
             + r *: pk_delta_g1 pk in
    let B1 := pk_beta_g1 pk + (b_g1_query pk)`_0 + \sum_(j < 2 ^ lam) interpolated pp yB1 j
             + s *: pk_delta_g1 pk in
    let B := pk_beta_g2 pk + (b_g2_query pk)`_0 + \sum_(j < 2 ^ lam) interpolated pp yB j
             + s *: pk_delta_g2 pk in
    let C := s *: A + r *: B1 - (r * s) *: pk_delta_g1 pk
             + \sum_(j < 2 ^ lam) interpolated pp yW j
             + \sum_(i < 2 ^ (b + lam)) (QA * QB - QC).[d_gen d2 ^+ (2 * i + 1)] *: (h_query pk)`_i in
    collect_proof dbg pp (mkseq out (p_n pp)) = Ok (A, B, C)].
Proof.
move=> new Edom Ed2 cok cok1 cok2 m_small Hni sA sB1 sB2 sL sH.
move=> Ecrs M1 M2 M3 M4 M5 Hr Hs Hz Hq sq qbal Ga Gb Gc m mx sa sax yA yB1 yB yW bal.
have [QA [QB [QC [h [HI pr Ew Hh Ph]]]]] :=
  circom_any rs new Edom cok m_small Hq sq qbal Ga Gb Gc Ed2 M1 M2 M3.
have [out [Hy Hc]] := prover_any new cok1 cok2 m_small Hni sA sB1 sB2 sL sH Ecrs (size_mkseq _ _) Hh Ph
  M4 M5 Hr Hs Hz sa sax bal.
exists QA, QB, QC, out; split=> //; rewrite Hc /=.
by rewrite (eq_bigr (fun i : 'I_(2 ^ (b + lam)) =>
  (QA * QB - QC).[d_gen d2 ^+ (2 * i + 1)] *: (h_query pk)`_i)) // => i _; rewrite nth_mkseq.
Qed.
