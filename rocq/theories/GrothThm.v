(** Theorems about the QAP and the witness extension. *)
From mathcomp Require Import all_ssreflect all_algebra.
From mathcomp Require Import zify.
From Verif Require Import RingTac Base ModelField ModelUtils ModelPss ModelPack ModelFft ModelNet.
From Verif Require Import ModelProto ModelQap Spec SpecNet SpecProto SpecGroth.
From Verif Require Import NetProofs KingProofs NetThm PartyProofs.
From Verif Require Import FieldProofs UtilsProofs PssProofs PackProofs FftProofs ProtoProofs DegProofs.
From Verif Require Import ProtoThm QapProofs ExtProofs.
Set Implicit Arguments.
Unset Strict Implicit.
Unset Printing Implicit Defensive.
Import GRing.Theory.
Local Open Scope ring_scope.

Local Notation Fm F := [lmodType F of F^o].

Lemma separate_libsnark (F : fftField) dbg (pp : pss F) n p ords cF q mask r :
  separate (libsnark_h dbg pp n p ords cF q mask r).
Proof.
apply: separate_bind => // cd; apply: separate_bind => // -[[a b] c].
apply: separate_bind => // -[[a' b'] c']; exact: separate_bind.
Qed.

Lemma separate_circom (F : fftField) dbg (pp : pss F) n p ords cF q mask dmask r :
  separate (circom_h dbg pp n p ords cF q mask dmask r).
Proof.
apply: separate_bind => // cd; apply: separate_bind => // -[[a b] c].
by apply: separate_bind => // -[[a' b'] c'].
Qed.

Lemma double_rootP (F : fftField) k (dom d2 : domain F) :
  domain_new F (2 ^ k) = Some dom -> domain_new F (2 * 2 ^ k) = Some d2 ->
  [/\ double_root dom = Ok (d_gen d2), (2 * 2 ^ k)%N.-primitive_root (d_gen d2) &
      d_gen d2 ^+ 2 = d_gen dom].
Proof.
rewrite -expnS => E1 E2.
have [_ Es1 _ _] := domain_new_ok E1; have [dok2 Es2 Eo2 le2] := domain_new_ok E2.
rewrite !next_pow2_expn in Es1 Es2.
split; last 1 first.
- rewrite (domain_new_gen E1) (domain_new_gen E2) !up_expnK // -exprM -expnSr.
  by rewrite up_expnK // in le2; congr (_ ^+ (2 ^ _)); lia.
- by rewrite /double_root Es1 -expnS E2 /= /element Eo2 mul1r expr1.
by have := dok_prim dok2; rewrite Es2.
Qed.

Lemma Poly_coefs (F : fftField) (h : {poly F}) N : (size h <= N)%N -> Poly (mkseq (nth 0 h) N) = h.
Proof.
move=> sh; apply/polyP => i; rewrite coef_Poly.
case: (ltnP i N) => lt_i; first by rewrite nth_mkseq.
by rewrite !nth_default ?size_mkseq // (leq_trans sh).
Qed.

Lemma coset_inverse (F : fftField) (g : F) (c : seq F) : g != 0 ->
  coset_coeffs (T := Fm F) g^-1 (coset_coeffs (T := Fm F) g c) = c.
Proof.
move=> g0; apply: (@eq_from_nth _ 0); rewrite !size_mkseq // => i lt_i.
rewrite !nth_mkseq ?size_mkseq // -[LHS]/(g^-1 ^+ i *: (g ^+ i *: (c`_i : F^o))) scalerA.
by rewrite -exprMn mulVf // expr1n scale1r.
Qed.

(** the three chains of transforms *)
Section Chains.
Variable F : fftField.
Variables (dbg : bool) (pp : pss F) (lam b : nat) (dom : domain F) (cF : codec F) (mb : nat).
Hypothesis new : pss_new F dbg (2 ^ lam) = Ok pp.
Hypothesis Edom : domain_new F (2 ^ (b + lam)) = Some dom.
Hypotheses (cok : codec_ok cF mb) (m_small : (2 ^ b < 256 ^ 8)%N).

Lemma chain_values rearrange g masks masks' (x : nat -> seq F) (v : seq F) deg
    (r r' : rng F) :
  (deg <= 4 * p_l pp - 1)%N ->
  fft_masks dbg pp true g (d_gen_inv dom) (2 ^ (b + lam)) masks ->
  fft_masks dbg pp rearrange 1 (d_gen dom) (2 ^ (b + lam)) masks' ->
  size v = (2 ^ (b + lam))%N ->
  vsharing (T := Fm F) pp deg (2 ^ b) x (strides (T := Fm F) b (b + lam) v) ->
  exists (P : {poly F}) (y out : nat -> seq F), [/\
    interpolates (d_gen dom) (2 ^ (b + lam)) v P,
    forall ord, hash_ok ord -> king_prog (p_n pp) (fun d => d != 0%N)
      (fun p => d_ifft dbg pp (p_n pp) p ord cF (x p) (masks p) true dom g r) y,
    forall ord, hash_ok ord -> king_prog (p_n pp) (fun d => d != 0%N)
      (fun p => d_fft dbg pp (p_n pp) p ord cF (y p) (masks' p) rearrange dom r') out &
    vsharing (T := Fm F) pp (2 * p_l pp) (2 ^ b) out (slots (T := Fm F) pp rearrange b (b + lam)
      (mkseq (fun i => P.[g * d_gen dom ^+ i]) (2 ^ (b + lam))))].
Proof.
move=> Hdeg Hm Hm' sv Hx; have ok := pss_new_ok new; have El := pss_new_l new.
have [_ Es _] := dom_ok Edom.
have M := fft_masks_ok new (dom_prim_inv Edom) Hm.
have M' := fft_masks_ok new (dom_prim Edom) Hm'.
have [|c sc Ev] := interpolate (v := v) Edom; first by rewrite sv Es.
rewrite Es in sc Ev; rewrite Ev in Hx.
have [y [out [H1 H2 H3]]] := chain dbg ok El Edom cok m_small r r' Hdeg M M' sc Hx.
exists (Poly c), y, out; split=> //; rewrite Ev.
by have [] := interpolates_evals dom 1 sc.
Qed.

End Chains.

(** the program of [circom_h] *)
Lemma circom_party (F : fftField) dbg lam b (pp : pss F) dom d2 (cF : codec F) mb (gen : F)
    (q : nat -> qap_t F) (masks : nat -> seq (fft_mask F)) (dmasks : nat -> degred_mask (Fm F))
    (va vb vc : seq F) deg (r : nat -> rng F) :
  pss_new F dbg (2 ^ lam) = Ok pp -> domain_new F (2 ^ (b + lam)) = Some dom ->
  domain_new F (2 * 2 ^ (b + lam)) = Some d2 ->
  codec_ok cF mb -> (2 ^ b < 256 ^ 8)%N -> (deg <= 4 * 2 ^ lam - 1)%N ->
  (forall i, (i < 3)%N -> fft_masks dbg pp true (d_gen d2) (d_gen_inv dom) (2 ^ (b + lam))
                            (fun p => nth (no_mask F) (masks p) i)) ->
  (forall i, (3 <= i < 6)%N -> fft_masks dbg pp false 1 (d_gen dom) (2 ^ (b + lam))
                            (fun p => nth (no_mask F) (masks p) i)) ->
  degred_masks dbg pp (gen : Fm F) (2 ^ b) dmasks ->
  size va = (2 ^ (b + lam))%N -> size vb = (2 ^ (b + lam))%N -> size vc = (2 ^ (b + lam))%N ->
  (forall p, (p < p_n pp)%N -> q_domain (q p) = dom) ->
  vsharing (T := Fm F) pp deg (2 ^ b) (fun p => q_a (q p)) (strides (T := Fm F) b (b + lam) va) ->
  vsharing (T := Fm F) pp deg (2 ^ b) (fun p => q_b (q p)) (strides (T := Fm F) b (b + lam) vb) ->
  vsharing (T := Fm F) pp deg (2 ^ b) (fun p => q_c (q p)) (strides (T := Fm F) b (b + lam) vc) ->
  exists (A B C : {poly F}) (out : nat -> seq F), [/\
    [/\ interpolates (d_gen dom) (2 ^ (b + lam)) va A,
        interpolates (d_gen dom) (2 ^ (b + lam)) vb B &
        interpolates (d_gen dom) (2 ^ (b + lam)) vc C],
    (2 * 2 ^ (b + lam))%N.-primitive_root (d_gen d2), d_gen d2 ^+ 2 = d_gen dom,
    vsharing (T := Fm F) pp (2 * 2 ^ lam) (2 ^ b) out (blocks (T := Fm F) pp
      (mkseq (fun i => (A * B - C).[d_gen d2 ^+ (2 * i + 1)]) (2 ^ (b + lam)))) &
    forall ords, (forall i, hash_ok (ords i)) -> king_party (p_n pp) (fun d => d != 0%N)
      (fun p => circom_h dbg pp (p_n pp) p ords cF (q p) (masks p) (dmasks p) r) out].
Proof.
set N := (2 ^ (b + lam))%N.
move=> new Edom Ed2 cok m_small Hdeg M1 M2 M3 sa sb sc Hq Ha Hb Hc.
have ok := pss_new_ok new; have El := pss_new_l new; rewrite -El in Hdeg.
have [dok Es Eo] := dom_ok Edom; have pr := dom_prim Edom.
have N0 : (0 < N)%N by rewrite expn_gt0.
have [Edr prz Ez2] := double_rootP Edom Ed2; set z := d_gen d2 in Edr prz Ez2 M1.
have [A [ya [oa [IA A1 A2 A3]]]] := chain_values new Edom cok m_small (r 0%N) (r 3%N) Hdeg
  (M1 0%N isT) (M2 3%N isT) sa Ha.
have [B [yb [ob [IB B1 B2 B3]]]] := chain_values new Edom cok m_small (r 1%N) (r 4%N) Hdeg
  (M1 1%N isT) (M2 4%N isT) sb Hb.
have [C [yc [oc [IC C1 C2 C3]]]] := chain_values new Edom cok m_small (r 2%N) (r 5%N) Hdeg
  (M1 2%N isT) (M2 5%N isT) sc Hc.
have Habc := vsharing_abc ok El 1 A3 B3 C3.
pose he p := zipmap (fun ab c => ab.1 * ab.2 - c) (zip (oa p) (ob p)) (oc p).
have Hhe : vsharing (T := Fm F) pp (4 * p_l pp - 1) (2 ^ b) he (blocks (T := Fm F) pp
      (mkseq (fun i => (A * B - C).[z ^+ (2 * i + 1)]) N)).
  apply: vsharing_ext Habc => [p lt_p|e j lt_e lt_j].
    by rewrite /he /zipmap; apply: eq_map => ab; rewrite mulr1.
  rewrite -[blocks (T := Fm F) pp]/(slots (T := Fm F) pp false b (b + lam)).
  rewrite !(slots_mkseq El (T := Fm F)) //; move: (slot_ix _ _ _ _ _ _) => i.
  by rewrite mulr1 -Ez2 -exprM -exprS addn1 !hornerE.
have m8 : (0 < 2 ^ b < 256 ^ 8)%N by rewrite expn_gt0.
have [out [Ho Hp]] := deg_red_prog (T := Fm F) ok cok dbg (r 6%N) m8 (leqnn _)
  (degred_masks_ok new (andP m8).1 M3) Hhe.
exists A, B, C, out; split=> //; first by rewrite El in Ho.
move=> ords Hords; have n0 := n_gt0 new.
apply: (@king_party_ext _ _ _ _ (fun p =>
  pbind (try_join3 (d_ifft dbg pp (p_n pp) p (ords 0%N) cF (q_a (q p)) (nth (no_mask F) (masks p) 0) true dom z (r 0%N))
                   (d_ifft dbg pp (p_n pp) p (ords 1%N) cF (q_b (q p)) (nth (no_mask F) (masks p) 1) true dom z (r 1%N))
                   (d_ifft dbg pp (p_n pp) p (ords 2%N) cF (q_c (q p)) (nth (no_mask F) (masks p) 2) true dom z (r 2%N)))
  (fun '(a, bb, c) =>
  pbind (try_join3 (d_fft dbg pp (p_n pp) p (ords 3%N) cF a (nth (no_mask F) (masks p) 3) false dom (r 3%N))
                   (d_fft dbg pp (p_n pp) p (ords 4%N) cF bb (nth (no_mask F) (masks p) 4) false dom (r 4%N))
                   (d_fft dbg pp (p_n pp) p (ords 5%N) cF c (nth (no_mask F) (masks p) 5) false dom (r 5%N)))
  (fun '(a, bb, c) =>
  pthread 0 (deg_red dbg pp (p_n pp) p (ords 6%N) (T := Fm F) cF
    (zipmap (fun ab c => ab.1 * ab.2 - c) (zip a bb) c) (dmasks p) (r 6%N)))))) => //.
  by move=> p lt_p; rewrite /circom_h Hq // Edr.
apply: (king_party_bind (v1 := fun p => (ya p, yb p, yc p))) => //.
  by apply: try_join3_party; [apply: A1|apply: B1|apply: C1].
apply: (king_party_bind (v1 := fun p => (oa p, ob p, oc p))) => //.
  by apply: try_join3_party; [apply: A2|apply: B2|apply: C2].
by apply: pthread_party; apply: Hp.
Qed.

(** a polynomial is determined by its values on a coset *)
Lemma coset_uniq (F : fftField) N (w g : F) (p q : {poly F}) : N.-primitive_root w -> g != 0 ->
  (size p <= N)%N -> (size q <= N)%N -> (forall i, (i < N)%N -> p.[g * w ^+ i] = q.[g * w ^+ i]) -> p = q.
Proof.
move=> pr g0 sp sq H; apply/eqP; rewrite -subr_eq0; apply/eqP.
apply: (@roots_geq_poly_eq0 _ _ [seq g * w ^+ i | i <- iota 0 N]).
- apply/allP => x /mapP[i]; rewrite mem_iota => /andP[_ lt_i] ->.
  by rewrite /root !hornerE H // subrr.
- rewrite map_inj_in_uniq ?iota_uniq // => i j; rewrite !mem_iota => /andP[_ lt_i] /andP[_ lt_j].
  move/(mulfI g0)/eqP; rewrite (eq_prim_root_expr pr) !modn_small // => /eqP //.
rewrite size_map size_iota; apply: leq_trans (size_add _ _) _; by rewrite size_opp geq_max sp sq.
Qed.

(** the program of [libsnark_h], for any three vectors *)
Lemma libsnark_party (F : fftField) dbg lam b (pp : pss F) dom (cF : codec F) mb
    (q : nat -> qap_t F) (masks : nat -> seq (fft_mask F)) (va vb vc : seq F) deg (r : nat -> rng F) :
  pss_new F dbg (2 ^ lam) = Ok pp -> domain_new F (2 ^ (b + lam)) = Some dom ->
  codec_ok cF mb -> (2 ^ b < 256 ^ 8)%N -> (deg <= 4 * 2 ^ lam - 1)%N ->
  ff_generator F ^+ (2 ^ (b + lam)) != 1 ->
  (forall i, (i < 3)%N -> fft_masks dbg pp true (ff_generator F) (d_gen_inv dom) (2 ^ (b + lam))
                            (fun p => nth (no_mask F) (masks p) i)) ->
  (forall i, (3 <= i < 6)%N -> fft_masks dbg pp true 1 (d_gen dom) (2 ^ (b + lam))
                            (fun p => nth (no_mask F) (masks p) i)) ->
  fft_masks dbg pp false (ff_generator F)^-1 (d_gen_inv dom) (2 ^ (b + lam))
                            (fun p => nth (no_mask F) (masks p) 6) ->
  size va = (2 ^ (b + lam))%N -> size vb = (2 ^ (b + lam))%N -> size vc = (2 ^ (b + lam))%N ->
  (forall p, (p < p_n pp)%N -> q_domain (q p) = dom) ->
  vsharing (T := Fm F) pp deg (2 ^ b) (fun p => q_a (q p)) (strides (T := Fm F) b (b + lam) va) ->
  vsharing (T := Fm F) pp deg (2 ^ b) (fun p => q_b (q p)) (strides (T := Fm F) b (b + lam) vb) ->
  vsharing (T := Fm F) pp deg (2 ^ b) (fun p => q_c (q p)) (strides (T := Fm F) b (b + lam) vc) ->
  exists (A B C : {poly F}) (hc : seq F) (out : nat -> seq F), [/\
    [/\ interpolates (d_gen dom) (2 ^ (b + lam)) va A,
        interpolates (d_gen dom) (2 ^ (b + lam)) vb B &
        interpolates (d_gen dom) (2 ^ (b + lam)) vc C],
    size hc = (2 ^ (b + lam))%N,
    forall i, (i < 2 ^ (b + lam))%N -> let x := ff_generator F * d_gen dom ^+ i in
      (A * B - C).[x] = (Poly hc).[x] * (ff_generator F ^+ (2 ^ (b + lam)) - 1),
    vsharing (T := Fm F) pp (2 * 2 ^ lam) (2 ^ b) out (blocks (T := Fm F) pp hc) &
    party_yields (p_n pp) false
      (fun ords p => libsnark_h dbg pp (p_n pp) p ords cF (q p) (masks p) r) out].
Proof.
set N := (2 ^ (b + lam))%N; set g := ff_generator F.
move=> new Edom cok m_small Hdeg gN M1 M2 M3 sa sb sc Hq Ha Hb Hc.
have ok := pss_new_ok new; have El := pss_new_l new; rewrite -El in Hdeg.
have [dok Es Eo] := dom_ok Edom; have pr := dom_prim Edom.
have N0 : (0 < N)%N by rewrite expn_gt0.
have g0 : g != 0 by apply: ff_generator_neq0.
have [A [ya [oa [IA A1 A2 A3]]]] := chain_values new Edom cok m_small (r 0%N) (r 3%N) Hdeg
  (M1 0%N isT) (M2 3%N isT) sa Ha.
have [B [yb [ob [IB B1 B2 B3]]]] := chain_values new Edom cok m_small (r 1%N) (r 4%N) Hdeg
  (M1 1%N isT) (M2 4%N isT) sb Hb.
have [C [yc [oc [IC C1 C2 C3]]]] := chain_values new Edom cok m_small (r 2%N) (r 5%N) Hdeg
  (M1 2%N isT) (M2 5%N isT) sc Hc.
have Ez : eval_vanishing dom g = g ^+ N - 1 by rewrite /eval_vanishing Eo expr1n Es.
have z0 : g ^+ N - 1 != 0 by rewrite subr_eq0.
set z := (g ^+ N - 1)^-1.
pose hv := mkseq (fun i => (A * B - C).[g * d_gen dom ^+ i] * z) N.
have [|c sc' Ev] := interpolate (v := hv) Edom; first by rewrite size_mkseq Es.
rewrite Es -/N in sc' Ev; pose hc := coset_coeffs (T := Fm F) g^-1 c.
have shc : size hc = N by rewrite size_mkseq.
have Ehv : evals (T := Fm F) g (d_gen dom) N hc = hv.
  by rewrite -coset_evals -/N -[X in coset_coeffs X]invrK coset_inverse ?invr_eq0.
have Ehc i : (i < N)%N -> (Poly hc).[g * d_gen dom ^+ i] = (A * B - C).[g * d_gen dom ^+ i] * z.
  by move=> lt_i; rewrite -pval_horner -(nth_mkseq 0 (fun i => pval _ _) lt_i) -/(evals _ _ _ _) Ehv nth_mkseq.
have Habc := vsharing_abc ok El z A3 B3 C3.
set he := (fun p => zipmap _ _ _) in Habc.
have Hhe : vsharing (T := Fm F) pp (4 * p_l pp - 1) (2 ^ b) he (strides (T := Fm F) b (b + lam)
    (evals (T := Fm F) 1 (d_gen dom) N (coset_coeffs (T := Fm F) g hc))).
  apply: vsharing_ext Habc => // e j lt_e lt_j.
  rewrite coset_evals -/N Ehv.
  rewrite -[strides (T := Fm F) b (b + lam)]/(slots (T := Fm F) pp true b (b + lam)).
  by rewrite !(slots_mkseq El (T := Fm F)) // !hornerE.
have shcc : size (coset_coeffs (T := Fm F) g hc) = N by rewrite size_mkseq.
have M3' := fft_masks_ok new (dom_prim_inv Edom) M3.
have [out [Ho Hp]] := d_ifft_prog ok El cok m_small Edom dbg (r 6%N) (leqnn _) M3' shcc Hhe.
exists A, B, C, hc, out; split=> //.
- by move=> i lt_i x; rewrite Ehc // mulfVK.
- by rewrite coset_inverse // El in Ho.
apply: party_yields_prog; [exact: n_gt0 new|by move=> *; apply: separate_libsnark|].
move=> ords Hords; have n0 := n_gt0 new.
apply: (@king_party_ext _ _ _ _ (fun p =>
  pbind (try_join3 (d_ifft dbg pp (p_n pp) p (ords 0%N) cF (q_a (q p)) (nth (no_mask F) (masks p) 0) true dom g (r 0%N))
                   (d_ifft dbg pp (p_n pp) p (ords 1%N) cF (q_b (q p)) (nth (no_mask F) (masks p) 1) true dom g (r 1%N))
                   (d_ifft dbg pp (p_n pp) p (ords 2%N) cF (q_c (q p)) (nth (no_mask F) (masks p) 2) true dom g (r 2%N)))
  (fun '(a, bb, c) =>
  pbind (try_join3 (d_fft dbg pp (p_n pp) p (ords 3%N) cF a (nth (no_mask F) (masks p) 3) true dom (r 3%N))
                   (d_fft dbg pp (p_n pp) p (ords 4%N) cF bb (nth (no_mask F) (masks p) 4) true dom (r 4%N))
                   (d_fft dbg pp (p_n pp) p (ords 5%N) cF c (nth (no_mask F) (masks p) 5) true dom (r 5%N)))
  (fun '(a, bb, c) =>
  pthread 0 (d_ifft dbg pp (p_n pp) p (ords 6%N) cF
    (zipmap (fun ab c => (ab.1 * ab.2 - c) * z) (zip a bb) c) (nth (no_mask F) (masks p) 6) false dom g^-1 (r 6%N)))))) => //.
  move=> p lt_p; rewrite /libsnark_h Hq // /get_coset -/g (negbTE g0) /=.
  by rewrite Ez /inverse (negbTE z0) /=.
apply: (king_party_bind (v1 := fun p => (ya p, yb p, yc p))) => //.
  by apply: try_join3_party; [apply: A1|apply: B1|apply: C1].
apply: (king_party_bind (v1 := fun p => (oa p, ob p, oc p))) => //.
  by apply: try_join3_party; [apply: A2|apply: B2|apply: C2].
by apply: pthread_party; apply: Hp.
Qed.

(*** theorems ***)

(** C34: the QAP of a constraint system and an assignment. *)
Lemma c34_qap (F : fftField) (m : matrices F) (z : seq F) dom :
  domain_new F (cm_num_constraints m + num_instance_variables m) = Some dom ->
  size (cm_a m) = cm_num_constraints m -> size (cm_b m) = cm_num_constraints m ->
  (num_instance_variables m <= size z)%N ->
  all (row_below (size z)) (cm_a m) -> all (row_below (size z)) (cm_b m) ->
  exists q, [/\ qap m z = Ok q,
    [/\ q_domain q = dom, num_inputs q = num_instance_variables m &
        num_constraints q = cm_num_constraints m],
    least_pow2 (cm_num_constraints m + num_instance_variables m) (d_size dom),
    [/\ size (q_a q) = d_size dom, size (q_b q) = d_size dom & size (q_c q) = d_size dom] &
    [/\ forall i, (i < cm_num_constraints m)%N ->
          [/\ (q_a q)`_i = row_value (nth [::] (cm_a m) i) z,
              (q_b q)`_i = row_value (nth [::] (cm_b m) i) z &
              (q_c q)`_i = (q_a q)`_i * (q_b q)`_i],
        forall i, (i < num_instance_variables m)%N ->
          [/\ (q_a q)`_(cm_num_constraints m + i) = z`_i,
              (q_b q)`_(cm_num_constraints m + i) = 0 &
              (q_c q)`_(cm_num_constraints m + i) = 0],
        forall i, (cm_num_constraints m + num_instance_variables m <= i)%N ->
          [/\ (q_a q)`_i = 0, (q_b q)`_i = 0 & (q_c q)`_i = 0] &
        forall i, (q_a q)`_i * (q_b q)`_i = (q_c q)`_i]].
Proof.
move=> Ed sa sb le_z Ha Hb; rewrite (qapP Ed sa sb le_z Ha Hb).
have [_ Es _ _] := domain_new_ok Ed.
have L := least_pow2P (cm_num_constraints m + num_instance_variables m); rewrite -Es in L.
have [k [_ le_N _]] := L.
set nc := cm_num_constraints m in le_N *; set ni := num_instance_variables m in le_N *.
eexists; split=> //=; first by rewrite !size_mkseq.
have nthq (f : nat -> F) i : (mkseq f (d_size dom))`_i = if (i < d_size dom)%N then f i else 0.
  by case: (ltnP i (d_size dom)) => H; [rewrite nth_mkseq|rewrite nth_default // size_mkseq].
split.
- move=> i lt_i; rewrite !nthq -/nc lt_i.
  by have -> : (i < d_size dom)%N by lia.
- move=> i lt_i; rewrite !nthq -/nc -/ni ltn_add2l lt_i [(nc + i < nc)%N]ltnNge leq_addr /= addKn.
  by have -> : (nc + i < d_size dom)%N by lia.
- move=> i le_i; rewrite !nthq -/nc -/ni [(i < nc + ni)%N]ltnNge le_i /= [(i < nc)%N]ltnNge.
  have -> : (nc <= i)%N by lia.
  by case: ifP.
move=> i; rewrite !nthq -/nc -/ni; case: ltnP => // _; last by rewrite mulr0.
by case: (ltnP i nc) => //; rewrite mulr0.
Qed.

(** C34: the field has no domain of this size. *)
Lemma c34_no_domain (F : fftField) (m : matrices F) (z : seq F) :
  (2 ^ ff_two_adicity F < cm_num_constraints m + num_instance_variables m)%N ->
  qap m z = Err Generic.
Proof.
move=> H; rewrite /qap /domain_new /get_root_of_unity.
have /negbTE -> // : ~~ (up_log 2 (cm_num_constraints m + num_instance_variables m) <= ff_two_adicity F)%N.
apply: contraTN H => le; rewrite -leqNgt; apply: leq_trans (up_logP _ (ltnSn 1)) _.
by rewrite leq_exp2l.
Qed.

(** C34: the assignment is too short for the inputs, or for an index used by a constraint. *)
Lemma c34_short_assignment (F : fftField) (m : matrices F) (z : seq F) dom :
  domain_new F (cm_num_constraints m + num_instance_variables m) = Some dom ->
  size (cm_a m) = cm_num_constraints m -> size (cm_b m) = cm_num_constraints m ->
  ~~ [&& (num_instance_variables m <= size z)%N, all (row_below (size z)) (cm_a m) &
         all (row_below (size z)) (cm_b m)] ->
  qap m z = Panic.
Proof.
move=> Ed sa sb bad; have [_ Es _ _] := domain_new_ok Ed.
have L := least_pow2P (cm_num_constraints m + num_instance_variables m); rewrite -Es in L.
have [k [_ le_N _]] := L.
have le_N' : (cm_num_constraints m <= d_size dom)%N by apply: leq_trans le_N; apply: leq_addr.
rewrite /qap Ed [rbind (Ok _) _]/= {1}/rassert le_N' [rbind (Ok _) _]/= sa sb !minnn.
case Ha: (all (row_below (size z)) (cm_a m) && all (row_below (size z)) (cm_b m)) bad => bad.
  have [Ha1 Ha2] := andP Ha; rewrite (rows_loop sa sb le_N' Ha1 Ha2 (leqnn _)) [rbind (Ok _) _]/=.
  by rewrite andbT in bad; rewrite {1}/rassert (negbTE bad).
have [i lt_i bad_i] : exists2 i, (i < cm_num_constraints m)%N &
    ~~ (row_below (size z) (nth [::] (cm_a m) i) && row_below (size z) (nth [::] (cm_b m) i)).
  move/negbT: Ha; rewrite negb_and => /orP[] /allPn[row in_row /negbTE H].
    exists (index row (cm_a m)); first by rewrite -sa index_mem.
    by rewrite nth_index // H.
  exists (index row (cm_b m)); first by rewrite -sb index_mem.
  by rewrite nth_index // H andbF.
by rewrite (rows_panic lt_i) ?sa ?sb.
Qed.

(** C35: the shares of the QAP. *)
Lemma c35_qap_pss (F : fftField) dbg lam b (pp : pss F) (q : qap_t F) r :
  pss_new F dbg (2 ^ lam) = Ok pp ->
  size (q_a q) = (2 ^ (b + lam))%N -> size (q_b q) = (2 ^ (b + lam))%N ->
  size (q_c q) = (2 ^ (b + lam))%N ->
  exists xa xb xc : nat -> seq F, [/\
    qap_pss dbg pp q r = Ok (mkseq (fun p => Qap (num_inputs q) (num_constraints q)
                                      (xa p) (xb p) (xc p) (q_domain q)) (p_n pp)),
    vsharing (T := Fm F) pp (2 * p_l pp) (2 ^ b) xa (strides (T := Fm F) b (b + lam) (q_a q)),
    vsharing (T := Fm F) pp (2 * p_l pp) (2 ^ b) xb (strides (T := Fm F) b (b + lam) (q_b q)) &
    vsharing (T := Fm F) pp (2 * p_l pp) (2 ^ b) xc (strides (T := Fm F) b (b + lam) (q_c q))].
Proof.
move=> new; have ok := pss_new_ok new; have El := pss_new_l new.
exact: (qap_pssP ok El).
Qed.

(** C35: a domain with fewer points than secrets in a sharing is dropped silently. *)
Lemma c35_small_domain (F : fftField) dbg lam k (pp : pss F) (q : qap_t F) r :
  pss_new F dbg (2 ^ lam) = Ok pp -> (k < lam)%N ->
  size (q_a q) = (2 ^ k)%N -> size (q_b q) = (2 ^ k)%N -> size (q_c q) = (2 ^ k)%N ->
  qap_pss dbg pp q r = Ok (nseq (p_n pp) (Qap (num_inputs q) (num_constraints q)
                                             [::] [::] [::] (q_domain q))).
Proof.
move=> new lt_k; have El := pss_new_l new.
by apply: qap_pss_small; rewrite El ?expn_gt0 // ltn_exp2l.
Qed.

(** C36: the quotient of the witness extension. *)
Lemma c36_libsnark_h (F : fftField) dbg lam b (pp : pss F) dom (cF : codec F) mb
    (q : nat -> qap_t F) (masks : nat -> seq (fft_mask F)) (va vb vc : seq F) deg (r : nat -> rng F) :
  pss_new F dbg (2 ^ lam) = Ok pp -> domain_new F (2 ^ (b + lam)) = Some dom ->
  codec_ok cF mb -> (2 ^ b < 256 ^ 8)%N -> (deg <= 4 * 2 ^ lam - 1)%N ->
  ff_generator F ^+ (2 ^ (b + lam)) != 1 ->
  (forall i, (i < 3)%N -> fft_masks dbg pp true (ff_generator F) (d_gen_inv dom) (2 ^ (b + lam))
                            (fun p => nth (no_mask F) (masks p) i)) ->
  (forall i, (3 <= i < 6)%N -> fft_masks dbg pp true 1 (d_gen dom) (2 ^ (b + lam))
                            (fun p => nth (no_mask F) (masks p) i)) ->
  fft_masks dbg pp false (ff_generator F)^-1 (d_gen_inv dom) (2 ^ (b + lam))
                            (fun p => nth (no_mask F) (masks p) 6) ->
  size va = (2 ^ (b + lam))%N -> size vb = (2 ^ (b + lam))%N -> size vc = (2 ^ (b + lam))%N ->
  (forall i, va`_i * vb`_i = vc`_i) ->
  (forall p, (p < p_n pp)%N -> q_domain (q p) = dom) ->
  vsharing (T := Fm F) pp deg (2 ^ b) (fun p => q_a (q p)) (strides (T := Fm F) b (b + lam) va) ->
  vsharing (T := Fm F) pp deg (2 ^ b) (fun p => q_b (q p)) (strides (T := Fm F) b (b + lam) vb) ->
  vsharing (T := Fm F) pp deg (2 ^ b) (fun p => q_c (q p)) (strides (T := Fm F) b (b + lam) vc) ->
  exists (A B C h : {poly F}) (out : nat -> seq F), [/\
    [/\ interpolates (d_gen dom) (2 ^ (b + lam)) va A,
        interpolates (d_gen dom) (2 ^ (b + lam)) vb B &
        interpolates (d_gen dom) (2 ^ (b + lam)) vc C],
    A * B - C = h * ('X^(2 ^ (b + lam)) - 1), (size h < 2 ^ (b + lam))%N,
    vsharing (T := Fm F) pp (2 * 2 ^ lam) (2 ^ b) out
      (blocks (T := Fm F) pp (mkseq (fun i => h`_i) (2 ^ (b + lam)))) &
    party_yields (p_n pp) false
      (fun ords p => libsnark_h dbg pp (p_n pp) p ords cF (q p) (masks p) r) out].
Proof.
set N := (2 ^ (b + lam))%N; set g := ff_generator F.
move=> new Edom cok m_small Hdeg gN M1 M2 M3 sa sb sc sat Hq Ha Hb Hc; have pr := dom_prim Edom.
have [A [B [C [hc [out [[IA IB IC] shc Ehc Ho Hp]]]]]] := libsnark_party r new Edom cok m_small Hdeg gN
  M1 M2 M3 sa sb sc Hq Ha Hb Hc.
have [|h Eh sh] := quotient pr IA.1 IB.1 IC.1.
  by move=> i lt_i; rewrite IA.2 // IB.2 // IC.2.
have N0 : (0 < N)%N by rewrite expn_gt0.
have sh' : (size h < N)%N by lia.
have z0 : g ^+ N - 1 != 0 by rewrite subr_eq0.
have E : Poly hc = h.
  apply: (coset_uniq pr (ff_generator_neq0 F) (g := g)) => [||i lt_i]; first by rewrite -shc size_Poly.
    exact: ltnW.
  have := Ehc i lt_i; rewrite /= Eh; set x := g * _; have xN : x ^+ N = g ^+ N.
    by rewrite exprMn -exprM mulnC exprM (prim_expr_order pr) expr1n mulr1.
  by rewrite !hornerE hornerXn xN => /(mulIf z0).
exists A, B, C, h, out; split=> //.
have -> : mkseq (fun i => h`_i) (2 ^ (b + lam)) = hc; last by [].
rewrite -[RHS](mkseq_nth 0) shc; apply: eq_mkseq => i; by rewrite -E coef_Poly.
Qed.

(** C37: the values of the quotient times the vanishing polynomial on the odd coset. *)
Lemma c37_circom_h (F : fftField) dbg lam b (pp : pss F) dom d2 (cF : codec F) mb (gen : F)
    (q : nat -> qap_t F) (masks : nat -> seq (fft_mask F)) (dmasks : nat -> degred_mask (Fm F))
    (va vb vc : seq F) deg (r : nat -> rng F) :
  pss_new F dbg (2 ^ lam) = Ok pp -> domain_new F (2 ^ (b + lam)) = Some dom ->
  domain_new F (2 * 2 ^ (b + lam)) = Some d2 ->
  codec_ok cF mb -> (2 ^ b < 256 ^ 8)%N -> (deg <= 4 * 2 ^ lam - 1)%N ->
  (forall i, (i < 3)%N -> fft_masks dbg pp true (d_gen d2) (d_gen_inv dom) (2 ^ (b + lam))
                            (fun p => nth (no_mask F) (masks p) i)) ->
  (forall i, (3 <= i < 6)%N -> fft_masks dbg pp false 1 (d_gen dom) (2 ^ (b + lam))
                            (fun p => nth (no_mask F) (masks p) i)) ->
  degred_masks dbg pp (gen : Fm F) (2 ^ b) dmasks ->
  size va = (2 ^ (b + lam))%N -> size vb = (2 ^ (b + lam))%N -> size vc = (2 ^ (b + lam))%N ->
  (forall p, (p < p_n pp)%N -> q_domain (q p) = dom) ->
  vsharing (T := Fm F) pp deg (2 ^ b) (fun p => q_a (q p)) (strides (T := Fm F) b (b + lam) va) ->
  vsharing (T := Fm F) pp deg (2 ^ b) (fun p => q_b (q p)) (strides (T := Fm F) b (b + lam) vb) ->
  vsharing (T := Fm F) pp deg (2 ^ b) (fun p => q_c (q p)) (strides (T := Fm F) b (b + lam) vc) ->
  exists (A B C : {poly F}) (out : nat -> seq F), [/\
    [/\ interpolates (d_gen dom) (2 ^ (b + lam)) va A,
        interpolates (d_gen dom) (2 ^ (b + lam)) vb B &
        interpolates (d_gen dom) (2 ^ (b + lam)) vc C],
    (2 * 2 ^ (b + lam))%N.-primitive_root (d_gen d2), d_gen d2 ^+ 2 = d_gen dom,
    vsharing (T := Fm F) pp (2 * 2 ^ lam) (2 ^ b) out (blocks (T := Fm F) pp
      (mkseq (fun i => (A * B - C).[d_gen d2 ^+ (2 * i + 1)]) (2 ^ (b + lam)))) &
    party_yields (p_n pp) false
      (fun ords p => circom_h dbg pp (p_n pp) p ords cF (q p) (masks p) (dmasks p) r) out].
Proof.
move=> new Edom Ed2 cok m_small Hdeg M1 M2 M3 sa sb sc Hq Ha Hb Hc.
have [A [B [C [out [H1 H2 H3 H4 H5]]]]] := circom_party r new Edom Ed2 cok m_small Hdeg M1 M2 M3
  sa sb sc Hq Ha Hb Hc.
exists A, B, C, out; split=> //.
by apply: party_yields_prog; [exact: n_gt0 new|move=> *; apply: separate_circom|].
Qed.

(** C37: what these values are for a satisfied QAP: minus twice the quotient on the odd coset. *)
Lemma c37_vanishing_odd (F : fftField) N (z : F) (A B C h : {poly F}) :
  (0 < N)%N -> (2 * N)%N.-primitive_root z -> A * B - C = h * ('X^N - 1) ->
  forall i, (A * B - C).[z ^+ (2 * i + 1)] = h.[z ^+ (2 * i + 1)] * - 2%:R.
Proof.
move=> N0 pr Eh i.
have zN : z ^+ N = -1.
  have : z ^+ N ^+ 2 == 1 ^+ 2 by rewrite -exprM mulnC prim_expr_order // expr1n.
  rewrite eqf_sqr => /orP[/eqP E|/eqP //].
  have := prim_order_dvd pr N; rewrite E eqxx => /(dvdn_leq N0); lia.
set x := z ^+ _; have xN : x ^+ N = -1.
  by rewrite -exprM mulnC exprM zN addn1 exprS exprM sqrrN expr1n expr1n mulr1.
by rewrite Eh !hornerE hornerXn xN -opprD.
Qed.

(** C37: without a domain of twice the size the party panics. *)
Lemma c37_no_double_domain (F : fftField) dbg (pp : pss F) n me ords (cF : codec F) q mask dmask r :
  (2 ^ ff_two_adicity F < 2 * d_size (q_domain q))%N ->
  circom_h dbg pp n me ords cF q mask dmask r = PRet Panic.
Proof.
move=> H; rewrite /circom_h /double_root /domain_new /get_root_of_unity.
have /negbTE -> // : ~~ (up_log 2 (2 * d_size (q_domain q)) <= ff_two_adicity F)%N.
apply: contraTN H => le; rewrite -leqNgt; apply: leq_trans (up_logP _ (ltnSn 1)) _.
by rewrite leq_exp2l.
Qed.
