(** Theorems about the test programs of the transforms. *)
From mathcomp Require Import all_ssreflect all_algebra.
From mathcomp Require Import zify.
From Verif Require Import Base ModelField ModelUtils ModelPss ModelPack ModelFft ModelNet ModelProto ModelQap.
From Verif Require Import ModelDemo ModelTests Spec SpecNet SpecProto.
From Verif Require Import KingProofs RoundProofs FieldProofs UtilsProofs PssProofs PackProofs FftProofs.
From Verif Require Import ProtoProofs DegProofs PpProofs FewProofs MaskProofs ProtoThm GrothThm DemoThm.
Set Implicit Arguments.
Unset Strict Implicit.
Unset Printing Implicit Defensive.
Import GRing.Theory.
Local Open Scope ring_scope.
Local Notation Fm F := [lmodType F of F^o].

Section Rows.
Variables (F : fftField) (pp : pss F).
Hypothesis ok : pp_ok pp.

Lemma strided_rowsP dbg lam b (v : seq F) r : p_l pp = (2 ^ lam)%N -> size v = (2 ^ (b + lam))%N ->
  exists rows xs, [/\ strided_rows dbg pp v r = Ok rows,
    forall p, (p < p_n pp)%N -> party_column rows p = Ok (xs p) &
    vsharing (T := Fm F) pp (2 * p_l pp) (2 ^ b) xs (strides (T := Fm F) b (b + lam) v)].
Proof.
move=> El sv; have [xs [Exs Hxs]] := share_out_deal ok El dbg true r sv.
move: Exs; rewrite /share_out /strided_rows; case: (fft_rearrange v) => [x1|//|//] /=.
case E: (pack_strided _ _ _ _) => [sh||] //= Et; exists sh, xs; split=> //.
by move=> p lt_p; apply: transpose_column Et lt_p.
Qed.

Lemma unpack_rows_blocks m (out : nat -> seq F) v : (0 < m)%N ->
  size v = (m * p_l pp)%N -> vsharing (T := Fm F) pp (2 * p_l pp) m out (blocks (T := Fm F) pp v) ->
  unpack_rows pp (mkseq out (p_n pp)) = Ok v.
Proof.
move=> m0 sv H; have hok : hash_ok id by move=> s; apply: perm_refl.
have := unpack_all_blocks ok m0 hok (leqnn _) sv H.
by rewrite /unpack_all /received_from ltnn.
Qed.

Lemma unpack2_rows_blocks dbg m (out : nat -> seq F) v : (0 < m)%N ->
  size v = (m * p_l pp)%N -> vsharing (T := Fm F) pp (2 * p_l pp) m out (blocks (T := Fm F) pp v) ->
  unpack2_rows dbg pp (mkseq out (p_n pp)) = Ok v.
Proof.
move=> m0 sv [H1 H2]; have hok : hash_ok id by move=> s; apply: perm_refl.
have l0 := pp_l_gt0 ok; have En := ppn ok.
have := transpose_who (T := Fm F) ok (p_n pp) hok m0 H1.
rewrite /unpack2_rows /who /received_from ltnn [shares _]/= [parties _]/= => ->; cbn [rbind].
rewrite (@mapM_ok _ _ _ (fun x => get_ok [::] (unpack2 dbg pp (x : seq (Fm F))))); last first.
  move=> s0 e; rewrite size_mkseq => lt_e; rewrite nth_mkseq //.
  by rewrite (unpack2_sharing ok (dbg := dbg) _ (H2 e lt_e)) //; case: dbg; lia.
cbn [rbind]; congr Ok; rewrite -map_comp -[RHS](mkseq_nth 0) sv.
transitivity (flatten (mkseq (fun e => mkseq (blocks (T := Fm F) pp v e) (p_l pp)) m)).
  congr flatten; apply/eq_in_map => e; rewrite mem_iota add0n => /andP[_ lt_e] /=.
  by rewrite (unpack2_sharing ok (dbg := dbg) _ (H2 e lt_e)) //; case: dbg; lia.
rewrite (flatten_mkseq_blocks 0) //; apply: eq_mkseq => q.
by rewrite /blocks -divn_eq.
Qed.

End Rows.


Section Transforms.
Variable F : fftField.
Variables (dbg : bool) (pp : pss F) (lam b : nat) (dom : domain F) (cF : codec F) (mb : nat).
Hypothesis new : pss_new F dbg (2 ^ lam) = Ok pp.
Hypothesis Edom : domain_new F (2 ^ (b + lam)) = Some dom.
Hypotheses (cok : codec_ok cF mb) (m_small : (2 ^ b < 256 ^ 8)%N).
  Local Notation N := (2 ^ (b + lam))%N.
  Local Notation n := (p_n pp).

(** inverse transform and transform of any values: the values of [p(g x)] *)
Lemma chain_evals rearrange g masks masks' (x : nat -> seq F) (c : seq F) (r r' : rng F) :
  fft_masks dbg pp true g (d_gen_inv dom) N masks ->
  fft_masks dbg pp rearrange 1 (d_gen dom) N masks' ->
  size c = N ->
  vsharing (T := Fm F) pp (2 * p_l pp) (2 ^ b) x
    (strides (T := Fm F) b (b + lam) (evals (T := Fm F) 1 (d_gen dom) N c)) ->
  exists y out : nat -> seq F, [/\
    forall ord, hash_ok ord -> king_prog n (fun d => d != 0%N)
      (fun p => d_ifft dbg pp n p ord cF (x p) (masks p) true dom g r) y,
    forall ord, hash_ok ord -> king_prog n (fun d => d != 0%N)
      (fun p => d_fft dbg pp n p ord cF (y p) (masks' p) rearrange dom r') out &
    vsharing (T := Fm F) pp (2 * p_l pp) (2 ^ b) out (slots (T := Fm F) pp rearrange b (b + lam)
      (evals (T := Fm F) 1 (d_gen dom) N (coset_coeffs (T := Fm F) g c)))].
Proof.
move=> Hm Hm' sc Hx; have ok := pss_new_ok new; have El := pss_new_l new; have l0 := pp_l_gt0 ok.
have M := fft_masks_ok new (dom_prim_inv Edom) Hm; have M' := fft_masks_ok new (dom_prim Edom) Hm'.
have Hdeg : (2 * p_l pp <= 4 * p_l pp - 1)%N by lia.
have [y [Hy Py]] := d_ifft_prog ok El cok m_small Edom dbg r Hdeg M sc Hx.
have sc' : size (coset_coeffs (T := Fm F) g c) = N by rewrite size_mkseq.
have [out [Ho Po]] := d_fft_prog ok El cok m_small Edom dbg r' Hdeg M' sc' Hy.
by exists y, out.
Qed.

End Transforms.

(*** theorems ***)

(** C67: [d_ifft_works], for any values on the domain. *)
Lemma c67_d_ifft_works (F : fftField) dbg lam b pp dom (cF : codec F) mb (v : seq F) (r0 : rng F)
    (r : nat -> rng F) (masks : nat -> seq (fft_mask F)) :
  pss_new F dbg (2 ^ lam) = Ok pp -> domain_new F (2 ^ (b + lam)) = Some dom ->
  codec_ok cF mb -> (2 ^ b < 256 ^ 8)%N -> size v = (2 ^ (b + lam))%N ->
  fft_masks dbg pp false 1 (d_gen_inv dom) (2 ^ (b + lam)) (fun p => nth (no_mask F) (masks p) 0) ->
  exists rows c out, [/\ strided_rows dbg pp v r0 = Ok rows,
    yields (p_n pp) false (fun ords p =>
      d_ifft_works_party dbg pp (p_n pp) p ords cF dom (masks p) r rows) out,
    size c = (2 ^ (b + lam))%N /\ v = evals (T := Fm F) 1 (d_gen dom) (2 ^ (b + lam)) c,
    unpack_rows pp (mkseq out (p_n pp)) = Ok c &
    d_ifft_works_check pp dom v (mkseq out (p_n pp)) = Ok tt].
Proof.
move=> new Edom cok mb8 sv Hm; have ok := pss_new_ok new; have El := pss_new_l new; have n0 := n_gt0 new.
have m0 : (0 < 2 ^ b)%N by rewrite expn_gt0.
have Em : (2 ^ (b + lam) = 2 ^ b * p_l pp)%N by rewrite El expnD.
have [dok Es Eo] := dom_ok Edom; have l0 := pp_l_gt0 ok.
have [rows [xs [Er Ec Hx]]] := strided_rowsP ok dbg r0 El sv.
have [|c sc Ev] := interpolate (v := v) Edom; first by rewrite sv Es.
rewrite Es in sc Ev; rewrite Ev in Hx.
have M := fft_masks_ok new (dom_prim_inv Edom) Hm.
have Hdeg : (2 * p_l pp <= 4 * p_l pp - 1)%N by lia.
have [out [Ho Hp]] := d_ifft_prog ok El cok mb8 Edom dbg (r 0%N) Hdeg M sc Hx.
have Ecc : coset_coeffs (T := Fm F) 1 c = c.
  rewrite /coset_coeffs -[RHS](mkseq_nth 0); apply: eq_mkseq => i; by rewrite expr1n scale1r.
rewrite Ecc in Ho; have U := unpack_rows_blocks ok m0 (etrans sc Em) Ho.
exists rows, c, out; split=> //.
  apply: yields_prog' => // ords Hords; apply: king_prog_ext (Hp _ (Hords 0%N)) => // p lt_p.
  by rewrite /d_ifft_works_party Ec.
rewrite /d_ifft_works_check U; cbn [rbind].
have -> : ifft dom (v : seq (Fm F)) = c.
  rewrite Ev -[RHS](fftK (T := Fm F) dok); last by rewrite Es.
  congr (ifft (T := Fm F) dom _); rewrite fft_mkseq ?Es ?sc //.
  by apply: eq_map => i; rewrite /element Eo.
by rewrite /rassert eqxx.
Qed.

(** C67: [d_fft_works], for any coefficients. *)
Lemma c67_d_fft_works (F : fftField) dbg lam b pp dom (cF : codec F) mb (c : seq F) (r0 : rng F)
    (r : nat -> rng F) (masks : nat -> seq (fft_mask F)) :
  pss_new F dbg (2 ^ lam) = Ok pp -> domain_new F (2 ^ (b + lam)) = Some dom ->
  codec_ok cF mb -> (2 ^ b < 256 ^ 8)%N -> size c = (2 ^ (b + lam))%N ->
  fft_masks dbg pp false 1 (d_gen dom) (2 ^ (b + lam)) (fun p => nth (no_mask F) (masks p) 0) ->
  exists rows out, [/\ strided_rows dbg pp c r0 = Ok rows,
    yields (p_n pp) false (fun ords p =>
      d_fft_works_party dbg pp (p_n pp) p ords cF dom (masks p) r rows) out,
    unpack_rows pp (mkseq out (p_n pp)) = Ok (evals (T := Fm F) 1 (d_gen dom) (2 ^ (b + lam)) c) &
    d_fft_works_check pp dom c (mkseq out (p_n pp)) = Ok tt].
Proof.
move=> new Edom cok mb8 sc Hm; have ok := pss_new_ok new; have El := pss_new_l new; have n0 := n_gt0 new.
have m0 : (0 < 2 ^ b)%N by rewrite expn_gt0.
have Em : (2 ^ (b + lam) = 2 ^ b * p_l pp)%N by rewrite El expnD.
have [dok Es Eo] := dom_ok Edom; have l0 := pp_l_gt0 ok.
have [rows [xs [Er Ec Hx]]] := strided_rowsP ok dbg r0 El sc.
have M := fft_masks_ok new (dom_prim Edom) Hm.
have Hdeg : (2 * p_l pp <= 4 * p_l pp - 1)%N by lia.
have [out [Ho Hp]] := d_fft_prog ok El cok mb8 Edom dbg (r 0%N) Hdeg M sc Hx.
set v := evals _ _ _ _ in Ho *; have sv : size v = (2 ^ b * p_l pp)%N by rewrite size_mkseq.
have U := unpack_rows_blocks ok m0 sv Ho.
exists rows, out; split=> //.
  apply: yields_prog' => // ords Hords; apply: king_prog_ext (Hp _ (Hords 0%N)) => // p lt_p.
  by rewrite /d_fft_works_party Ec.
rewrite /d_fft_works_check U; cbn [rbind].
have -> : fft dom (c : seq (Fm F)) = v.
  by rewrite fft_mkseq ?sc ?Es //; apply: eq_map => i; rewrite /element Eo.
by rewrite /rassert eqxx.
Qed.

(** C67: [d_ifftxd_fft_works]: the values come back. *)
Lemma c67_d_ifftxd_fft_works (F : fftField) dbg lam b pp dom (cF : codec F) mb (v : seq F) (r0 : rng F)
    (r : nat -> rng F) (masks : nat -> seq (fft_mask F)) :
  pss_new F dbg (2 ^ lam) = Ok pp -> domain_new F (2 ^ (b + lam)) = Some dom ->
  codec_ok cF mb -> (2 ^ b < 256 ^ 8)%N -> size v = (2 ^ (b + lam))%N ->
  fft_masks dbg pp true 1 (d_gen_inv dom) (2 ^ (b + lam)) (fun p => nth (no_mask F) (masks p) 0) ->
  fft_masks dbg pp false 1 (d_gen dom) (2 ^ (b + lam)) (fun p => nth (no_mask F) (masks p) 1) ->
  exists rows out, [/\ strided_rows dbg pp v r0 = Ok rows,
    yields (p_n pp) false (fun ords p =>
      d_ifftxd_fft_party dbg pp (p_n pp) p ords cF dom (masks p) r rows) out,
    unpack_rows pp (mkseq out (p_n pp)) = Ok v &
    round_trip_check pp v (mkseq out (p_n pp)) = Ok tt].
Proof.
move=> new Edom cok mb8 sv Hm0 Hm1; have ok := pss_new_ok new; have El := pss_new_l new; have n0 := n_gt0 new.
have m0 : (0 < 2 ^ b)%N by rewrite expn_gt0.
have Em : (2 ^ (b + lam) = 2 ^ b * p_l pp)%N by rewrite El expnD.
have [dok Es Eo] := dom_ok Edom; have l0 := pp_l_gt0 ok.
have [rows [xs [Er Ec Hx]]] := strided_rowsP ok dbg r0 El sv.
have [|c sc Ev] := interpolate (v := v) Edom; first by rewrite sv Es.
rewrite Es in sc Ev; rewrite Ev in Hx.
have [y [out [Py Po Ho]]] := chain_evals new Edom cok mb8 (r 0%N) (r 1%N) Hm0 Hm1 sc Hx.
rewrite coset_evals -Ev in Ho; have U := unpack_rows_blocks ok m0 (etrans sv Em) Ho.
exists rows, out; split=> //; last by rewrite /round_trip_check U /rassert /= eqxx.
apply: yields_prog' => // ords Hords.
apply: (king_prog_ext n0 (P' := fun p => cbind
    (d_ifft dbg pp (p_n pp) p (ords 0%N) cF (xs p) (nth (no_mask F) (masks p) 0) true dom 1 (r 0%N)) (fun y =>
     d_fft dbg pp (p_n pp) p (ords 1%N) cF y (nth (no_mask F) (masks p) 1) false dom (r 1%N)))).
  by move=> p lt_p; rewrite /d_ifftxd_fft_party Ec.
by apply: (king_prog_bind n0 (Py _ (Hords 0%N))); apply: Po.
Qed.

(** C67: [coset_d_ifftxd_fft_works]: the same through the coset. *)
Lemma c67_coset_d_ifftxd_fft_works (F : fftField) dbg lam b pp dom (cF : codec F) mb (v : seq F) (r0 : rng F)
    (r : nat -> rng F) (masks : nat -> seq (fft_mask F)) :
  pss_new F dbg (2 ^ lam) = Ok pp -> domain_new F (2 ^ (b + lam)) = Some dom ->
  codec_ok cF mb -> (2 ^ b < 256 ^ 8)%N -> size v = (2 ^ (b + lam))%N ->
  fft_masks dbg pp true (ff_generator F) (d_gen_inv dom) (2 ^ (b + lam)) (fun p => nth (no_mask F) (masks p) 0) ->
  fft_masks dbg pp true 1 (d_gen dom) (2 ^ (b + lam)) (fun p => nth (no_mask F) (masks p) 1) ->
  fft_masks dbg pp true (ff_generator F)^-1 (d_gen_inv dom) (2 ^ (b + lam)) (fun p => nth (no_mask F) (masks p) 2) ->
  fft_masks dbg pp false 1 (d_gen dom) (2 ^ (b + lam)) (fun p => nth (no_mask F) (masks p) 3) ->
  exists rows out, [/\ strided_rows dbg pp v r0 = Ok rows,
    yields (p_n pp) false (fun ords p =>
      coset_d_ifftxd_fft_party dbg pp (p_n pp) p ords cF dom (masks p) r rows) out,
    unpack_rows pp (mkseq out (p_n pp)) = Ok v &
    round_trip_check pp v (mkseq out (p_n pp)) = Ok tt].
Proof.
set g := ff_generator F.
move=> new Edom cok mb8 sv Hm0 Hm1 Hm2 Hm3.
have ok := pss_new_ok new; have El := pss_new_l new; have n0 := n_gt0 new.
have m0 : (0 < 2 ^ b)%N by rewrite expn_gt0.
have Em : (2 ^ (b + lam) = 2 ^ b * p_l pp)%N by rewrite El expnD.
have [dok Es Eo] := dom_ok Edom; have l0 := pp_l_gt0 ok.
have g0 : g != 0 by apply: ff_generator_neq0.
have [rows [xs [Er Ec Hx]]] := strided_rowsP ok dbg r0 El sv.
have [|c sc Ev] := interpolate (v := v) Edom; first by rewrite sv Es.
rewrite Es in sc Ev; rewrite Ev in Hx.
have [y [z [Py Pz Hz]]] := chain_evals new Edom cok mb8 (r 0%N) (r 1%N) Hm0 Hm1 sc Hx.
have sc' : size (coset_coeffs (T := Fm F) g c) = (2 ^ (b + lam))%N by rewrite size_mkseq.
have [w [out [Pw Po Ho]]] := chain_evals new Edom cok mb8 (r 2%N) (r 3%N) Hm2 Hm3 sc' Hz.
rewrite coset_inverse // -Ev in Ho; have U := unpack_rows_blocks ok m0 (etrans sv Em) Ho.
exists rows, out; split=> //; last by rewrite /round_trip_check U /rassert /= eqxx.
apply: yields_prog' => // ords Hords.
apply: (king_prog_ext n0 (P' := fun p => cbind
    (d_ifft dbg pp (p_n pp) p (ords 0%N) cF (xs p) (nth (no_mask F) (masks p) 0) true dom g (r 0%N)) (fun y => cbind
    (d_fft dbg pp (p_n pp) p (ords 1%N) cF y (nth (no_mask F) (masks p) 1) true dom (r 1%N)) (fun z => cbind
    (d_ifft dbg pp (p_n pp) p (ords 2%N) cF z (nth (no_mask F) (masks p) 2) true dom g^-1 (r 2%N)) (fun w =>
     d_fft dbg pp (p_n pp) p (ords 3%N) cF w (nth (no_mask F) (masks p) 3) false dom (r 3%N)))))).
  move=> p lt_p; rewrite /coset_d_ifftxd_fft_party /get_coset -/g.
  by case: eqP g0 => // _ _; rewrite clift_ok Ec.
apply: (king_prog_bind n0 (Py _ (Hords 0%N))).
apply: (king_prog_bind n0 (Pz _ (Hords 1%N))).
by apply: (king_prog_bind n0 (Pw _ (Hords 2%N))); apply: Po.
Qed.
