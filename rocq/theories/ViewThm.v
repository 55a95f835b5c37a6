(** What at most [t] parties learn from the shares they are dealt and from the king's answers. *)
From mathcomp Require Import all_ssreflect all_algebra.
From mathcomp Require Import zify.
From Verif Require Import RingTac Base ModelField ModelUtils ModelPss ModelPack ModelFft ModelNet.
From Verif Require Import ModelProto ModelQap ModelProve ModelMain.
From Verif Require Import Spec SpecNet SpecView SpecProto SpecGroth SpecVerify.
From Verif Require Import NetProofs KingProofs LogProofs NetThm PartyProofs.
From Verif Require Import FieldProofs UtilsProofs PssProofs PackProofs FftProofs ProtoProofs DegProofs.
From Verif Require Import PssThm ProtoThm MaskProofs QapProofs ProveProofs ViewProofs.
Set Implicit Arguments.
Unset Strict Implicit.
Unset Printing Implicit Defensive.
Import GRing.Theory.
Local Open Scope ring_scope.
Local Notation Fm F := [lmodType F of F^o].

Lemma strides_inj (F : fftField) (pp : pss F) lam b (v v' : seq F) : p_l pp = (2 ^ lam)%N ->
  size v = (2 ^ (b + lam))%N -> size v' = (2 ^ (b + lam))%N ->
  (forall e j, (e < 2 ^ b)%N -> (j < p_l pp)%N ->
     strides (T := Fm F) b (b + lam) v e j = strides (T := Fm F) b (b + lam) v' e j) -> v = v'.
Proof.
move=> El sv sv' H; apply: (@eq_from_nth _ 0); rewrite sv ?sv' // => i lt_i.
have m0 : (0 < 2 ^ b)%N by rewrite expn_gt0.
set x := bitrev (b + lam) i; have lt_x : (x < 2 ^ (b + lam))%N by apply: bitrev_lt.
have := H (x %% 2 ^ b)%N (x %/ 2 ^ b)%N; rewrite /strides ltn_mod m0 => /(_ isT).
rewrite El ltn_divLR // -expnD addnC => /(_ lt_x).
by rewrite [(x %% _ + _)%N]addnC -divn_eq /x bitrevK.
Qed.

Section Answers.
Variable F : fftField.
Variables (dbg : bool) (lam b : nat) (pp : pss F) (dom : domain F) (cF : codec F) (mb : nat).
Hypotheses (new : pss_new F dbg (2 ^ lam) = Ok pp) (Edom : domain_new F (2 ^ (b + lam)) = Some dom).
Hypotheses (cok : codec_ok cF mb) (mb8 : (2 ^ b < 256 ^ 8)%N).
  Local Notation N := (2 ^ (b + lam))%N.
  Local Notation m := (2 ^ b)%N.
  Local Notation n := (p_n pp).

(** what masks with the values [v] look like *)
Definition mask_of (rearrange : bool) (g gen : F) (v : nat -> F) (masks : nat -> fft_mask F) : Prop :=
  vsharing (T := Fm F) pp (2 * p_l pp) m (fun p => fm_in (masks p)) (fun e j => v (e * p_l pp + j)%N) /\
  vsharing (T := Fm F) pp (2 * p_l pp) m (fun p => fm_out (masks p))
    (slots (T := Fm F) pp rearrange b (b + lam) (mkseq (fun q => - (g ^+ q * kfft lam b gen v q)) N)).

(** the messages and the results of the parties *)
Lemma fft2_logs rearrange g gen (sec : nat -> nat -> F) deg :
  (deg <= 4 * 2 ^ lam - 1)%N -> N.-primitive_root gen ->
  exists sec2 : nat -> nat -> F, forall x, vsharing (T := Fm F) pp deg m x sec ->
  forall r v masks, mask_of rearrange g gen v masks ->
  let ans := dealing (T := Fm F) pp dbg (slots (T := Fm F) pp rearrange b (b + lam)
               (king_values pp lam b g gen sec v)) m r in
  vsharing (T := Fm F) pp (2 * p_l pp) m (fun p => zipmap +%R (ans p) (fm_out (masks p))) sec2 /\
  forall ord, hash_ok ord -> king_log n (fun d => d != 0%N)
    (fun p => fft2_with_rearrange dbg pp n p ord cF (x p) (masks p) rearrange g gen r)
    (fun p => zipmap +%R (ans p) (fm_out (masks p))) (king_msgs (fun p => enc (vec_codec cF) (ans p))).
Proof.
have ok := pss_new_ok new; have El := pss_new_l new; rewrite -El => Hdeg pr.
eexists => x Hx r v masks [Hin Hout] ans.
have sk : size (king_values pp lam b g gen sec v) = N by rewrite size_mkseq.
exact: (fft2_answer ok El cok mb8 pr Hdeg Hin Hout Hx (share_outE ok El dbg rearrange r sk)
  (dealingP (T := Fm F) ok dbg _ m r)).
Qed.

Lemma d_fft_logs rearrange (sec : nat -> nat -> F) deg : (deg <= 4 * 2 ^ lam - 1)%N ->
  exists sec1 sec2 : nat -> nat -> F, forall x, vsharing (T := Fm F) pp deg m x sec ->
  forall r v masks, mask_of rearrange 1 (d_gen dom) v masks ->
  let ans := dealing (T := Fm F) pp dbg (slots (T := Fm F) pp rearrange b (b + lam)
               (king_values pp lam b 1 (d_gen dom) sec1 v)) m r in
  vsharing (T := Fm F) pp (2 * p_l pp) m (fun p => zipmap +%R (ans p) (fm_out (masks p))) sec2 /\
  forall ord, hash_ok ord -> king_log n (fun d => d != 0%N)
    (fun p => d_fft dbg pp n p ord cF (x p) (masks p) rearrange dom r)
    (fun p => zipmap +%R (ans p) (fm_out (masks p))) (king_msgs (fun p => enc (vec_codec cF) (ans p))).
Proof.
have ok := pss_new_ok new; have El := pss_new_l new => Hdeg; have pr := dom_prim Edom.
pose sec1 e j := bsum (d_gen dom) (2 ^ lam) b e (fun i => sec i j).
have [sec2 H2] := fft2_logs rearrange 1 sec1 Hdeg pr.
exists sec1, sec2 => x Hx r v masks Hm; have [y [Ey Hy]] := fft1_vsharing El pr Hx.
have [H K] := H2 y Hy r v masks Hm; split=> // ord Ho.
apply: king_log_ext (K ord Ho) => // [|p lt_p]; first exact: n_gt0 new.
have sx : size (x p) = m by case: Hx => Hs _; apply: Hs.
by rewrite /d_fft (px_assert El Edom) // Ey.
Qed.

Lemma d_ifft_logs rearrange g (sec : nat -> nat -> F) deg : (deg <= 4 * 2 ^ lam - 1)%N ->
  exists sec1 sec2 : nat -> nat -> F, forall x, vsharing (T := Fm F) pp deg m x sec ->
  forall r v masks, mask_of rearrange g (d_gen_inv dom) v masks ->
  let ans := dealing (T := Fm F) pp dbg (slots (T := Fm F) pp rearrange b (b + lam)
               (king_values pp lam b g (d_gen_inv dom) sec1 v)) m r in
  vsharing (T := Fm F) pp (2 * p_l pp) m (fun p => zipmap +%R (ans p) (fm_out (masks p))) sec2 /\
  forall ord, hash_ok ord -> king_log n (fun d => d != 0%N)
    (fun p => d_ifft dbg pp n p ord cF (x p) (masks p) rearrange dom g r)
    (fun p => zipmap +%R (ans p) (fm_out (masks p))) (king_msgs (fun p => enc (vec_codec cF) (ans p))).
Proof.
have ok := pss_new_ok new; have El := pss_new_l new => Hdeg; have pr := dom_prim_inv Edom.
pose sec1 e j := bsum (d_gen_inv dom) (2 ^ lam) b e (fun i => sec i j * d_size_inv dom).
have [sec2 H2] := fft2_logs rearrange g sec1 Hdeg pr.
exists sec1, sec2 => x Hx r v masks Hm.
have [y [Ey Hy]] := fft1_vsharing El pr (vsharing_scale (d_size_inv dom) Hx).
have [H K] := H2 y Hy r v masks Hm; split=> // ord Ho.
apply: king_log_ext (K ord Ho) => // [|p lt_p]; first exact: n_gt0 new.
have sx : size (x p) = m by case: Hx => Hs _; apply: Hs.
by rewrite /d_ifft (px_assert El Edom) // Ey.
Qed.

End Answers.

Lemma yields_log A n (prog : hash_order -> nat -> cproc A) out msg : (0 < n)%N ->
  (forall ord, hash_ok ord -> king_log n (fun d => d != 0%N) (prog ord) out (king_msgs msg)) ->
  yields n false (fun ords p => clog (prog (ords 0%N) p) [::]) (fun p => (out p, king_msgs msg p)).
Proof.
move=> n0 H; apply: yields_prog' => // ords Ho.
exact: king_log_clog (fun=> [::]) (H _ (Ho 0%N)).
Qed.

(** ** Fresh masks *)
Section FreshMasks.
Variable F : fftField.
Variables (dbg : bool) (lam b : nat) (pp : pss F).
Hypothesis new : pss_new F dbg (2 ^ lam) = Ok pp.
  Local Notation N := (2 ^ (b + lam))%N.
  Local Notation m := (2 ^ b)%N.
  Local Notation n := (p_n pp).

Definition out_values (g gen : F) (v : nat -> F) : seq F :=
  mkseq (fun q => - (g ^+ q * kfft lam b gen v q)) N.

(** party [p]'s mask *)
Definition fmask rearrange g gen (values r_in r_out : rng F) (p : nat) : fft_mask F := FftMask
  (dealing (T := Fm F) pp dbg (fun e j => values (e * p_l pp + j)%N) m r_in p)
  (dealing (T := Fm F) pp dbg (slots (T := Fm F) pp rearrange b (b + lam) (out_values g gen values))
     m r_out p).

Lemma fft_sample_dealing rearrange g gen values r_in r_out : N.-primitive_root gen ->
  fft_mask_sample dbg pp rearrange g gen N values r_in r_out =
  Ok (mkseq (fmask rearrange g gen values r_in r_out) n).
Proof.
have ok := pss_new_ok new; have El := pss_new_l new.
move=> pr; have m0 : (0 < m)%N by rewrite expn_gt0.
have Em : (m * p_l pp = N)%N by rewrite El expnD.
have sv : size (mkseq values N) = (m * p_l pp)%N by rewrite size_mkseq Em.
rewrite /fft_mask_sample; have := pack_vecE (T := Fm F) ok dbg r_in m0 sv.
rewrite -/(dealing (T := Fm F) pp dbg (blocks (T := Fm F) pp (mkseq values N)) m r_in).
case: (pack_vec _ _ _ _) => //= shs ->.
rewrite (fft2_kfft El (size_mkseq _ _) pr) /= shiftE size_mkseq.
have -> : [seq - x | x <- mkseq (fun i => g ^+ i * (mkseq (kfft lam b gen (nth 0 (mkseq values N))) N)`_i) N]
   = out_values g gen values.
  rewrite -map_comp; apply: eq_mkseq_in => q lt_q /=; rewrite nth_mkseq //.
  by congr (- (_ * _)); apply: (eq_kfft El) => // i lt_i; rewrite nth_mkseq.
rewrite (share_outE (b := b) ok El dbg rearrange r_out (size_mkseq _ _)) /=; congr Ok.
apply: (@eq_from_nth _ (FftMask [::] [::])); rewrite size_zipmap !size_mkseq minnn // => p lt_p.
rewrite (nth_zipmap _ [::] [::]) ?size_mkseq // !nth_mkseq //; congr FftMask.
apply: (dealing_ext (T := Fm F)) => e j lt_e lt_j; rewrite /blocks nth_mkseq // -Em.
by move: lt_e lt_j; generalize m (p_l pp) => u w; nia.
Qed.

Lemma fmask_ok rearrange g gen values r_in r_out :
  mask_of lam b pp rearrange g gen values (fmask rearrange g gen values r_in r_out).
Proof.
have ok := pss_new_ok new.
by split; [exact: (dealingP (T := Fm F) ok dbg _ m r_in)|exact: (dealingP (T := Fm F) ok dbg _ m r_out)].
Qed.

Lemma mask_of_ext rearrange g gen values masks masks' : (forall p, (p < n)%N -> masks p = masks' p) ->
  mask_of lam b pp rearrange g gen values masks' -> mask_of lam b pp rearrange g gen values masks.
Proof.
by move=> E [H1 H2]; split; [apply: vsharing_ext H1|apply: vsharing_ext H2] => // p lt_p; rewrite E.
Qed.

Variable P : seq nat.
Hypotheses (gn : ff_generator F ^+ p_n pp != 1) (uP : uniq P) (ltP : all (fun p => p < p_n pp)%N P).
Hypothesis sP : (size P <= p_t pp)%N.

Lemma fresh_masks rearrange g gen (s1 s1' : nat -> nat -> F) :
  exists dv d_in d_out : rng F, forall values r_in r_out,
    (forall p, p \in P -> fmask rearrange g gen (fun i => values i + dv i) (fun i => r_in i + d_in i)
      (fun i => r_out i + d_out i) p = fmask rearrange g gen values r_in r_out p) /\
    king_values pp lam b g gen s1' (fun i => values i + dv i) = king_values pp lam b g gen s1 values.
Proof.
have ok := pss_new_ok new; have El := pss_new_l new.
pose dv i := s1 (i %/ p_l pp)%N (i %% p_l pp)%N - s1' (i %/ p_l pp)%N (i %% p_l pp)%N.
have [di Hi] := dealing_translate (T := Fm F) new gn uP ltP (fun e j => dv (e * p_l pp + j)%N) m sP.
have [do_ Ho] := dealing_translate (T := Fm F) new gn uP ltP
  (slots (T := Fm F) pp rearrange b (b + lam) (out_values g gen dv)) m sP.
exists dv, di, do_ => values r_in r_out; split.
  move=> p p_P; congr FftMask; first exact: Hi.
  apply: Ho => // e j lt_e lt_j; rewrite /out_values !(slots_mkseq El) //.
  by rewrite kfftD mulrDr opprD.
have l0 := pp_l_gt0 ok; apply: eq_mkseq_in => q lt_q; congr (_ * _); apply: (eq_kfft El) => // i lt_i.
by rewrite -divn_eq /dv addrCA [X in _ + X]addrC subrK addrC.
Qed.

End FreshMasks.

(*** theorems ***)

(** C55, refuted: [QAP::pss] draws its randomness from [test_rng()], a generator with a published
    seed.  Whatever stream [r] that is: the shares of any [t] parties determine the vectors. *)
Lemma c55_hiding_refuted (F : fftField) dbg lam b (pp : pss F) (P : seq nat) (q q' q0 : qap_t F)
    (r : rng F) shares shares' :
  pss_new F dbg (2 ^ lam) = Ok pp -> ff_generator F ^+ p_n pp != 1 ->
  uniq P -> all (fun p => p < p_n pp)%N P -> size P = p_t pp ->
  size (q_a q) = (2 ^ (b + lam))%N -> size (q_b q) = (2 ^ (b + lam))%N ->
  size (q_c q) = (2 ^ (b + lam))%N ->
  size (q_a q') = (2 ^ (b + lam))%N -> size (q_b q') = (2 ^ (b + lam))%N ->
  size (q_c q') = (2 ^ (b + lam))%N ->
  qap_pss dbg pp q r = Ok shares -> qap_pss dbg pp q' r = Ok shares' ->
  (forall p, p \in P -> nth q0 shares p = nth q0 shares' p) ->
  [/\ q_a q = q_a q', q_b q = q_b q' & q_c q = q_c q'].
Proof.
move=> new gn uP ltP sP sa sb sc sa' sb' sc'; have ok := pss_new_ok new; have El := pss_new_l new.
rewrite (qap_pssE ok El dbg r sa sb sc) (qap_pssE ok El dbg r sa' sb' sc') => Q1 Q2 H.
have E1 := Ok_inj Q1; have E2 := Ok_inj Q2; move: H; rewrite -E1 -E2 => H.
have K (v v' : seq F) rr : size v = (2 ^ (b + lam))%N -> size v' = (2 ^ (b + lam))%N ->
   (forall p, p \in P ->
      dealing (T := Fm F) pp dbg (strides (T := Fm F) b (b + lam) v) (2 ^ b) rr p =
      dealing (T := Fm F) pp dbg (strides (T := Fm F) b (b + lam) v') (2 ^ b) rr p) -> v = v'.
  move=> sv sv' Hv; apply: (strides_inj El sv sv').
  exact: (dealing_known (T := Fm F) new gn uP ltP sP Hv).
have X p : p \in P -> (p < p_n pp)%N by move=> p_P; apply: (allP ltP).
by split; [apply: (K _ _ r)|apply: (K _ _ (rskip (2 ^ b * p_t pp) r))
  |apply: (K _ _ (rskip (2 ^ b * p_t pp + 2 ^ b * p_t pp) r))] => // p p_P;
  move: (H p p_P); rewrite !nth_mkseq ?X // => -[].
Qed.

(** C56: with fresh randomness the shares of at most [t] parties do not depend on the vectors: some
    translation of the randomness makes the views for any two QAPs of the same dimensions equal. *)
Lemma c56_qap (F : fftField) dbg lam b (pp : pss F) (P : seq nat) (q q' q0 : qap_t F) :
  pss_new F dbg (2 ^ lam) = Ok pp -> ff_generator F ^+ p_n pp != 1 ->
  uniq P -> all (fun p => p < p_n pp)%N P -> (size P <= p_t pp)%N ->
  size (q_a q) = (2 ^ (b + lam))%N -> size (q_b q) = (2 ^ (b + lam))%N ->
  size (q_c q) = (2 ^ (b + lam))%N ->
  size (q_a q') = (2 ^ (b + lam))%N -> size (q_b q') = (2 ^ (b + lam))%N ->
  size (q_c q') = (2 ^ (b + lam))%N ->
  num_inputs q = num_inputs q' -> num_constraints q = num_constraints q' ->
  q_domain q = q_domain q' ->
  exists delta : rng F, forall r, exists shares shares',
    [/\ qap_pss dbg pp q r = Ok shares, qap_pss dbg pp q' (fun i => r i + delta i) = Ok shares' &
        forall p, p \in P -> nth q0 shares' p = nth q0 shares p].
Proof.
move=> new gn uP ltP sP sa sb sc sa' sb' sc' Ei Ec Ed.
have ok := pss_new_ok new; have El := pss_new_l new.
pose K (v v' : seq F) := dealing_shift (T := Fm F) new gn uP ltP (strides (T := Fm F) b (b + lam) v)
  (strides (T := Fm F) b (b + lam) v') (2 ^ b) sP.
have [da Ha] := K (q_a q) (q_a q'); have [db Hb] := K (q_b q) (q_b q').
have [dc Hc] := K (q_c q) (q_c q'); set u := (2 ^ b * p_t pp)%N in Ha Hb Hc.
exists (fun i => if (i < u)%N then da i else if (i < u + u)%N then db (i - u)%N else dc (i - (u + u))%N).
move=> r; do 2!eexists; split.
- by rewrite (qap_pssE ok El dbg _ sa sb sc).
- by rewrite (qap_pssE ok El dbg _ sa' sb' sc').
move=> p p_P; have lt_p := allP ltP _ p_P; rewrite !nth_mkseq // -Ei -Ec -Ed -/u; congr Qap.
- by apply: Ha => // i lt_i /=; rewrite lt_i.
- apply: Hb => // i lt_i /=; rewrite /rskip ifN ?ltn_add2l ?lt_i; last by lia.
  by congr (_ + db _); lia.
- apply: Hc => // i lt_i /=; rewrite /rskip ifN; last by lia.
  rewrite ifN; last by lia.
  by congr (_ + dc _); lia.
Qed.


(** C56: the shares of the witness made by the sha256 example. *)
Lemma c56_witness (F : fftField) dbg lam (pp : pss F) (P : seq nat) (z z' : seq F) :
  pss_new F dbg (2 ^ lam) = Ok pp -> ff_generator F ^+ p_n pp != 1 ->
  uniq P -> all (fun p => p < p_n pp)%N P -> (size P <= p_t pp)%N -> size z = size z' ->
  exists delta : rng F, forall r, exists shares shares',
    [/\ pack_from_witness dbg pp z r = Ok shares,
        pack_from_witness dbg pp z' (fun i => r i + delta i) = Ok shares' &
        forall p, p \in P -> nth [::] shares' p = nth [::] shares p].
Proof.
move=> new gn uP ltP sP Ez; have ok := pss_new_ok new.
have [delta H] := dealing_shift (T := Fm F) new gn uP ltP (blocks (T := Fm F) pp z)
  (blocks (T := Fm F) pp z') (div_ceil (size z) (p_l pp)) sP.
exists delta => r; do 2!eexists; split; first exact: witnessE.
  by rewrite (witnessE ok).
by move=> p p_P; rewrite !nth_mkseq ?(allP ltP) // -Ez; apply: H.
Qed.

(** C56: what at most [t] parties see of a distributed transform (their results and the messages they
    receive: [clog]) does not depend on the secrets of the other parties, if the king shares its
    result out with fresh randomness [r].  The messages the king collects are not part of these
    views; what they reveal is C28. *)
Lemma c56_d_fft (F : fftField) dbg lam b (pp : pss F) dom (cF : codec F) mb rearrange masks masks' x x'
    (sec sec' : nat -> nat -> F) deg (P : seq nat) :
  pss_new F dbg (2 ^ lam) = Ok pp -> domain_new F (2 ^ (b + lam)) = Some dom ->
  codec_ok cF mb -> (2 ^ b < 256 ^ 8)%N -> (deg <= 4 * 2 ^ lam - 1)%N ->
  ff_generator F ^+ p_n pp != 1 ->
  uniq P -> all (fun p => p < p_n pp)%N P -> (size P <= p_t pp)%N ->
  fft_masks dbg pp rearrange 1 (d_gen dom) (2 ^ (b + lam)) masks ->
  fft_masks dbg pp rearrange 1 (d_gen dom) (2 ^ (b + lam)) masks' ->
  (forall p, p \in P -> masks p = masks' p) ->
  vsharing (T := Fm F) pp deg (2 ^ b) x sec -> vsharing (T := Fm F) pp deg (2 ^ b) x' sec' ->
  exists delta : rng F, forall r, exists out out', [/\
    yields (p_n pp) false (fun ords p => clog (d_fft dbg pp (p_n pp) p (ords 0%N) cF (x p) (masks p)
      rearrange dom r) [::]) out,
    yields (p_n pp) false (fun ords p => clog (d_fft dbg pp (p_n pp) p (ords 0%N) cF (x' p) (masks' p)
      rearrange dom (fun i => r i + delta i)) [::]) out' &
    forall p, p \in P -> out' p = out p].
Proof.
move=> new Edom cok mb8 Hdeg gn uP ltP sP Hm Hm' Em Hx Hx'; have pr := dom_prim Edom.
have [v Hv] := fft_masks_ok new pr Hm; have [v' Hv'] := fft_masks_ok new pr Hm'.
have [s1 [s2 /(_ _ Hx) Y]] := d_fft_logs new Edom cok mb8 rearrange sec Hdeg.
have [s1' [s2' /(_ _ Hx') Y']] := d_fft_logs new Edom cok mb8 rearrange sec' Hdeg.
pose sl := slots (T := Fm F) pp rearrange b (b + lam); pose w := king_values pp lam b 1 (d_gen dom).
have [delta Hd] := dealing_shift (T := Fm F) new gn uP ltP (sl (w s1 v)) (sl (w s1' v')) (2 ^ b) sP.
exists delta => r; do 2!eexists; split.
- by have [_ K] := Y r _ _ Hv; exact: (yields_log (n_gt0 new) K).
- by have [_ K] := Y' (fun i => r i + delta i) _ _ Hv'; exact: (yields_log (n_gt0 new) K).
by move=> p p_P; cbv beta; rewrite /king_msgs (Hd r) // Em.
Qed.

(** C56: the same for the inverse transform. *)
Lemma c56_d_ifft (F : fftField) dbg lam b (pp : pss F) dom (cF : codec F) mb rearrange g masks masks' x x'
    (sec sec' : nat -> nat -> F) deg (P : seq nat) :
  pss_new F dbg (2 ^ lam) = Ok pp -> domain_new F (2 ^ (b + lam)) = Some dom ->
  codec_ok cF mb -> (2 ^ b < 256 ^ 8)%N -> (deg <= 4 * 2 ^ lam - 1)%N ->
  ff_generator F ^+ p_n pp != 1 ->
  uniq P -> all (fun p => p < p_n pp)%N P -> (size P <= p_t pp)%N ->
  fft_masks dbg pp rearrange g (d_gen_inv dom) (2 ^ (b + lam)) masks ->
  fft_masks dbg pp rearrange g (d_gen_inv dom) (2 ^ (b + lam)) masks' ->
  (forall p, p \in P -> masks p = masks' p) ->
  vsharing (T := Fm F) pp deg (2 ^ b) x sec -> vsharing (T := Fm F) pp deg (2 ^ b) x' sec' ->
  exists delta : rng F, forall r, exists out out', [/\
    yields (p_n pp) false (fun ords p => clog (d_ifft dbg pp (p_n pp) p (ords 0%N) cF (x p) (masks p)
      rearrange dom g r) [::]) out,
    yields (p_n pp) false (fun ords p => clog (d_ifft dbg pp (p_n pp) p (ords 0%N) cF (x' p) (masks' p)
      rearrange dom g (fun i => r i + delta i)) [::]) out' &
    forall p, p \in P -> out' p = out p].
Proof.
move=> new Edom cok mb8 Hdeg gn uP ltP sP Hm Hm' Em Hx Hx'; have pr := dom_prim_inv Edom.
have [v Hv] := fft_masks_ok new pr Hm; have [v' Hv'] := fft_masks_ok new pr Hm'.
have [s1 [s2 /(_ _ Hx) Y]] := d_ifft_logs new Edom cok mb8 rearrange g sec Hdeg.
have [s1' [s2' /(_ _ Hx') Y']] := d_ifft_logs new Edom cok mb8 rearrange g sec' Hdeg.
pose sl := slots (T := Fm F) pp rearrange b (b + lam); pose w := king_values pp lam b g (d_gen_inv dom).
have [delta Hd] := dealing_shift (T := Fm F) new gn uP ltP (sl (w s1 v)) (sl (w s1' v')) (2 ^ b) sP.
exists delta => r; do 2!eexists; split.
- by have [_ K] := Y r _ _ Hv; exact: (yields_log (n_gt0 new) K).
- by have [_ K] := Y' (fun i => r i + delta i) _ _ Hv'; exact: (yields_log (n_gt0 new) K).
by move=> p p_P; cbv beta; rewrite /king_msgs (Hd r) // Em.
Qed.

(** C56: the same for the degree reduction. *)
Lemma c56_deg_red (F : fftField) (T : lmodType F) dbg lam (pp : pss F) (gen gen' : T) (cT : codec T) mb m
    masks masks' x x' (sec sec' : nat -> nat -> T) deg (P : seq nat) :
  pss_new F dbg (2 ^ lam) = Ok pp -> codec_ok cT mb -> (0 < m < 256 ^ 8)%N ->
  (deg <= 4 * 2 ^ lam - 1)%N -> ff_generator F ^+ p_n pp != 1 ->
  uniq P -> all (fun p => p < p_n pp)%N P -> (size P <= p_t pp)%N ->
  degred_masks dbg pp gen m masks -> degred_masks dbg pp gen' m masks' ->
  (forall p, p \in P -> masks p = masks' p) ->
  vsharing pp deg m x sec -> vsharing pp deg m x' sec' ->
  exists delta : rng T, forall r, exists out out', [/\
    yields (p_n pp) false (fun ords p => clog (deg_red dbg pp (p_n pp) p (ords 0%N) cT (x p) (masks p) r) [::]) out,
    yields (p_n pp) false (fun ords p => clog (deg_red dbg pp (p_n pp) p (ords 0%N) cT (x' p) (masks' p)
      (fun i => r i + delta i)) [::]) out' &
    forall p, p \in P -> out' p = out p].
Proof.
move=> new cok Hm Hdeg gn uP ltP sP Hk Hk' Em Hx Hx'; have ok := pss_new_ok new.
rewrite -(pss_new_l new) in Hdeg; have m0 : (0 < m)%N by case/andP: Hm.
have [v [Hi Ho]] := degred_masks_ok new m0 Hk; have [v' [Hi' Ho']] := degred_masks_ok new m0 Hk'.
have [delta Hd] := dealing_shift new gn uP ltP (fun e j => sec e j + v e j)
  (fun e j => sec' e j + v' e j) m sP.
exists delta => r; do 2!eexists; split.
- by have [_ K] := deg_red_answer ok cok dbg r Hm Hdeg Hi Ho Hx; exact: (yields_log (n_gt0 new) K).
- by have [_ K] := deg_red_answer ok cok dbg (fun i => r i + delta i) Hm Hdeg Hi' Ho' Hx'; exact: (yields_log (n_gt0 new) K).
by move=> p p_P; cbv beta; rewrite /king_msgs (Hd r) // Em.
Qed.

(** C56: if the king's randomness [r] is known (the rearranging transforms use [test_rng()]) fresh
    masks hide the secrets: some translation of the dealer's randomness leaves the masks and the
    views of at most [t] parties as they are when the secrets of the others change. *)
Lemma c56_d_fft_masks (F : fftField) dbg lam b (pp : pss F) dom (cF : codec F) mb rearrange x x'
    (sec sec' : nat -> nat -> F) deg (P : seq nat) (r : rng F) x0 :
  pss_new F dbg (2 ^ lam) = Ok pp -> domain_new F (2 ^ (b + lam)) = Some dom ->
  codec_ok cF mb -> (2 ^ b < 256 ^ 8)%N -> (deg <= 4 * 2 ^ lam - 1)%N ->
  ff_generator F ^+ p_n pp != 1 ->
  uniq P -> all (fun p => p < p_n pp)%N P -> (size P <= p_t pp)%N ->
  vsharing (T := Fm F) pp deg (2 ^ b) x sec -> vsharing (T := Fm F) pp deg (2 ^ b) x' sec' ->
  exists dv d_in d_out : rng F, forall values r_in r_out, exists masks masks' out out',
    [/\ fft_mask_sample dbg pp rearrange 1 (d_gen dom) (2 ^ (b + lam)) values r_in r_out = Ok masks,
        fft_mask_sample dbg pp rearrange 1 (d_gen dom) (2 ^ (b + lam)) (fun i => values i + dv i)
          (fun i => r_in i + d_in i) (fun i => r_out i + d_out i) = Ok masks',
        yields (p_n pp) false (fun ords p => clog (d_fft dbg pp (p_n pp) p (ords 0%N) cF (x p)
          (nth x0 masks p) rearrange dom r) [::]) out,
        yields (p_n pp) false (fun ords p => clog (d_fft dbg pp (p_n pp) p (ords 0%N) cF (x' p)
          (nth x0 masks' p) rearrange dom r) [::]) out' &
        forall p, p \in P -> nth x0 masks' p = nth x0 masks p /\ out' p = out p].
Proof.
move=> new Edom cok mb8 Hdeg gn uP ltP sP Hx Hx'; have pr := dom_prim Edom.
have [s1 [s2 /(_ _ Hx) Y]] := d_fft_logs new Edom cok mb8 rearrange sec Hdeg.
have [s1' [s2' /(_ _ Hx') Y']] := d_fft_logs new Edom cok mb8 rearrange sec' Hdeg.
have [dv [di [do_ H]]] := fresh_masks b new gn uP ltP sP rearrange 1 (d_gen dom) s1 s1'.
have sample_ok vs ri ro : mask_of lam b pp rearrange 1 (d_gen dom) vs
    (nth x0 (mkseq (fmask dbg lam b pp rearrange 1 (d_gen dom) vs ri ro) (p_n pp))).
  by apply: mask_of_ext (fmask_ok b new rearrange 1 (d_gen dom) vs ri ro) => p lt_p; rewrite nth_mkseq.
exists dv, di, do_ => values r_in r_out; have [Em Ek] := H values r_in r_out.
do 4!eexists; split; [exact: fft_sample_dealing|exact: fft_sample_dealing| | |].
- have [_ K] := Y r _ _ (sample_ok values r_in r_out); exact: (yields_log (n_gt0 new) K).
- have [_ K] := Y' r _ _ (sample_ok (fun i => values i + dv i) (fun i => r_in i + di i)
    (fun i => r_out i + do_ i)); exact: (yields_log (n_gt0 new) K).
move=> p p_P; cbv beta; have lt_p := allP ltP _ p_P; rewrite /king_msgs !nth_mkseq // Em //.
by rewrite Ek.
Qed.

(** C56: the same for the inverse transform. *)
Lemma c56_d_ifft_masks (F : fftField) dbg lam b (pp : pss F) dom (cF : codec F) mb rearrange g x x'
    (sec sec' : nat -> nat -> F) deg (P : seq nat) (r : rng F) x0 :
  pss_new F dbg (2 ^ lam) = Ok pp -> domain_new F (2 ^ (b + lam)) = Some dom ->
  codec_ok cF mb -> (2 ^ b < 256 ^ 8)%N -> (deg <= 4 * 2 ^ lam - 1)%N ->
  ff_generator F ^+ p_n pp != 1 ->
  uniq P -> all (fun p => p < p_n pp)%N P -> (size P <= p_t pp)%N ->
  vsharing (T := Fm F) pp deg (2 ^ b) x sec -> vsharing (T := Fm F) pp deg (2 ^ b) x' sec' ->
  exists dv d_in d_out : rng F, forall values r_in r_out, exists masks masks' out out',
    [/\ fft_mask_sample dbg pp rearrange g (d_gen_inv dom) (2 ^ (b + lam)) values r_in r_out = Ok masks,
        fft_mask_sample dbg pp rearrange g (d_gen_inv dom) (2 ^ (b + lam)) (fun i => values i + dv i)
          (fun i => r_in i + d_in i) (fun i => r_out i + d_out i) = Ok masks',
        yields (p_n pp) false (fun ords p => clog (d_ifft dbg pp (p_n pp) p (ords 0%N) cF (x p)
          (nth x0 masks p) rearrange dom g r) [::]) out,
        yields (p_n pp) false (fun ords p => clog (d_ifft dbg pp (p_n pp) p (ords 0%N) cF (x' p)
          (nth x0 masks' p) rearrange dom g r) [::]) out' &
        forall p, p \in P -> nth x0 masks' p = nth x0 masks p /\ out' p = out p].
Proof.
move=> new Edom cok mb8 Hdeg gn uP ltP sP Hx Hx'; have pr := dom_prim_inv Edom.
have [s1 [s2 /(_ _ Hx) Y]] := d_ifft_logs new Edom cok mb8 rearrange g sec Hdeg.
have [s1' [s2' /(_ _ Hx') Y']] := d_ifft_logs new Edom cok mb8 rearrange g sec' Hdeg.
have [dv [di [do_ H]]] := fresh_masks b new gn uP ltP sP rearrange g (d_gen_inv dom) s1 s1'.
have sample_ok vs ri ro : mask_of lam b pp rearrange g (d_gen_inv dom) vs
    (nth x0 (mkseq (fmask dbg lam b pp rearrange g (d_gen_inv dom) vs ri ro) (p_n pp))).
  by apply: mask_of_ext (fmask_ok b new rearrange g (d_gen_inv dom) vs ri ro) => p lt_p; rewrite nth_mkseq.
exists dv, di, do_ => values r_in r_out; have [Em Ek] := H values r_in r_out.
do 4!eexists; split; [exact: fft_sample_dealing|exact: fft_sample_dealing| | |].
- have [_ K] := Y r _ _ (sample_ok values r_in r_out); exact: (yields_log (n_gt0 new) K).
- have [_ K] := Y' r _ _ (sample_ok (fun i => values i + dv i) (fun i => r_in i + di i)
    (fun i => r_out i + do_ i)); exact: (yields_log (n_gt0 new) K).
move=> p p_P; cbv beta; have lt_p := allP ltP _ p_P; rewrite /king_msgs !nth_mkseq // Em //.
by rewrite Ek.
Qed.

(** C56: the same for the degree reduction, for secrets that differ by multiples of the generator
    [gen] of the masks (any secrets, for field elements and for a cyclic group). *)
Lemma c56_deg_red_masks (F : fftField) (T : lmodType F) dbg lam (pp : pss F) (gen : T) (cT : codec T) mb m
    x x' (sec sec' : nat -> nat -> T) (c : nat -> nat -> F) deg (P : seq nat) (r : rng T) x0 :
  pss_new F dbg (2 ^ lam) = Ok pp -> codec_ok cT mb -> (0 < m < 256 ^ 8)%N ->
  (deg <= 4 * 2 ^ lam - 1)%N -> ff_generator F ^+ p_n pp != 1 ->
  uniq P -> all (fun p => p < p_n pp)%N P -> (size P <= p_t pp)%N ->
  vsharing pp deg m x sec -> vsharing pp deg m x' sec' ->
  (forall e j, sec e j - sec' e j = c e j *: gen) ->
  exists (dv : rng F) (d_in d_out : rng T), forall values r_in r_out, exists masks masks' out out',
    [/\ degred_mask_sample dbg pp gen m values r_in r_out = Ok masks,
        degred_mask_sample dbg pp gen m (fun i => values i + dv i) (fun i => r_in i + d_in i)
          (fun i => r_out i + d_out i) = Ok masks',
        yields (p_n pp) false (fun ords p => clog (deg_red dbg pp (p_n pp) p (ords 0%N) cT (x p)
          (nth x0 masks p) r) [::]) out,
        yields (p_n pp) false (fun ords p => clog (deg_red dbg pp (p_n pp) p (ords 0%N) cT (x' p)
          (nth x0 masks' p) r) [::]) out' &
        forall p, p \in P -> nth x0 masks' p = nth x0 masks p /\ out' p = out p].
Proof.
move=> new cok Hm Hdeg gn uP ltP sP Hx Hx' Ec; have ok := pss_new_ok new.
rewrite -(pss_new_l new) in Hdeg; have m0 : (0 < m)%N by case/andP: Hm.
have [dv [di [do_ H]]] := fresh_dmask new gn uP ltP sP gen m c.
exists dv, di, do_ => values r_in r_out; have [Em Ev] := H values r_in r_out.
have X values0 ri ro := dmask_ok ok dbg gen m values0 ri ro.
have Y values0 ri ro (f : degred_mask T -> seq T) s :
    vsharing pp (2 * p_l pp) m (fun p => f (dmask pp dbg gen m values0 ri ro p)) s ->
    vsharing pp (2 * p_l pp) m (fun p => f (nth x0 (mkseq (dmask pp dbg gen m values0 ri ro) (p_n pp)) p)) s.
  by apply: vsharing_ext => // p lt_p; rewrite nth_mkseq.
have [/Y Ai /Y Ao] := X values r_in r_out.
have [/Y Ai' /Y Ao'] := X (fun i => values i + dv i) (fun i => r_in i + di i) (fun i => r_out i + do_ i).
do 4!eexists; split; [exact: degred_sample_dealing|exact: degred_sample_dealing| | |].
- by have [_ K] := deg_red_answer ok cok dbg r Hm Hdeg Ai Ao Hx; exact: (yields_log (n_gt0 new) K).
- by have [_ K] := deg_red_answer ok cok dbg r Hm Hdeg Ai' Ao' Hx'; exact: (yields_log (n_gt0 new) K).
move=> p p_P; have lt_p := allP ltP _ p_P; cbv beta; rewrite /king_msgs !nth_mkseq // Em //.
split=> //; set d := dealing _ _ _ _ _ _; set d' := dealing _ _ _ _ _ _.
have -> // : d = d'; apply: dealing_ext => e j _ lt_j.
by rewrite Ev // -Ec addrCA [X in _ + X]addrC subrK addrC.
Qed.

(** C56: the same for the multi-scalar multiplication, whose masked result the king sends to every
    party as it is. *)
Lemma c56_d_msm_masks (F : fftField) (T : lmodType F) dbg lam (pp : pss F) (gen : T) (cT : codec T) mb m
    bases bases' scalars scalars' sb sb' ss ss' (c : F) (P : seq nat) x0 :
  pss_new F dbg (2 ^ lam) = Ok pp -> codec_ok cT mb -> ff_generator F ^+ p_n pp != 1 ->
  uniq P -> all (fun p => p < p_n pp)%N P -> (size P <= p_t pp)%N ->
  vsharing pp (2 * p_l pp) m bases sb -> vsharing (T := Fm F) pp (2 * p_l pp) m scalars ss ->
  vsharing pp (2 * p_l pp) m bases' sb' -> vsharing (T := Fm F) pp (2 * p_l pp) m scalars' ss' ->
  \sum_(e < m) \sum_(j < p_l pp) ss e j *: sb e j -
    \sum_(e < m) \sum_(j < p_l pp) ss' e j *: sb' e j = c *: gen ->
  exists (dv : rng F) (dr : rng T), forall values r, exists masks masks' out out',
    [/\ msm_mask_sample dbg pp gen values r = Ok masks,
        msm_mask_sample dbg pp gen (fun i => values i + dv i) (fun i => r i + dr i) = Ok masks',
        yields (p_n pp) false (fun ords p => clog (d_msm dbg pp (p_n pp) p (ords 0%N) cT (bases p)
          (scalars p) (nth x0 masks p)) [::]) out,
        yields (p_n pp) false (fun ords p => clog (d_msm dbg pp (p_n pp) p (ords 0%N) cT (bases' p)
          (scalars' p) (nth x0 masks' p)) [::]) out' &
        forall p, p \in P -> nth x0 masks' p = nth x0 masks p /\ out' p = out p].
Proof.
move=> new cok gn uP ltP sP Hb Hs Hb' Hs' Ec; have ok := pss_new_ok new.
have [dv [dr H]] := fresh_mmask new gn uP ltP sP gen c.
exists dv, dr => values r; have [Em Ev] := H values r.
have Y values0 r0 (f : msm_mask T -> T) s :
    shared pp (2 * p_l pp) (fun p => f (mmask pp dbg gen values0 r0 p)) s ->
    shared pp (2 * p_l pp) (fun p => f (nth x0 (mkseq (mmask pp dbg gen values0 r0) (p_n pp)) p)) s.
  by apply: shared_ext => // p lt_p; rewrite nth_mkseq.
have [E [/Y A /Y B]] := msm_sample_dealing ok dbg gen values r.
have [E' [/Y A' /Y B']] := msm_sample_dealing ok dbg gen (fun i => values i + dv i) (fun i => r i + dr i).
do 4!eexists; split; [exact: E|exact: E'| | |].
- by have [_ K] := d_msm_answer ok cok dbg A B Hb Hs; exact: (yields_log (n_gt0 new) K).
- by have [_ K] := d_msm_answer ok cok dbg A' B' Hb' Hs'; exact: (yields_log (n_gt0 new) K).
move=> p p_P; have lt_p := allP ltP _ p_P; cbv beta; rewrite /king_msgs !nth_mkseq // Em //.
have -> // : inner pp m sb' ss' + \sum_(j < p_l pp) (values j + dv j) *: gen =
   inner pp m sb ss + \sum_(j < p_l pp) values j *: gen.
by rewrite Ev -Ec /inner addrCA [X in _ + X]addrC subrK addrC.
Qed.
