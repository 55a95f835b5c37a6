(** What coalitions with the king see of one round. *)
From mathcomp Require Import all_ssreflect all_algebra.
From mathcomp Require Import zify.
From Verif Require Import RingTac Base ModelField ModelUtils ModelPss ModelPack ModelFft ModelNet.
From Verif Require Import ModelProto ModelQap ModelProve ModelMain.
From Verif Require Import Spec SpecNet SpecView SpecKing SpecProto SpecGroth SpecVerify.
From Verif Require Import NetProofs KingProofs RoundProofs LogProofs NetThm PartyProofs.
From Verif Require Import FieldProofs UtilsProofs PssProofs PackProofs FftProofs ProtoProofs DegProofs.
From Verif Require Import PssThm ProtoThm MaskProofs HideThm QapProofs ProveProofs ViewProofs ViewThm KingViewProofs.
Set Implicit Arguments.
Unset Strict Implicit.
Unset Printing Implicit Defensive.
Import GRing.Theory.
Local Open Scope ring_scope.
Local Notation Fm F := [lmodType F of F^o].

Lemma masked_follow (F : fftField) (T : lmodType F) (x x' i i' : seq T) m : size x = m -> size x' = m -> size i = m ->
  i' = zipmap +%R i (zipmap (fun a b => a - b) x x') -> zipmap +%R x' i' = zipmap +%R x i.
Proof.
move=> sx sx' si ->; apply: (@eq_from_nth _ 0); rewrite !size_zipmap sx sx' si !minnn // => e lt_e.
rewrite !(nth_zipmap _ 0 0) ?size_zipmap ?sx ?sx' ?si ?minnn //.
by rewrite addrCA [x'`_e + _]addrC subrK addrC.
Qed.

Lemma diff_zero (F : fftField) (T : lmodType F) (x x' : seq T) i : (i < size x)%N -> x = x' ->
  (zipmap (fun a b : T => a - b) x x')`_i = 0.
Proof. by move=> lt_i <-; rewrite (nth_zipmap _ 0 0) // subrr. Qed.

Lemma round_log_eq n msgs msgs' logs logs' p :
  (forall i, (0 < i < n)%N -> msgs i = msgs' i) -> (p != 0%N -> logs p = logs' p) ->
  round_log n msgs logs p = round_log n msgs' logs' p.
Proof.
rewrite /round_log; case: eqP => [_|_] E El; last by rewrite El.
by apply: eq_mkseq_in => i lt_i; case: (posnP i) => [->//|i0] /=; rewrite E // i0.
Qed.

Section FftViews.
Variable F : fftField.
Variables (dbg : bool) (lam b : nat) (pp : pss F) (cF : codec F) (mb : nat).
Hypotheses (new : pss_new F dbg (2 ^ lam) = Ok pp) (cok : codec_ok cF mb) (mb8 : (2 ^ b < 256 ^ 8)%N).
Variable P : seq nat.
Hypotheses (gn : ff_generator F ^+ p_n pp != 1) (uP : uniq P) (ltP : all (fun p => p < p_n pp)%N P).
Hypothesis sP : (size P <= p_t pp)%N.
  Local Notation N := (2 ^ (b + lam))%N.
  Local Notation m := (2 ^ b)%N.
  Local Notation n := (p_n pp).
  Local Notation diff x x' := (fun p => zipmap (fun a b => a - b) (x p) (x' p)).

(** the parties' stage is linear *)
Lemma fft1_diff gen (x x' y y' : nat -> seq F) (sec sec' : nat -> nat -> F) : N.-primitive_root gen ->
  (forall p, (p < n)%N -> size (x p) = m) -> (forall p, (p < n)%N -> size (x' p) = m) ->
  (forall p, (p < n)%N -> fft1 pp (x p) gen = Ok (y p)) -> (forall p, (p < n)%N -> fft1 pp (x' p) gen = Ok (y' p)) ->
  vsharing (T := Fm F) pp (2 * p_l pp) m (diff x x') (fun e j => sec e j - sec' e j) ->
  vsharing (T := Fm F) pp (2 * p_l pp) m (diff y y')
    (fun e j => bsum gen (2 ^ lam) b e (fun i => sec i j) - bsum gen (2 ^ lam) b e (fun i => sec' i j)).
Proof.
move=> pr sx sx' Ey Ey' Hd; have El := pss_new_l new.
have [z [Ez Hz]] := fft1_vsharing El pr Hd.
have B (u w : nat -> F) e : bsum gen (2 ^ lam) b e (fun i => u i - w i) =
    bsum gen (2 ^ lam) b e u - bsum gen (2 ^ lam) b e w.
  by rewrite /bsum -sumrB; apply: eq_bigr => i _; rewrite mulrBr.
have E1 p (u v : nat -> seq F) : (p < n)%N -> size (u p) = m -> fft1 pp (u p) gen = Ok (v p) ->
    v p = mkseq (fun k => bsum gen (2 ^ lam) b k (nth 0 (u p))) m.
  move=> lt_p su; rewrite (fft1P El su) => [Q|K EK]; first exact/esym/(Ok_inj Q).
  by apply: half_root; rewrite EK.
apply: vsharing_ext Hz => [p lt_p|e j lt_e lt_j]; last exact: B.
have sd : size (zipmap (fun a b => a - b) (x p) (x' p)) = m by rewrite size_zipmap sx // sx' // minnn.
rewrite (E1 p x y lt_p (sx p lt_p) (Ey p lt_p)) (E1 p x' y' lt_p (sx' p lt_p) (Ey' p lt_p)).
rewrite (E1 p (diff x x') z lt_p sd (Ez p lt_p)).
apply: (@eq_from_nth _ 0); rewrite ?size_zipmap !size_mkseq ?minnn // => e lt_e.
rewrite (nth_zipmap _ 0 0) ?size_mkseq // !nth_mkseq // -B; apply: eq_bsum => i lt_i.
by rewrite (nth_zipmap _ 0 0) ?sx ?sx'.
Qed.

Lemma fft_view rearrange g gen r (y y' : nat -> seq F) (s1 s1' : nat -> nat -> F) deg
    (prog prog' : hash_order -> nat -> fft_mask F -> cproc (seq F)) :
  N.-primitive_root gen -> (deg <= 4 * 2 ^ lam - 1)%N ->
  vsharing (T := Fm F) pp deg m y s1 -> vsharing (T := Fm F) pp deg m y' s1' ->
  vsharing (T := Fm F) pp (2 * p_l pp) m (diff y y') (fun e j => s1 e j - s1' e j) ->
  (forall p, p \in P -> y p = y' p) ->
  (forall ord p mask, (p < n)%N ->
     prog ord p mask = fft2_with_rearrange dbg pp n p ord cF (y p) mask rearrange g gen r) ->
  (forall ord p mask, (p < n)%N ->
     prog' ord p mask = fft2_with_rearrange dbg pp n p ord cF (y' p) mask rearrange g gen r) ->
  exists dv d_in d_out : rng F, forall values r_in r_out, exists masks masks' out out',
    [/\ fft_mask_sample dbg pp rearrange g gen N values r_in r_out = Ok masks,
        fft_mask_sample dbg pp rearrange g gen N (fun i => values i + dv i)
          (fun i => r_in i + d_in i) (fun i => r_out i + d_out i) = Ok masks',
        yields n true (fun ords p => clogk (prog (ords 0%N) p (nth (no_mask F) masks p)) [::]) out,
        yields n true (fun ords p => clogk (prog' (ords 0%N) p (nth (no_mask F) masks' p)) [::]) out' &
        forall p, p \in P -> nth (no_mask F) masks' p = nth (no_mask F) masks p /\ out' p = out p].
Proof.
move=> pr Hdeg Hy Hy' Hd Ey E E'; have ok := pss_new_ok new; have El := pss_new_l new.
have n1 := n_gt1 ok; have sy p : (p < n)%N -> size (y p) = m by case: Hy => H _; apply: H.
have sy' p : (p < n)%N -> size (y' p) = m by case: Hy' => H _; apply: H.
have [p i p_P lt_i|dv [di [do_ H]]] := follow_fmask new gn uP ltP sP rearrange g gen Hd.
  by apply: (diff_zero (T := Fm F)); rewrite ?Ey // sy' // (allP ltP).
exists dv, di, do_ => values r_in r_out; have [Ei Em Ev] := H values r_in r_out.
pose fm := fmask dbg lam b pp rearrange g gen.
have M v ri ro : mask_of lam b pp rearrange g gen v (nth (no_mask F) (mkseq (fm v ri ro) n)).
  by apply: mask_of_ext (fmask_ok b new rearrange g gen v ri ro) => p lt_p; rewrite nth_mkseq.
have R (w : nat -> seq F) s v ri ro (pr' : hash_order -> nat -> fft_mask F -> cproc (seq F)) :
    vsharing (T := Fm F) pp deg m w s ->
    (forall ord p mask, (p < n)%N ->
       pr' ord p mask = fft2_with_rearrange dbg pp n p ord cF (w p) mask rearrange g gen r) ->
    let ms := nth (no_mask F) (mkseq (fm v ri ro) n) in
    let ans := dealing (T := Fm F) pp dbg (slots (T := Fm F) pp rearrange b (b + lam)
               (king_values pp lam b g gen s v)) m r in
    yields n true (fun ords p => clogk (pr' (ords 0%N) p (ms p)) [::])
      (fun p => (zipmap +%R (ans p) (fm_out (ms p)),
         round_log n (fun p => enc (vec_codec cF) (zipmap +%R (w p) (fm_in (ms p))))
           (king_msgs (fun p => enc (vec_codec cF) (ans p))) p)).
  move=> Hw Ew ms ans; have [_ /(_ _ Hw r _ _ (M v ri ro)) [_ K]] := fft2_logs new cok mb8 rearrange g s Hdeg pr.
  apply: (yields_view (prog := fun ord p => pr' ord p (ms p)) n1) => [ord Ho|ord p /andP[p0 lt_p]].
    by apply: king_log_ext (K ord Ho) => // [|p lt_p]; [apply: ltnW|apply: Ew].
  by rewrite Ew //; apply: fft2_sends; rewrite -lt0n.
do 4!eexists; split; [exact: (fft_sample_dealing new)|exact: (fft_sample_dealing new)| | |].
- exact: (R _ _ _ _ _ _ Hy E).
- exact: (R _ _ _ _ _ _ Hy' E').
move=> p p_P; have lt_p := allP ltP _ p_P; cbv beta; rewrite !nth_mkseq // /fm Em //; split=> //.
rewrite Ev; congr (_, _); apply: round_log_eq => // q qI.
have [_ lt_q] := andP qI; rewrite !nth_mkseq //; congr (enc _ _).
by apply: (masked_follow (T := Fm F)) (Ei q lt_q); rewrite ?sy ?sy' // size_mkseq.
Qed.

End FftViews.

Lemma shared_uniq (F : fftField) (T : lmodType F) (pp : pss F) d d' (f : nat -> T) g g' j : pp_ok pp ->
  (d <= 4 * p_l pp - 1)%N -> (d' <= 4 * p_l pp - 1)%N -> shared pp d f g -> shared pp d' f g' ->
  (j < p_l pp)%N -> g j = g' j.
Proof.
move=> ok Hd Hd' H H' lt_j; have Ho : hash_ok id by move=> s.
have := unpack_who ok true 0 Ho Hd H; rewrite (unpack_who ok true 0 Ho Hd' H') => E.
by rewrite -(mkseq_inj_in (Ok_inj E) lt_j).
Qed.

Lemma diff_secrets (F : fftField) (T : lmodType F) (pp : pss F) d deg m x x' (s sec sec' : nat -> nat -> T) : pp_ok pp ->
  (d <= 4 * p_l pp - 1)%N -> (deg <= 4 * p_l pp - 1)%N ->
  vsharing pp deg m x sec -> vsharing pp deg m x' sec' ->
  vsharing pp d m (fun p => zipmap (fun a b => a - b) (x p) (x' p)) s ->
  vsharing pp d m (fun p => zipmap (fun a b => a - b) (x p) (x' p)) (fun e j => sec e j - sec' e j).
Proof.
move=> ok Hd Hdeg /vsharingP[sx Sx] /vsharingP[sx' Sx'] H; apply: vsharing_ext (H) => // e j lt_e lt_j.
have /vsharingP[_ /(_ e lt_e) He] := H; have W := shared_lin (-1) (Sx' e lt_e) (Sx e lt_e).
have {}W : shared pp deg (fun p => (zipmap (fun a b => a - b) (x p) (x' p))`_e) (fun j => sec e j - sec' e j).
  apply: shared_ext W => i lt_i; last by rewrite scaleN1r addrC.
  by rewrite scaleN1r addrC (nth_zipmap _ 0 0) ?sx ?sx'.
exact: (shared_uniq ok Hd Hdeg He W).
Qed.

(** equal masked vectors: the inputs differ as the masks do *)
Lemma masked_eq (F : fftField) (T : lmodType F) (pp : pss F) d m x x' (i i' : nat -> seq T) s s' :
  (forall p, (p < p_n pp)%N -> size (x p) = m) -> (forall p, (p < p_n pp)%N -> size (x' p) = m) ->
  vsharing pp d m i s -> vsharing pp d m i' s' ->
  (forall p, (p < p_n pp)%N -> zipmap +%R (x' p) (i' p) = zipmap +%R (x p) (i p)) ->
  vsharing pp d m (fun p => zipmap (fun a b => a - b) (x p) (x' p)) (fun e j => s' e j - s e j).
Proof.
move=> sx sx' Hi Hi' E; have si p : (p < p_n pp)%N -> size (i p) = m by case: Hi => H _; apply: H.
have si' p : (p < p_n pp)%N -> size (i' p) = m by case: Hi' => H _; apply: H.
apply: vsharing_ext (vsharing_sub Hi' Hi) => // p lt_p.
apply: (@eq_from_nth _ 0); rewrite size_mkseq ?size_zipmap ?sx ?sx' ?minnn // => e lt_e.
have := congr1 (nth 0 ^~ e) (E p lt_p); rewrite /= nth_mkseq // !(nth_zipmap _ 0 0) ?sx ?sx' ?si ?si' // => Q.
by apply/eqP; rewrite subr_eq addrAC -Q addrAC subrr add0r.
Qed.

Lemma store_inj n (f g : nat -> bytes) p : store_without n f n = store_without n g n -> (0 < p < n)%N -> f p = g p.
Proof.
move=> E /andP[p0 lt_p]; have := mkseq_inj_in E lt_p.
by rewrite (negbTE (lt0n_neq0 p0)) (ltn_eqF lt_p) /= => -[].
Qed.

Section FftExact.
Variable F : fftField.
Variables (dbg : bool) (lam b : nat) (pp : pss F) (cF : codec F) (mb : nat).
Hypotheses (new : pss_new F dbg (2 ^ lam) = Ok pp) (cok : codec_ok cF mb) (mb8 : (2 ^ b < 256 ^ 8)%N).
  Local Notation N := (2 ^ (b + lam))%N.
  Local Notation m := (2 ^ b)%N.
  Local Notation n := (p_n pp).
  Local Notation diff x x' := (fun p => zipmap (fun a b => a - b) (x p) (x' p)).

(** the parties' stage can be undone *)
Lemma bsum_inv gen (x : nat -> F) e : N.-primitive_root gen -> (e < m)%N ->
  \sum_(k < m) (m%:R^-1 * gen ^+ (2 ^ lam * k.+1 * (m - bitrev b e))) * bsum gen (2 ^ lam) b k x = x e.
Proof.
move=> pr lt_e; have pw : m.-primitive_root (gen ^+ (2 ^ lam)).
  have -> : m = (N %/ gcdn (2 ^ lam) N)%N.
    rewrite (gcdn_idPl _) ?expnD ?mulnK ?expn_gt0 //; exact: dvdn_mull.
  exact: exp_prim_root.
set w := gen ^+ (2 ^ lam) in pw; have m0 : m%:R != 0 :> F := prim2_natf_neq0 pw.
have W k t : gen ^+ (2 ^ lam * k.+1 * t) = (w ^+ t) ^+ k.+1 by rewrite -mulnA exprM [(k.+1 * _)%N]mulnC exprM.
rewrite /bsum; under eq_bigr do rewrite big_distrr /=; rewrite exchange_big /=.
have S (e' : 'I_m) : \sum_(k < m) m%:R^-1 * gen ^+ (2 ^ lam * k.+1 * (m - bitrev b e)) *
    (gen ^+ (2 ^ lam * k.+1 * bitrev b e') * x e') = if e' == e :> nat then x e else 0.
  pose t := (m - bitrev b e + bitrev b e')%N.
  have -> : \sum_(k < m) m%:R^-1 * gen ^+ (2 ^ lam * k.+1 * (m - bitrev b e)) *
      (gen ^+ (2 ^ lam * k.+1 * bitrev b e') * x e') = m%:R^-1 * x e' * w ^+ t * \sum_(k < m) (w ^+ t) ^+ k.
    rewrite big_distrr /=; apply: eq_bigr => k _; rewrite !W -!mulrA; congr (_ * _).
    by rewrite mulrA -exprMn -exprD -/t [x e' * _]mulrC -exprS.
  rewrite (sum_prim_root _ pw); have lt_r := bitrev_lt b e; have lt_r' := bitrev_lt b e'.
  case: ifP => Hd.
    have Et : bitrev b e' = bitrev b e.
      by case/dvdnP: Hd => q; rewrite /t; case: q => [|[|q]]; nia.
    have -> : e' = e :> nat by rewrite -(bitrevK (ltn_ord e')) Et bitrevK.
    have -> : t = m by rewrite /t Et subnK // ltnW.
    by rewrite eqxx (prim_expr_order pw) mulr1 mulrAC mulVf // mul1r.
  rewrite mulr0; case: eqP => // Ee; move: Hd; rewrite /t Ee subnK ?dvdnn //; exact: ltnW.
rewrite (eq_bigr _ (fun e' _ => S e')) (bigD1 (Ordinal lt_e)) //= eqxx big1 ?addr0 // => e' ne.
by case: eqP => // Ee; move: ne; rewrite -val_eqE /= Ee eqxx.
Qed.

Lemma fft1_undo gen (x x' y y' : nat -> seq F) d s : N.-primitive_root gen ->
  (forall p, (p < n)%N -> size (x p) = m) -> (forall p, (p < n)%N -> size (x' p) = m) ->
  (forall p, (p < n)%N -> fft1 pp (x p) gen = Ok (y p)) -> (forall p, (p < n)%N -> fft1 pp (x' p) gen = Ok (y' p)) ->
  vsharing (T := Fm F) pp d m (diff y y') s -> exists s', vsharing (T := Fm F) pp d m (diff x x') s'.
Proof.
move=> pr sx sx' Ey Ey' Hd; have El := pss_new_l new.
pose M e k : F := m%:R^-1 * gen ^+ (2 ^ lam * k.+1 * (m - bitrev b e)).
exists (fun e j => \sum_(k < m) M e k *: (s k j : Fm F)).
have E1 p (u v : nat -> seq F) : (p < n)%N -> size (u p) = m -> fft1 pp (u p) gen = Ok (v p) ->
    v p = mkseq (fun k => bsum gen (2 ^ lam) b k (nth 0 (u p))) m.
  move=> lt_p su; rewrite (fft1P El su) => [Q|K EK]; first exact/esym/(Ok_inj Q).
  by apply: half_root; rewrite EK.
apply: vsharing_ext (vsharing_matrix m M Hd) => // p lt_p.
rewrite (E1 p x y lt_p (sx p lt_p) (Ey p lt_p)) (E1 p x' y' lt_p (sx' p lt_p) (Ey' p lt_p)).
apply: (@eq_from_nth _ 0); rewrite size_mkseq ?size_zipmap ?sx ?sx' ?minnn // => e lt_e.
rewrite nth_mkseq // (nth_zipmap _ 0 0) ?sx ?sx' // -(bsum_inv (nth 0 (x p)) pr lt_e) -(bsum_inv (nth 0 (x' p)) pr lt_e).
rewrite -sumrB; apply: eq_bigr => k _; rewrite (nth_zipmap _ 0 0) ?size_mkseq // !nth_mkseq //.
exact: mulrBr.
Qed.

Lemma fft_exact rearrange g gen r (y y' : nat -> seq F) (s1 s1' : nat -> nat -> F) deg
    (prog prog' : hash_order -> nat -> fft_mask F -> cproc (seq F)) :
  N.-primitive_root gen -> (deg <= 4 * 2 ^ lam - 1)%N ->
  vsharing (T := Fm F) pp deg m y s1 -> vsharing (T := Fm F) pp deg m y' s1' ->
  y 0%N = y' 0%N ->
  (forall ord p mask, (p < n)%N ->
     prog ord p mask = fft2_with_rearrange dbg pp n p ord cF (y p) mask rearrange g gen r) ->
  (forall ord p mask, (p < n)%N ->
     prog' ord p mask = fft2_with_rearrange dbg pp n p ord cF (y' p) mask rearrange g gen r) ->
  forall values r_in r_out values' r_in' r_out', exists masks masks' out out',
    [/\ fft_mask_sample dbg pp rearrange g gen N values r_in r_out = Ok masks,
        fft_mask_sample dbg pp rearrange g gen N values' r_in' r_out' = Ok masks',
        yields n true (fun ords p => clogk (prog (ords 0%N) p (nth (no_mask F) masks p)) [::]) out,
        yields n true (fun ords p => clogk (prog' (ords 0%N) p (nth (no_mask F) masks' p)) [::]) out' &
        nth (no_mask F) masks' 0 = nth (no_mask F) masks 0 -> out' 0%N = out 0%N ->
        exists s, vsharing (T := Fm F) pp (2 * p_l pp) m (diff y y') s].
Proof.
move=> pr Hdeg Hy Hy' Ey E E' values r_in r_out values' r_in' r_out'; have ok := pss_new_ok new.
have n1 := n_gt1 ok; have sy p : (p < n)%N -> size (y p) = m by case: Hy => H _; apply: H.
have sy' p : (p < n)%N -> size (y' p) = m by case: Hy' => H _; apply: H.
pose fm := fmask dbg lam b pp rearrange g gen.
have M v ri ro : mask_of lam b pp rearrange g gen v (nth (no_mask F) (mkseq (fm v ri ro) n)).
  by apply: mask_of_ext (fmask_ok b new rearrange g gen v ri ro) => p lt_p; rewrite nth_mkseq.
have R (w : nat -> seq F) s v ri ro (pr' : hash_order -> nat -> fft_mask F -> cproc (seq F)) :
    vsharing (T := Fm F) pp deg m w s ->
    (forall ord p mask, (p < n)%N ->
       pr' ord p mask = fft2_with_rearrange dbg pp n p ord cF (w p) mask rearrange g gen r) ->
    let ms := nth (no_mask F) (mkseq (fm v ri ro) n) in
    exists out, yields n true (fun ords p => clogk (pr' (ords 0%N) p (ms p)) [::]) out /\
      (out 0%N).2 = store_without n (fun p => enc (vec_codec cF) (zipmap +%R (w p) (fm_in (ms p)))) n.
  move=> Hw Ew ms; have [_ /(_ _ Hw r _ _ (M v ri ro)) [_ K]] := fft2_logs new cok mb8 rearrange g s Hdeg pr.
  eexists; split; first apply: (yields_view (prog := fun ord p => pr' ord p (ms p)) n1) => [ord Ho|ord p /andP[p0 lt_p]].
  - by apply: king_log_ext (K ord Ho) => // [|p lt_p]; [apply: ltnW|apply: Ew].
  - by rewrite Ew //; apply: fft2_sends; rewrite -lt0n.
  by [].
have [out [Y Eo]] := R _ _ values r_in r_out _ Hy E; have [out' [Y' Eo']] := R _ _ values' r_in' r_out' _ Hy' E'.
do 4!eexists; split; [exact: (fft_sample_dealing new)|exact: (fft_sample_dealing new)|exact: Y|exact: Y'|].
have [[Hi _] [Hi' _]] := (M values r_in r_out, M values' r_in' r_out').
move=> E0 /(congr1 snd); rewrite Eo Eo' => Es.
suff Q p : (p < n)%N -> zipmap +%R (y' p) (fm_in (nth (no_mask F) (mkseq (fm values' r_in' r_out') n) p)) =
    zipmap +%R (y p) (fm_in (nth (no_mask F) (mkseq (fm values r_in r_out) n) p)).
  by eexists; exact: (masked_eq (T := Fm F) sy sy' Hi Hi' Q).
case: (posnP p) => [->|p0] lt_p; first by rewrite Ey E0.
have /(store_inj (p := p)) := Es; rewrite p0 lt_p => /(_ isT).
have si v ri ro : size (fm_in (nth (no_mask F) (mkseq (fm v ri ro) n) p)) = m.
  by have [[H _] _] := M v ri ro; apply: H.
by apply: (enc_vec_inj (T := Fm F) cok mb8); rewrite size_zipmap ?sy ?sy' // si minnn.
Qed.

End FftExact.

Section Runs.
Variable F : fftField.
Variable T : lmodType F.
Variables (dbg : bool) (pp : pss F) (gen : T) (cT : codec T) (mb : nat).
Hypotheses (ok : pp_ok pp) (cok : codec_ok cT mb).
  Local Notation n := (p_n pp).
  Local Notation l := (p_l pp).

(** a run of [deg_red] with sampled masks *)
Lemma deg_red_run m x (sec : nat -> nat -> T) deg (r : rng T) values r_in r_out :
  (0 < m < 256 ^ 8)%N -> (deg <= 4 * l - 1)%N -> vsharing pp deg m x sec ->
  let x0 := degred_mask_zero T 0 in
  let masks := mkseq (dmask pp dbg gen m values r_in r_out) n in
  let msgs p := enc (vec_codec cT) (zipmap +%R (x p) (dr_in (nth x0 masks p))) in
  exists out, yields n true (fun ords p => clogk (deg_red dbg pp n p (ords 0%N) cT (x p) (nth x0 masks p) r) [::])
    out /\ (out 0%N).2 = store_without n msgs n.
Proof.
move=> Hm Hdeg Hx x0 masks msgs; have n1 := n_gt1 ok.
have sx p : (p < n)%N -> size (x p) = m by case: Hx => H _; apply: H.
have Y (f : degred_mask T -> seq T) s : vsharing pp (2 * l) m (fun p => f (dmask pp dbg gen m values r_in r_out p)) s ->
    vsharing pp (2 * l) m (fun p => f (nth x0 masks p)) s.
  by apply: vsharing_ext => // p lt_p; rewrite nth_mkseq.
have [/Y Ai /Y Ao] := dmask_ok ok dbg gen m values r_in r_out.
have [_ K] := deg_red_answer ok cok dbg r Hm Hdeg Ai Ao Hx.
have S ord p : (0 < p < n)%N -> sends_only (deg_red dbg pp n p ord cT (x p) (nth x0 masks p) r) (msgs p).
  case/andP=> p0 lt_p; case: Ai Ao => [H1 _] [H2 _].
  by apply: deg_red_sends; rewrite -?lt0n // sx // ?H1 // H2.
by eexists; split; first exact: (yields_view n1 K S).
Qed.

Lemma d_msm_sends n me ord m (bases : seq T) (scalars : seq F) mask : me != 0%N -> size bases = m -> size scalars = m ->
  sends_only (d_msm dbg pp n me ord cT bases scalars mask)
    (enc cT (\sum_(e < m) scalars`_e *: bases`_e + mm_in mask)).
Proof.
case: me => // me _ sb ss; rewrite /d_msm sb ss /dassert eqxx implybT /msm sb ss eqxx.
have -> : foldr +%R 0 (zipmap (fun s b => s *: b) scalars bases) = \sum_(e < m) scalars`_e *: bases`_e.
  rewrite foldr_sum size_zipmap sb ss minnn; apply: eq_bigr => e _.
  by rewrite (nth_zipmap _ 0 0) ?sb ?ss.
eexists; split; first by reflexivity.
by move=> y /=; case: (ModelNet.decode _ y) => [z|e|] /=; eexists.
Qed.

(** a run of [d_msm] with sampled masks *)
Lemma d_msm_run m bases (sb : nat -> nat -> T) scalars ss values r :
  vsharing pp (2 * l) m bases sb -> vsharing (T := Fm F) pp (2 * l) m scalars ss ->
  let x0 := msm_mask_zero T in
  let masks := mkseq (mmask pp dbg gen values r) n in
  let msgs p := enc cT (\sum_(e < m) (scalars p)`_e *: (bases p)`_e + mm_in (nth x0 masks p)) in
  let ans := inner pp m sb ss + \sum_(j < l) values j *: gen in
  yields n true (fun ords p => clogk (d_msm dbg pp n p (ords 0%N) cT (bases p) (scalars p) (nth x0 masks p)) [::])
    (fun p => (ans + mm_out (nth x0 masks p), round_log n msgs (king_msgs (fun=> enc cT ans)) p)).
Proof.
move=> Hb Hs x0 masks msgs ans; have n1 := n_gt1 ok.
have Y (f : msm_mask T -> T) s : shared pp (2 * l) (fun p => f (mmask pp dbg gen values r p)) s ->
    shared pp (2 * l) (fun p => f (nth x0 masks p)) s.
  by apply: shared_ext => // p lt_p; rewrite nth_mkseq.
have [_ [/Y A /Y B]] := msm_sample_dealing ok dbg gen values r.
have [_ K] := d_msm_answer ok cok dbg A B Hb Hs.
apply: (yields_view n1 K) => ord p /andP[p0 lt_p].
by apply: d_msm_sends; rewrite -?lt0n //; [case: Hb => H _|case: Hs => H _]; apply: H.
Qed.

End Runs.

(*** theorems ***)

(** C61: what at most [t] parties, the king among them, see of the degree reduction: their masks, results
    and all messages, also those the king collects.  Inputs whose difference is a sharing of degree below
    [2l] and which give the coalition the same shares lead to the same views: some translation of the
    randomness of the masks leaves everything the coalition sees as it is. *)
Lemma c61_deg_red (F : fftField) (T : lmodType F) dbg lam (pp : pss F) (gen : T) (cT : codec T) mb m
    x x' (sec sec' : nat -> nat -> T) (c : nat -> nat -> F) deg (P : seq nat) (r : rng T) :
  pss_new F dbg (2 ^ lam) = Ok pp -> codec_ok cT mb -> (0 < m < 256 ^ 8)%N ->
  (deg <= 4 * 2 ^ lam - 1)%N -> ff_generator F ^+ p_n pp != 1 ->
  uniq P -> all (fun p => p < p_n pp)%N P -> (size P <= p_t pp)%N ->
  vsharing pp deg m x sec -> vsharing pp deg m x' sec' ->
  vsharing pp (2 * 2 ^ lam) m (fun p => zipmap (fun a b => a - b) (x p) (x' p)) (fun e j => sec e j - sec' e j) ->
  (forall p, p \in P -> x p = x' p) ->
  (forall e j, sec e j - sec' e j = c e j *: gen) ->
  exists (dv : rng F) (d_in d_out : rng T), forall values r_in r_out, exists masks masks' out out',
    let x0 := degred_mask_zero T 0 in
    [/\ degred_mask_sample dbg pp gen m values r_in r_out = Ok masks,
        degred_mask_sample dbg pp gen m (fun i => values i + dv i) (fun i => r_in i + d_in i)
          (fun i => r_out i + d_out i) = Ok masks',
        yields (p_n pp) true (fun ords p => clogk (deg_red dbg pp (p_n pp) p (ords 0%N) cT (x p)
          (nth x0 masks p) r) [::]) out,
        yields (p_n pp) true (fun ords p => clogk (deg_red dbg pp (p_n pp) p (ords 0%N) cT (x' p)
          (nth x0 masks' p) r) [::]) out' &
        forall p, p \in P -> nth x0 masks' p = nth x0 masks p /\ out' p = out p].
Proof.
move=> new cok Hm Hdeg gn uP ltP sP Hx Hx' Hd Ex Ec; have ok := pss_new_ok new.
rewrite -(pss_new_l new) in Hdeg Hd; have m0 : (0 < m)%N by case/andP: Hm.
have n1 := n_gt1 ok; have sx p : (p < p_n pp)%N -> size (x p) = m by case: Hx => H _; apply: H.
have sx' p : (p < p_n pp)%N -> size (x' p) = m by case: Hx' => H _; apply: H.
have Hd' : vsharing pp (2 * p_l pp) m (fun p => zipmap (fun a b => a - b) (x p) (x' p)) (fun e j => c e j *: gen).
  by apply: vsharing_ext Hd.
have [p i p_P lt_i|dv [di [do_ H]]] := follow_dmask new gn uP ltP sP Hd'.
  by apply: diff_zero; rewrite ?Ex // sx' // (allP ltP).
exists dv, di, do_ => values r_in r_out; have [Ei Em Ev] := H values r_in r_out.
set x0 := degred_mask_zero T 0.
have X values0 ri ro := dmask_ok ok dbg gen m values0 ri ro.
have Y values0 ri ro (f : degred_mask T -> seq T) s :
    vsharing pp (2 * p_l pp) m (fun p => f (dmask pp dbg gen m values0 ri ro p)) s ->
    vsharing pp (2 * p_l pp) m (fun p => f (nth x0 (mkseq (dmask pp dbg gen m values0 ri ro) (p_n pp)) p)) s.
  by apply: vsharing_ext => // p lt_p; rewrite nth_mkseq.
have [/Y Ai /Y Ao] := X values r_in r_out.
have [/Y Ai' /Y Ao'] := X (fun i => values i + dv i) (fun i => r_in i + di i) (fun i => r_out i + do_ i).
have S (y : nat -> seq T) (ms : nat -> degred_mask T) s v : (forall p, (p < p_n pp)%N -> size (y p) = m) ->
   vsharing pp (2 * p_l pp) m (fun p => dr_in (ms p)) s -> vsharing pp (2 * p_l pp) m (fun p => dr_out (ms p)) v ->
   forall ord p, (0 < p < p_n pp)%N -> sends_only (deg_red dbg pp (p_n pp) p ord cT (y p) (ms p) r)
     (enc (vec_codec cT) (zipmap +%R (y p) (dr_in (ms p)))).
  move=> sy [H1 _] [H2 _] ord p /andP[p0 lt_p].
  by apply: deg_red_sends; rewrite -?lt0n // sy // ?H1 // H2.
do 4!eexists; split; [exact: degred_sample_dealing|exact: degred_sample_dealing| | |].
- have [_ K] := deg_red_answer ok cok dbg r Hm Hdeg Ai Ao Hx.
  exact: (yields_view n1 K (S _ _ _ _ sx Ai Ao)).
- have [_ K] := deg_red_answer ok cok dbg r Hm Hdeg Ai' Ao' Hx'.
  exact: (yields_view n1 K (S _ _ _ _ sx' Ai' Ao')).
move=> p p_P; have lt_p := allP ltP _ p_P; cbv beta; rewrite !nth_mkseq // Em //; split=> //.
have Ed q : dealing pp dbg (fun e j => sec' e j + (values (e * p_l pp + j)%N + dv (e * p_l pp + j)%N) *: gen) m r q =
    dealing pp dbg (fun e j => sec e j + values (e * p_l pp + j)%N *: gen) m r q.
  by apply: dealing_ext => e j _ lt_j; rewrite Ev // -Ec addrCA [X in _ + X]addrC subrK addrC.
rewrite Ed; congr (_, _); apply: round_log_eq => [q qI|p0]; last by rewrite /king_msgs (negPf p0) Ed.
have [_ lt_q] := andP qI; rewrite !nth_mkseq //; congr (enc _ _).
by apply: masked_follow (Ei q lt_q); rewrite ?sx ?sx' // size_mkseq.
Qed.

(** C61: the same for the transform. *)
Lemma c61_d_fft (F : fftField) dbg lam b (pp : pss F) dom (cF : codec F) mb rearrange x x'
    (sec sec' : nat -> nat -> F) deg (P : seq nat) (r : rng F) :
  pss_new F dbg (2 ^ lam) = Ok pp -> domain_new F (2 ^ (b + lam)) = Some dom ->
  codec_ok cF mb -> (2 ^ b < 256 ^ 8)%N -> (deg <= 4 * 2 ^ lam - 1)%N ->
  ff_generator F ^+ p_n pp != 1 ->
  uniq P -> all (fun p => p < p_n pp)%N P -> (size P <= p_t pp)%N ->
  vsharing (T := Fm F) pp deg (2 ^ b) x sec -> vsharing (T := Fm F) pp deg (2 ^ b) x' sec' ->
  vsharing (T := Fm F) pp (2 * 2 ^ lam) (2 ^ b) (fun p => zipmap (fun a b => a - b) (x p) (x' p))
    (fun e j => sec e j - sec' e j) ->
  (forall p, p \in P -> x p = x' p) ->
  exists dv d_in d_out : rng F, forall values r_in r_out, exists masks masks' out out',
    [/\ fft_mask_sample dbg pp rearrange 1 (d_gen dom) (2 ^ (b + lam)) values r_in r_out = Ok masks,
        fft_mask_sample dbg pp rearrange 1 (d_gen dom) (2 ^ (b + lam)) (fun i => values i + dv i)
          (fun i => r_in i + d_in i) (fun i => r_out i + d_out i) = Ok masks',
        yields (p_n pp) true (fun ords p => clogk (d_fft dbg pp (p_n pp) p (ords 0%N) cF (x p) (nth (no_mask F) masks p) rearrange dom r) [::]) out,
        yields (p_n pp) true (fun ords p => clogk (d_fft dbg pp (p_n pp) p (ords 0%N) cF (x' p) (nth (no_mask F) masks' p) rearrange dom r) [::]) out' &
        forall p, p \in P -> nth (no_mask F) masks' p = nth (no_mask F) masks p /\ out' p = out p].
Proof.
move=> new Edom cok mb8 Hdeg gn uP ltP sP Hx Hx' Hd Ex; have El := pss_new_l new; have pr := dom_prim Edom.
rewrite -El in Hd; have sx p : (p < p_n pp)%N -> size (x p) = (2 ^ b)%N by case: Hx => H _; apply: H.
have sx' p : (p < p_n pp)%N -> size (x' p) = (2 ^ b)%N by case: Hx' => H _; apply: H.
have [y [Ey Hy]] := fft1_vsharing El pr Hx; have [y' [Ey' Hy']] := fft1_vsharing El pr Hx'.
have V := @fft_view F dbg lam b pp cF mb new cok mb8 P gn uP ltP sP rearrange 1 (d_gen dom) r y y' _ _ deg
  (fun ord p mask => d_fft dbg pp (p_n pp) p ord cF (x p) mask rearrange dom r)
  (fun ord p mask => d_fft dbg pp (p_n pp) p ord cF (x' p) mask rearrange dom r) pr Hdeg Hy Hy'; apply: V.
- exact: (fft1_diff new pr sx sx' Ey Ey' Hd).
- move=> p p_P; have lt_p := allP ltP _ p_P.
  by apply: Ok_inj; rewrite -Ey // -Ey' // Ex.
- by move=> ord p mask lt_p; rewrite /d_fft (px_assert El Edom) ?sx // Ey.
by move=> ord p mask lt_p; rewrite /d_fft (px_assert El Edom) ?sx' // Ey'.
Qed.

(** C61: the same for the inverse transform. *)
Lemma c61_d_ifft (F : fftField) dbg lam b (pp : pss F) dom (cF : codec F) mb rearrange g x x'
    (sec sec' : nat -> nat -> F) deg (P : seq nat) (r : rng F) :
  pss_new F dbg (2 ^ lam) = Ok pp -> domain_new F (2 ^ (b + lam)) = Some dom ->
  codec_ok cF mb -> (2 ^ b < 256 ^ 8)%N -> (deg <= 4 * 2 ^ lam - 1)%N ->
  ff_generator F ^+ p_n pp != 1 ->
  uniq P -> all (fun p => p < p_n pp)%N P -> (size P <= p_t pp)%N ->
  vsharing (T := Fm F) pp deg (2 ^ b) x sec -> vsharing (T := Fm F) pp deg (2 ^ b) x' sec' ->
  vsharing (T := Fm F) pp (2 * 2 ^ lam) (2 ^ b) (fun p => zipmap (fun a b => a - b) (x p) (x' p))
    (fun e j => sec e j - sec' e j) ->
  (forall p, p \in P -> x p = x' p) ->
  exists dv d_in d_out : rng F, forall values r_in r_out, exists masks masks' out out',
    [/\ fft_mask_sample dbg pp rearrange g (d_gen_inv dom) (2 ^ (b + lam)) values r_in r_out = Ok masks,
        fft_mask_sample dbg pp rearrange g (d_gen_inv dom) (2 ^ (b + lam)) (fun i => values i + dv i)
          (fun i => r_in i + d_in i) (fun i => r_out i + d_out i) = Ok masks',
        yields (p_n pp) true (fun ords p => clogk (d_ifft dbg pp (p_n pp) p (ords 0%N) cF (x p) (nth (no_mask F) masks p) rearrange dom g r) [::]) out,
        yields (p_n pp) true (fun ords p => clogk (d_ifft dbg pp (p_n pp) p (ords 0%N) cF (x' p) (nth (no_mask F) masks' p) rearrange dom g r) [::]) out' &
        forall p, p \in P -> nth (no_mask F) masks' p = nth (no_mask F) masks p /\ out' p = out p].
Proof.
move=> new Edom cok mb8 Hdeg gn uP ltP sP Hx Hx' Hd Ex; have El := pss_new_l new; have pr := dom_prim_inv Edom.
rewrite -El in Hd; have sx p : (p < p_n pp)%N -> size (x p) = (2 ^ b)%N by case: Hx => H _; apply: H.
have sx' p : (p < p_n pp)%N -> size (x' p) = (2 ^ b)%N by case: Hx' => H _; apply: H.
pose s := d_size_inv dom; have Sx := vsharing_scale s Hx; have Sx' := vsharing_scale s Hx'.
have [y [Ey Hy]] := fft1_vsharing El pr Sx; have [y' [Ey' Hy']] := fft1_vsharing El pr Sx'.
have V := @fft_view F dbg lam b pp cF mb new cok mb8 P gn uP ltP sP rearrange g (d_gen_inv dom) r y y' _ _ deg
  (fun ord p mask => d_ifft dbg pp (p_n pp) p ord cF (x p) mask rearrange dom g r)
  (fun ord p mask => d_ifft dbg pp (p_n pp) p ord cF (x' p) mask rearrange dom g r) pr Hdeg Hy Hy'; apply: V.
- apply: (fft1_diff (x := fun p => [seq u * s | u <- x p]) (x' := fun p => [seq u * s | u <- x' p]) new pr _ _ Ey Ey').
  + by move=> p lt_p; rewrite size_map sx.
  + by move=> p lt_p; rewrite size_map sx'.
  apply: vsharing_ext (vsharing_scale s Hd) => [p lt_p|e j _ _]; last by rewrite mulrBl.
  have s1 : size (zipmap (fun u v : Fm F => u - v) (x p) (x' p)) = (2 ^ b)%N by rewrite size_zipmap sx // sx' // minnn.
  apply: (@eq_from_nth _ 0); first by rewrite size_zipmap size_map s1 !size_map sx // sx' // minnn.
  rewrite size_map s1 => i lt_i; rewrite [LHS](nth_map 0) ?s1 // [RHS](nth_zipmap _ 0 0) ?size_map ?sx ?sx' //.
  by rewrite (nth_zipmap _ 0 0) ?sx ?sx' // !(nth_map 0) ?sx ?sx' // mulrBl.
- move=> p p_P; have lt_p := allP ltP _ p_P.
  by apply: Ok_inj; rewrite -Ey // -Ey' // Ex.
- by move=> ord p mask lt_p; rewrite /d_ifft (px_assert El Edom) ?sx // Ey.
by move=> ord p mask lt_p; rewrite /d_ifft (px_assert El Edom) ?sx' // Ey'.
Qed.

(** C61: the same for the multi-scalar multiplication.  What has to be a sharing of degree below [2l] is
    the difference of the parties' own inner products. *)
Lemma c61_d_msm (F : fftField) (T : lmodType F) dbg lam (pp : pss F) (gen : T) (cT : codec T) mb m
    bases bases' scalars scalars' sb sb' ss ss' (c : nat -> F) (P : seq nat) :
  pss_new F dbg (2 ^ lam) = Ok pp -> codec_ok cT mb -> ff_generator F ^+ p_n pp != 1 ->
  uniq P -> all (fun p => p < p_n pp)%N P -> (size P <= p_t pp)%N ->
  vsharing pp (2 * p_l pp) m bases sb -> vsharing (T := Fm F) pp (2 * p_l pp) m scalars ss ->
  vsharing pp (2 * p_l pp) m bases' sb' -> vsharing (T := Fm F) pp (2 * p_l pp) m scalars' ss' ->
  sharing pp (2 * p_l pp)
    (mkseq (fun p => \sum_(e < m) (scalars p)`_e *: (bases p)`_e - \sum_(e < m) (scalars' p)`_e *: (bases' p)`_e) (p_n pp))
    (mkseq (fun j => \sum_(e < m) ss e j *: sb e j - \sum_(e < m) ss' e j *: sb' e j) (p_l pp)) ->
  (forall p, p \in P -> bases p = bases' p /\ scalars p = scalars' p) ->
  (forall j, \sum_(e < m) ss e j *: sb e j - \sum_(e < m) ss' e j *: sb' e j = c j *: gen) ->
  exists (dv : rng F) (dr : rng T), forall values r, exists masks masks' out out',
    let x0 := msm_mask_zero T in
    [/\ msm_mask_sample dbg pp gen values r = Ok masks,
        msm_mask_sample dbg pp gen (fun i => values i + dv i) (fun i => r i + dr i) = Ok masks',
        yields (p_n pp) true (fun ords p => clogk (d_msm dbg pp (p_n pp) p (ords 0%N) cT (bases p)
          (scalars p) (nth x0 masks p)) [::]) out,
        yields (p_n pp) true (fun ords p => clogk (d_msm dbg pp (p_n pp) p (ords 0%N) cT (bases' p)
          (scalars' p) (nth x0 masks' p)) [::]) out' &
        forall p, p \in P -> nth x0 masks' p = nth x0 masks p /\ out' p = out p].
Proof.
move=> new cok gn uP ltP sP Hb Hs Hb' Hs' /sharingP Hd Ex Ec; have ok := pss_new_ok new.
have {}Hd := shared_ext (fun _ _ => erefl) (fun j _ => Ec j) Hd.
have [p p_P|dv [dr H]] := follow_mmask new gn uP ltP sP Hd.
  by have [-> ->] := Ex p p_P; rewrite subrr.
exists dv, dr => values r; have [Ei Em Ev] := H values r.
have [E _] := msm_sample_dealing ok dbg gen values r.
have [E' _] := msm_sample_dealing ok dbg gen (fun i => values i + dv i) (fun i => r i + dr i).
do 4!eexists; split; [exact: E|exact: E'|exact: (d_msm_run dbg gen ok cok _ _ Hb Hs)|exact: (d_msm_run dbg gen ok cok _ _ Hb' Hs')|].
move=> p p_P; have lt_p := allP ltP _ p_P; cbv beta; rewrite !nth_mkseq // Em //; split=> //.
have -> : inner pp m sb' ss' + \sum_(j < p_l pp) (values j + dv j) *: gen =
   inner pp m sb ss + \sum_(j < p_l pp) values j *: gen.
  rewrite Ev; have -> : \sum_(j < p_l pp) c j *: gen = inner pp m sb ss - inner pp m sb' ss'.
    by rewrite /inner ![\sum_(e < m) _]exchange_big -sumrB; apply: eq_bigr => j _; rewrite -Ec.
  by rewrite addrCA [X in _ + X]addrC subrK addrC.
congr (_, _); apply: round_log_eq => [q qI|//]; have [_ lt_q] := andP qI; rewrite !nth_mkseq //; congr (enc _ _).
by rewrite Ei // addrCA [X in _ + X]addrC subrK addrC.
Qed.

(** C61: the condition on the difference is needed, for the degree reduction: when the king sees the same
    in two runs, in which it has the same share and the same mask, then the difference of the inputs is a
    sharing of degree below [2l], whatever the randomness of the masks.  So the messages tell products of
    sharings with different upper coefficients apart. *)
Lemma c61_deg_red_exact (F : fftField) (T : lmodType F) dbg lam (pp : pss F) (gen : T) (cT : codec T) mb m
    x x' (sec sec' : nat -> nat -> T) deg (r : rng T) :
  pss_new F dbg (2 ^ lam) = Ok pp -> codec_ok cT mb -> (0 < m < 256 ^ 8)%N ->
  (deg <= 4 * 2 ^ lam - 1)%N -> vsharing pp deg m x sec -> vsharing pp deg m x' sec' -> x 0%N = x' 0%N ->
  forall values r_in r_out values' r_in' r_out', exists masks masks' out out',
    let x0 := degred_mask_zero T 0 in
    [/\ degred_mask_sample dbg pp gen m values r_in r_out = Ok masks,
        degred_mask_sample dbg pp gen m values' r_in' r_out' = Ok masks',
        yields (p_n pp) true (fun ords p => clogk (deg_red dbg pp (p_n pp) p (ords 0%N) cT (x p)
          (nth x0 masks p) r) [::]) out,
        yields (p_n pp) true (fun ords p => clogk (deg_red dbg pp (p_n pp) p (ords 0%N) cT (x' p)
          (nth x0 masks' p) r) [::]) out' &
        nth x0 masks' 0 = nth x0 masks 0 -> out' 0%N = out 0%N ->
        vsharing pp (2 * 2 ^ lam) m (fun p => zipmap (fun a b => a - b) (x p) (x' p))
          (fun e j => sec e j - sec' e j)].
Proof.
move=> new cok Hm Hdeg Hx Hx' Ex v ri ro v' ri' ro'; have ok := pss_new_ok new.
rewrite -(pss_new_l new) in Hdeg *; have [m0 m8] := andP Hm; have n1 := n_gt1 ok; have l0 := pp_l_gt0 ok.
have [out [Y Eo]] := deg_red_run dbg gen ok cok r v ri ro Hm Hdeg Hx.
have [out' [Y' Eo']] := deg_red_run dbg gen ok cok r v' ri' ro' Hm Hdeg Hx'.
do 4!eexists; split; [exact: degred_sample_dealing|exact: degred_sample_dealing|exact: Y|exact: Y'|].
rewrite !nth_mkseq ?(ltnW n1) // => E0 /(congr1 snd); rewrite Eo Eo' => Es.
have [Ai _] := dmask_ok ok dbg gen m v ri ro; have [Ai' _] := dmask_ok ok dbg gen m v' ri' ro'.
have sx p : (p < p_n pp)%N -> size (x p) = m by case: Hx => H _; apply: H.
have sx' p : (p < p_n pp)%N -> size (x' p) = m by case: Hx' => H _; apply: H.
have si p : (p < p_n pp)%N -> size (dr_in (dmask pp dbg gen m v ri ro p)) = m by case: Ai => H _; apply: H.
have si' p : (p < p_n pp)%N -> size (dr_in (dmask pp dbg gen m v' ri' ro' p)) = m by case: Ai' => H _; apply: H.
have Ep p : (p < p_n pp)%N -> zipmap +%R (x' p) (dr_in (dmask pp dbg gen m v' ri' ro' p)) =
    zipmap +%R (x p) (dr_in (dmask pp dbg gen m v ri ro p)).
  case: (posnP p) => [->|p0] lt_p; first by rewrite Ex E0.
  have /store_inj/(_ _) := Es; move/(_ p); rewrite p0 lt_p => /(_ isT); rewrite !nth_mkseq //.
  by apply: (enc_vec_inj cok m8); rewrite size_zipmap ?sx ?sx' ?si ?si' // minnn.
by apply: (diff_secrets ok _ Hdeg Hx Hx' (masked_eq sx sx' Ai Ai' Ep)); lia.
Qed.

(** C61: the same for the multi-scalar multiplication: the difference of the parties' own inner products
    is a sharing of degree below [2l] when the king sees the same. *)
Lemma c61_d_msm_exact (F : fftField) (T : lmodType F) dbg lam (pp : pss F) (gen : T) (cT : codec T) mb m
    bases bases' scalars scalars' sb sb' ss ss' :
  pss_new F dbg (2 ^ lam) = Ok pp -> codec_ok cT mb ->
  vsharing pp (2 * p_l pp) m bases sb -> vsharing (T := Fm F) pp (2 * p_l pp) m scalars ss ->
  vsharing pp (2 * p_l pp) m bases' sb' -> vsharing (T := Fm F) pp (2 * p_l pp) m scalars' ss' ->
  bases 0%N = bases' 0%N -> scalars 0%N = scalars' 0%N ->
  forall values r values' r', exists masks masks' out out',
    let x0 := msm_mask_zero T in
    [/\ msm_mask_sample dbg pp gen values r = Ok masks,
        msm_mask_sample dbg pp gen values' r' = Ok masks',
        yields (p_n pp) true (fun ords p => clogk (d_msm dbg pp (p_n pp) p (ords 0%N) cT (bases p)
          (scalars p) (nth x0 masks p)) [::]) out,
        yields (p_n pp) true (fun ords p => clogk (d_msm dbg pp (p_n pp) p (ords 0%N) cT (bases' p)
          (scalars' p) (nth x0 masks' p)) [::]) out' &
        nth x0 masks' 0 = nth x0 masks 0 -> out' 0%N = out 0%N ->
        sharing pp (2 * p_l pp)
          (mkseq (fun p => \sum_(e < m) (scalars p)`_e *: (bases p)`_e
                           - \sum_(e < m) (scalars' p)`_e *: (bases' p)`_e) (p_n pp))
          (mkseq (fun j => \sum_(e < m) ss e j *: sb e j - \sum_(e < m) ss' e j *: sb' e j) (p_l pp))].
Proof.
move=> new cok Hb Hs Hb' Hs' Eb Es v r v' r'; have ok := pss_new_ok new.
have n1 := n_gt1 ok; have l0 := pp_l_gt0 ok.
have [E [A _]] := msm_sample_dealing ok dbg gen v r; have [E' [A' _]] := msm_sample_dealing ok dbg gen v' r'.
do 4!eexists; split; [exact: E|exact: E'|exact: (d_msm_run dbg gen ok cok _ _ Hb Hs)|exact: (d_msm_run dbg gen ok cok _ _ Hb' Hs')|].
rewrite !nth_mkseq ?(ltnW n1) // => E0 /(congr1 snd) /= Q.
pose w p := \sum_(e < m) (scalars p)`_e *: (bases p)`_e; pose w' p := \sum_(e < m) (scalars' p)`_e *: (bases' p)`_e.
have dk a : ModelNet.decode cT (enc cT a) = Ok a.
  by have [_ H _] := cok; rewrite /ModelNet.decode -[enc cT a]cats0 H.
have Ep p : (p < p_n pp)%N -> w' p + mm_in (mmask pp dbg gen v' r' p) = w p + mm_in (mmask pp dbg gen v r p).
  case: (posnP p) => [->|p0] lt_p; first by rewrite /w /w' Eb Es E0.
  have := store_inj (p := p) Q; rewrite p0 lt_p => /(_ isT); rewrite !nth_mkseq // => Ee.
  by apply: Ok_inj; rewrite -!dk Ee.
have Hd : shared pp (2 * p_l pp) (fun p => w p - w' p) (fun j => v' j *: gen - v j *: gen).
  apply: shared_ext (shared_lin (-1) A A') => i lt_i; last by rewrite scaleN1r addrC.
  rewrite scaleN1r addrC; have Q1 := Ep i lt_i.
  by apply/eqP; rewrite subr_eq addrAC -Q1 addrAC subrr add0r.
have P1 (bs : nat -> seq T) sbs (sc : nat -> seq F) scs : vsharing pp (2 * p_l pp) m bs sbs ->
    vsharing (T := Fm F) pp (2 * p_l pp) m sc scs ->
    shared pp (4 * p_l pp - 1) (fun p => \sum_(e < m) (sc p)`_e *: (bs p)`_e) (fun j => \sum_(e < m) scs e j *: sbs e j).
  move=> /vsharingP[_ K1] /vsharingP[_ K2].
  have := @shared_sum _ _ pp (4 * p_l pp - 1) m (fun=> 1) (fun e p => (sc p)`_e *: (bs p)`_e) (fun e j => scs e j *: sbs e j).
  have Hm e : (e < m)%N -> shared pp (4 * p_l pp - 1) (fun p => (sc p)`_e *: (bs p)`_e) (fun j => scs e j *: sbs e j).
    move=> lt_e; have -> : (4 * p_l pp - 1 = (2 * p_l pp + 2 * p_l pp).-1)%N by lia.
    by apply: shared_mul (K2 e lt_e) (K1 e lt_e); lia.
  by move/(_ Hm); apply: shared_ext => i lt_i; apply: eq_bigr => e _; rewrite scale1r.
apply/sharingP; apply: shared_ext (Hd) => // j lt_j.
have W := shared_lin (-1) (P1 _ _ _ _ Hb' Hs') (P1 _ _ _ _ Hb Hs).
have {}W : shared pp (4 * p_l pp - 1) (fun p => w p - w' p)
    (fun j => \sum_(e < m) ss e j *: sb e j - \sum_(e < m) ss' e j *: sb' e j).
  by apply: shared_ext W => i lt_i; rewrite scaleN1r addrC.
by apply: (shared_uniq ok _ _ Hd W); lia.
Qed.

(** C61: and for the transforms, where the last one of [libsnark_h] gets a product of sharings. *)
Lemma c61_d_fft_exact (F : fftField) dbg lam b (pp : pss F) dom (cF : codec F) mb rearrange x x'
    (sec sec' : nat -> nat -> F) deg (r : rng F) :
  pss_new F dbg (2 ^ lam) = Ok pp -> domain_new F (2 ^ (b + lam)) = Some dom ->
  codec_ok cF mb -> (2 ^ b < 256 ^ 8)%N -> (deg <= 4 * 2 ^ lam - 1)%N ->
  vsharing (T := Fm F) pp deg (2 ^ b) x sec -> vsharing (T := Fm F) pp deg (2 ^ b) x' sec' -> x 0%N = x' 0%N ->
  forall values r_in r_out values' r_in' r_out', exists masks masks' out out',
    [/\ fft_mask_sample dbg pp rearrange 1 (d_gen dom) (2 ^ (b + lam)) values r_in r_out = Ok masks,
        fft_mask_sample dbg pp rearrange 1 (d_gen dom) (2 ^ (b + lam)) values' r_in' r_out' = Ok masks',
        yields (p_n pp) true (fun ords p => clogk (d_fft dbg pp (p_n pp) p (ords 0%N) cF (x p) (nth (no_mask F) masks p) rearrange dom r) [::]) out,
        yields (p_n pp) true (fun ords p => clogk (d_fft dbg pp (p_n pp) p (ords 0%N) cF (x' p) (nth (no_mask F) masks' p) rearrange dom r) [::]) out' &
        nth (no_mask F) masks' 0 = nth (no_mask F) masks 0 -> out' 0%N = out 0%N ->
        vsharing (T := Fm F) pp (2 * 2 ^ lam) (2 ^ b) (fun p => zipmap (fun a b => a - b) (x p) (x' p))
          (fun e j => sec e j - sec' e j)].
Proof.
move=> new Edom cok mb8 Hdeg Hx Hx' Ex v ri ro v' ri' ro'; have El := pss_new_l new; have pr := dom_prim Edom.
have ok := pss_new_ok new; have l0 := pp_l_gt0 ok; have n1 := n_gt1 ok.
have sx p : (p < p_n pp)%N -> size (x p) = (2 ^ b)%N by case: Hx => H _; apply: H.
have sx' p : (p < p_n pp)%N -> size (x' p) = (2 ^ b)%N by case: Hx' => H _; apply: H.
have [y [Ey Hy]] := fft1_vsharing El pr Hx; have [y' [Ey' Hy']] := fft1_vsharing El pr Hx'.
have Ey0 : y 0%N = y' 0%N by apply: Ok_inj; rewrite -Ey ?(ltnW n1) // -Ey' ?(ltnW n1) // Ex.
have V := @fft_exact F dbg lam b pp cF mb new cok mb8 rearrange 1 (d_gen dom) r y y' _ _ deg
  (fun ord p mask => d_fft dbg pp (p_n pp) p ord cF (x p) mask rearrange dom r)
  (fun ord p mask => d_fft dbg pp (p_n pp) p ord cF (x' p) mask rearrange dom r) pr Hdeg Hy Hy' Ey0.
have [||ms [ms' [o [o' [S S' Y Y' H]]]]] := V _ _ v ri ro v' ri' ro'.
- by move=> ord p mask lt_p; rewrite /d_fft (px_assert El Edom) ?sx // Ey.
- by move=> ord p mask lt_p; rewrite /d_fft (px_assert El Edom) ?sx' // Ey'.
exists ms, ms', o, o'; split=> // E0 Eo; have [s Hs] := H E0 Eo.
have [s' Hs'] := fft1_undo new mb8 pr sx sx' Ey Ey' Hs; rewrite -El in Hdeg *.
by apply: (diff_secrets ok _ Hdeg Hx Hx' Hs'); lia.
Qed.

(** C61: the same for the inverse transform. *)
Lemma c61_d_ifft_exact (F : fftField) dbg lam b (pp : pss F) dom (cF : codec F) mb rearrange g x x'
    (sec sec' : nat -> nat -> F) deg (r : rng F) :
  pss_new F dbg (2 ^ lam) = Ok pp -> domain_new F (2 ^ (b + lam)) = Some dom ->
  codec_ok cF mb -> (2 ^ b < 256 ^ 8)%N -> (deg <= 4 * 2 ^ lam - 1)%N ->
  vsharing (T := Fm F) pp deg (2 ^ b) x sec -> vsharing (T := Fm F) pp deg (2 ^ b) x' sec' -> x 0%N = x' 0%N ->
  forall values r_in r_out values' r_in' r_out', exists masks masks' out out',
    [/\ fft_mask_sample dbg pp rearrange g (d_gen_inv dom) (2 ^ (b + lam)) values r_in r_out = Ok masks,
        fft_mask_sample dbg pp rearrange g (d_gen_inv dom) (2 ^ (b + lam)) values' r_in' r_out' = Ok masks',
        yields (p_n pp) true (fun ords p => clogk (d_ifft dbg pp (p_n pp) p (ords 0%N) cF (x p) (nth (no_mask F) masks p) rearrange dom g r) [::]) out,
        yields (p_n pp) true (fun ords p => clogk (d_ifft dbg pp (p_n pp) p (ords 0%N) cF (x' p) (nth (no_mask F) masks' p) rearrange dom g r) [::]) out' &
        nth (no_mask F) masks' 0 = nth (no_mask F) masks 0 -> out' 0%N = out 0%N ->
        vsharing (T := Fm F) pp (2 * 2 ^ lam) (2 ^ b) (fun p => zipmap (fun a b => a - b) (x p) (x' p))
          (fun e j => sec e j - sec' e j)].
Proof.
move=> new Edom cok mb8 Hdeg Hx Hx' Ex v ri ro v' ri' ro'; have El := pss_new_l new; have pr := dom_prim_inv Edom.
have ok := pss_new_ok new; have l0 := pp_l_gt0 ok; have n1 := n_gt1 ok.
have sx p : (p < p_n pp)%N -> size (x p) = (2 ^ b)%N by case: Hx => H _; apply: H.
have sx' p : (p < p_n pp)%N -> size (x' p) = (2 ^ b)%N by case: Hx' => H _; apply: H.
pose s := d_size_inv dom; have Sx := vsharing_scale s Hx; have Sx' := vsharing_scale s Hx'.
have [y [Ey Hy]] := fft1_vsharing El pr Sx; have [y' [Ey' Hy']] := fft1_vsharing El pr Sx'.
have Ey0 : y 0%N = y' 0%N by apply: Ok_inj; rewrite -Ey ?(ltnW n1) // -Ey' ?(ltnW n1) // Ex.
have V := @fft_exact F dbg lam b pp cF mb new cok mb8 rearrange g (d_gen_inv dom) r y y' _ _ deg
  (fun ord p mask => d_ifft dbg pp (p_n pp) p ord cF (x p) mask rearrange dom g r)
  (fun ord p mask => d_ifft dbg pp (p_n pp) p ord cF (x' p) mask rearrange dom g r) pr Hdeg Hy Hy' Ey0.
have [||ms [ms' [o [o' [S S' Y Y' H]]]]] := V _ _ v ri ro v' ri' ro'.
- by move=> ord p mask lt_p; rewrite /d_ifft (px_assert El Edom) ?sx // Ey.
- by move=> ord p mask lt_p; rewrite /d_ifft (px_assert El Edom) ?sx' // Ey'.
exists ms, ms', o, o'; split=> // E0 Eo; have [s1 Hs] := H E0 Eo.
have s_sx p : (p < p_n pp)%N -> size [seq u * s | u <- x p] = (2 ^ b)%N by move=> /sx; rewrite size_map.
have s_sx' p : (p < p_n pp)%N -> size [seq u * s | u <- x' p] = (2 ^ b)%N by move=> /sx'; rewrite size_map.
have [s' Hs'] := fft1_undo (x := fun p => [seq u * s | u <- x p]) (x' := fun p => [seq u * s | u <- x' p]) new mb8 pr s_sx s_sx' Ey Ey' Hs.
have [dok _ _ _] := domain_new_ok Edom; have s0 : s != 0 by rewrite /s (dok_size_inv dok) invr_eq0 (dok_size dok).
rewrite -El in Hdeg *.
apply: (diff_secrets (s := fun e j => s' e j * s^-1) ok _ Hdeg Hx Hx'); first by lia.
apply: vsharing_ext (vsharing_scale s^-1 Hs') => // p lt_p.
have z1 : size (zipmap (fun u v : Fm F => u - v) [seq u * s | u <- x p] [seq u * s | u <- x' p]) = (2 ^ b)%N.
  by rewrite size_zipmap s_sx // s_sx' // minnn.
apply: (@eq_from_nth _ 0); first by rewrite size_map z1 size_zipmap sx // sx' // minnn.
rewrite size_map z1 => i lt_i; rewrite (nth_map 0) ?z1 // !(nth_zipmap _ 0 0) ?size_map ?sx ?sx' //.
by rewrite !(nth_map 0) ?sx ?sx' // -mulrBl mulfK.
Qed.
