(** Proofs about the transforms of vectors that need not be sharings. *)
From mathcomp Require Import all_ssreflect all_algebra.
From mathcomp Require Import zify.
From Verif Require Import RingTac Base ModelField ModelUtils ModelPss ModelPack ModelFft ModelNet.
From Verif Require Import ModelProto Spec SpecNet SpecTamper NetProofs KingProofs RoundProofs LogProofs.
From Verif Require Import FieldProofs UtilsProofs PssProofs PackProofs FftProofs ProtoProofs DegProofs.
From Verif Require Import KingFail TamperProofs.
Set Implicit Arguments.
Unset Strict Implicit.
Unset Printing Implicit Defensive.
Import GRing.Theory.
Local Open Scope ring_scope.

Lemma foldM_panic S I (f : S -> I -> res S) (s : S) (js : seq I) k i0 :
  (forall s k, (k < size js)%N -> forall e, f s (nth i0 js k) <> Err e) ->
  (k < size js)%N -> (forall s, f s (nth i0 js k) = Panic) -> foldM f s js = Panic.
Proof.
elim: js s k => [|j js IH] s k //= nE; case: k => [|k] lt_k H; first by rewrite H.
case E: (f s j) => [s'|e|] //=; last by case: (nE s 0%N isT e).
by apply: (IH s' k) => // t k' lt_k'; apply: (nE t k'.+1).
Qed.

Lemma foldM_nerr S I (f : S -> I -> res S) (s : S) (js : seq I) e :
  (forall s i e, f s i <> Err e) -> foldM f s js <> Err e.
Proof.
move=> nE; elim: js s => [|j js IH] s //=.
case E: (f s j) => [s'|e'|] //=; by case: (nE s j e').
Qed.

Lemma vset_nerr B (s : seq B) i x e : vset s i x <> Err e.
Proof. by rewrite /vset; case: ifP. Qed.

Section Transform.
Variable F : fftField.
Variables (pp : pss F) (ok : pp_ok pp) (lam b : nat).
Hypothesis El : p_l pp = (2 ^ lam)%N.
Local Notation l := (p_l pp).
Local Notation n := (p_n pp).
Local Notation m := (2 ^ b)%N.
Local Notation k := (b + lam)%N.
Local Notation Fm := [lmodType F of F^o].

Definition transformed (g gen : F) (x : nat -> seq F) : seq F :=
  mkseq (fun q => g ^+ q * kfft lam b gen (fun i =>
     interpolated (T := Fm) pp (entry (T := Fm) x (i %/ l)%N) (i %% l)%N) q) (2 ^ k).

Lemma fft2_king_any dbg rearrange g gen r d ord (x : nat -> seq F) :
  hash_ok ord -> (2 ^ k)%N.-primitive_root gen -> (n <= d)%N ->
  (forall p, (p < n)%N -> size (x p) = m) ->
  fft2_king dbg pp m m rearrange g gen r (received_from x n d ord) =
  if dbg && unbalanced (T := Fm) pp x m then Panic
  else share_out dbg pp rearrange (transformed g gen x) r.
Proof.
move=> Ho pr nd sx; have m0 : (0 < m)%N by rewrite expn_gt0.
have Em : (m * l = 2 ^ k)%N by rewrite El expnD.
rewrite /fft2_king (transpose_who (T := Fm) ok d Ho m0 sx) [rbind (Ok _) _]/= parties_who.
pose cols e : seq F := [seq (x i)`_e | i <- who pp d ord]; rewrite -[mkseq _ _]/(mkseq cols m).
have Hu e := unpack_missing_any (T := Fm) ok dbg (entry (T := Fm) x e) ord nd.
case: ifP => [/andP[dbgT /hasP[e]]|H].
  rewrite mem_iota add0n => /= le ne.
  have sz : size (zip (iota 0 m) (mkseq cols m)) = m by rewrite size_zip size_iota size_mkseq minnn.
  have nz i : (i < m)%N -> nth (0%N, [::]) (zip (iota 0 m) (mkseq cols m)) i = (i, cols i).
    by move=> li; rewrite nth_zip ?size_iota ?size_mkseq // nth_iota // add0n nth_mkseq.
  rewrite (@foldM_panic _ _ _ _ _ e (0%N, [::])) ?sz //.
    move=> s i li er; rewrite nz // Hu; case: ifP => // _; rewrite [rbind (Ok _) _]/=.
    apply: foldM_nerr => s' j er'; case: (vget _ j) (@vget_nerr _ (mkseq (interpolated (T := Fm) pp (entry (T := Fm) x i)) l) j) => [a|er''|] //=.
      by move=> _; apply: vset_nerr.
    by move/(_ er'').
  by move=> s; rewrite nz // Hu dbgT ne.
rewrite (@fill_blocks _ _ ok _ El cols (fun c => unpack_missing_shares dbg pp (c : seq F^o) (who pp d ord))
   (fun e => interpolated (T := Fm) pp (entry (T := Fm) x e))); last first.
  move=> e le; rewrite Hu; case: ifP => // /andP[dbgT ne].
  by case/negP: H; rewrite dbgT; apply/hasP; exists e; rewrite ?mem_iota.
rewrite [rbind (Ok _) _]/= (fft2_kfft (b := b) El) ?size_mkseq // [rbind (Ok _) _]/= shiftE size_mkseq.
congr share_out; apply: eq_mkseq_in => q lt_q; rewrite nth_mkseq //; congr (_ * _).
by apply: (eq_kfft El) => // i lt_i; rewrite nth_mkseq // Em.
Qed.

Variables (cF : codec F) (mb : nat).
Hypotheses (cF_ok : codec_ok cF mb) (m_small : (m < 256 ^ 8)%N).

Lemma transformed_masked g gen (x y : nat -> seq F) v q :
  (forall p, (p < n)%N -> size (x p) = m) -> (q < 2 ^ k)%N ->
  vsharing (T := Fm) pp (2 * l) m y (fun e j => v (e * l + j)%N) ->
  (transformed g gen (fun p => zipmap +%R (x p) (y p)))`_q =
  (transformed g gen x)`_q + g ^+ q * kfft lam b gen v q.
Proof.
move=> sx lq Hy; have [_ _ Ei] := masked (T := Fm) ok sx Hy; have l0 := pp_l_gt0 ok.
rewrite !nth_mkseq // -mulrDr -kfftD; congr (_ * _); apply: (eq_kfft El) => // i li.
have lj : (i %% l < l)%N by rewrite ltn_pmod.
have le : (i %/ l < m)%N by rewrite ltn_divLR // El -expnD.
by rewrite Ei // -divn_eq.
Qed.

Lemma fft2_any dbg rearrange g gen (masks : nat -> fft_mask F) (x : nat -> seq F) r :
  (2 ^ k)%N.-primitive_root gen -> masks_ok pp lam b rearrange g gen masks ->
  (forall p, (p < n)%N -> size (x p) = m) -> ~~ (dbg && unbalanced (T := Fm) pp x m) ->
  exists out : nat -> seq F,
    vsharing (T := Fm) pp (2 * l) m out (slots (T := Fm) pp rearrange b k (transformed g gen x)) /\
    forall ord, hash_ok ord -> king_prog n (fun d => (d != 0%N) && (n <= d)%N)
      (fun p => fft2_with_rearrange dbg pp n p ord cF (x p) (masks p) rearrange g gen r) out.
Proof.
move=> pr [v [Hin Hout]] sx bal; have l0 := pp_l_gt0 ok; have En := ppn ok; have n1 := n_gt1 ok.
have [sz Eu _] := masked (T := Fm) ok sx Hin.
set z := fun p => zipmap +%R (x p) (fm_in (masks p)) in sz Eu.
have st : size (transformed g gen z) = (2 ^ k)%N by rewrite size_mkseq.
have [dealt [Ed Hd]] := share_out_deal ok El dbg rearrange r st.
exists (fun p => zipmap +%R (dealt p) (fm_out (masks p))); split.
  apply: vsharing_ext (vsharing_add Hd Hout) => // e j lt_e lt_j.
  rewrite !(slots_ix pp lam b); have lt_q := slot_ix_lt El rearrange lt_e lt_j.
  by rewrite (transformed_masked g gen sx lt_q Hin) [X in _ + X]nth_mkseq // addrK.
move=> ord Ho.
have sd p : (p < n)%N -> size (dealt p) = m by case: Hd => H _ /H.
have Hdec (s : seq F) : size s = m -> ModelNet.decode (vec_codec cF) (enc (vec_codec cF) s) = Ok s.
  by move=> ss; apply: (decode_vec cF_ok); rewrite ss.
have K : king_prog n (fun d => (d != 0%N) && (n <= d)%N) (fun p =>
    do! rs := csokr_ser (vec_codec cF) n p ord (z p) (p_t pp) in
    do! outs := clift (if rs is Some q then rmap Some (fft2_king dbg pp m m rearrange g gen r q) else Ok None) in
    do! w := crokss_ser (vec_codec cF) n p outs in
    clift (Ok (zipmap +%R w (fm_out (masks p)))))
  (fun p => zipmap +%R (dealt p) (fm_out (masks p))).
  apply: (@king_round _ _ _ _ _ _ _ _ _ _ dealt) => //.
  - by lia.
  - by move=> d /andP[].
  - by rewrite (ppt ok); lia.
  - by move=> i lt_i; apply/Hdec/sz.
  - by move=> i lt_i; apply/Hdec/sd.
  - by move=> i lt_i; rewrite !(size_enc_vec cF_ok) !sd //; lia.
  - by move=> d /andP[_ nd]; rewrite fft2_king_any // Eu (negPf bal).
  - exact: KP_ret.
apply: king_prog_ext K => // [|p lt_p]; first by lia.
by rewrite /fft2_with_rearrange sx // -/(z p) sz.
Qed.

Lemma fft2_caught rearrange g gen (masks : nat -> fft_mask F) (x : nat -> seq F) r sid ord :
  (2 ^ k)%N.-primitive_root gen -> masks_ok pp lam b rearrange g gen masks ->
  (forall p, (p < n)%N -> size (x p) = m) -> unbalanced (T := Fm) pp x m -> hash_ok ord ->
  king_dies (mkseq (fun p => pthread sid
    (fft2_with_rearrange true pp n p ord cF (x p) (masks p) rearrange g gen r)) n).
Proof.
move=> pr [v [Hin Hout]] sx bal Ho; have l0 := pp_l_gt0 ok; have En := ppn ok; have n1 := n_gt1 ok.
have [sz Eu _] := masked (T := Fm) ok sx Hin.
set z := fun p => zipmap +%R (x p) (fm_in (masks p)) in sz Eu.
have Ek : fft2_king true pp m m rearrange g gen r (received_from z n n ord) = Panic.
  by rewrite fft2_king_any // Eu bal.
have E : mkseq (fun p => pthread sid
    (fft2_with_rearrange true pp n p ord cF (x p) (masks p) rearrange g gen r)) n =
  mkseq (fun p => pthread sid
    (do! rs := csokr_ser (vec_codec cF) n p ord (z p) (p_t pp) in
     do! outs := clift (king_map (fft2_king true pp m m rearrange g gen r) rs) in
     do! w := crokss_ser (vec_codec cF) n p outs in
     clift (Ok (zipmap +%R w (fm_out (masks p)))))) n.
  by apply: eq_mkseq_in => p lp; rewrite /fft2_with_rearrange sx // -/(z p) sz.
rewrite E; apply: (@round_panics _ _ _ (vec_codec cF) (vec_codec cF) n sid ord z (p_t pp) _
  (fun p w => clift (Ok (zipmap +%R w (fm_out (masks p)))))) => //.
- by lia.
- by rewrite (ppt ok); lia.
by move=> i lt_i; apply: (decode_vec cF_ok); rewrite sz.
Qed.

(** ** The parties' stage *)

Lemma bsum_inj gen (t : nat -> F) : (2 ^ k)%N.-primitive_root gen ->
  (forall e, (e < m)%N -> bsum gen (2 ^ lam) b e t = 0) -> forall i, (i < m)%N -> t i = 0.
Proof.
move=> pr H i li; have l0 := pp_l_gt0 ok; have m0 : (0 < m)%N by rewrite expn_gt0.
pose c : seq F := mkseq (fun q => t (bitrev k q %% m)%N) (2 ^ k).
have sc : size c = (2 ^ k)%N by rewrite size_mkseq.
have Es e j : (e < m)%N -> (j < l)%N -> strides (T := Fm) b k c e j = t e.
  move=> le lj; rewrite /strides nth_mkseq ?bitrev_lt // bitrevK; last first.
    by rewrite expnD -El; move: le lj; generalize m l => u w; nia.
  by rewrite addnC modnMDl modn_small.
have Ev q : (q < 2 ^ k)%N -> pval (gen ^+ q) (c : seq F^o) = 0.
  move=> lq; rewrite -(kfft_eval ok El m_small pr sc lq).
  transitivity (kfft lam b gen (fun=> 0) q); last by rewrite /kfft /bsum big1 // => ? _; rewrite mulr0.
  apply: (eq_kfft El) => // ix lix.
  have le : (ix %/ l < m)%N by rewrite ltn_divLR // El -expnD.
  have lj : (ix %% l < l)%N by rewrite ltn_pmod.
  by rewrite (@eq_bsum _ _ _ _ _ _ t) ?H // => e le'; rewrite Es.
have N0 : (0 < 2 ^ k)%N by rewrite expn_gt0.
have g0 : gen != 0.
  by apply/eqP => g0; have := prim_expr_order pr; rewrite g0 expr0n; case: (2 ^ k)%N N0 => //= ? _ /eqP; rewrite eq_sym oner_eq0.
pose xs := mkseq (fun q => gen ^+ q) (2 ^ k).
have E : c = nseq (2 ^ k) 0.
  apply: (@pval_inj _ Fm xs); rewrite ?size_mkseq ?size_nseq //.
  - rewrite map_inj_in_uniq ?iota_uniq // => u w; rewrite !mem_iota !add0n /= => lu lw /eqP.
    by rewrite (eq_prim_root_expr pr) !modn_small // => /eqP.
  - by apply/mapP => -[q _ /esym/eqP]; rewrite expf_eq0 (negPf g0) andbF.
  - by move=> _ /mapP[q + ->]; rewrite mem_iota add0n => /= lq; rewrite Ev // pval_nseq0.
have := congr1 (nth 0 ^~ (bitrev k i)) E; rewrite nth_nseq bitrev_lt nth_mkseq ?bitrev_lt // bitrevK.
  by rewrite modn_small.
rewrite expnD -El; move: li; generalize m l l0 => u w; nia.
Qed.

Lemma fft1_any gen (x : nat -> seq F) : (2 ^ k)%N.-primitive_root gen ->
  (forall p, (p < n)%N -> size (x p) = m) ->
  exists y : nat -> seq F, [/\ forall p, (p < n)%N -> fft1 pp (x p) gen = Ok (y p),
    forall p, (p < n)%N -> size (y p) = m,
    unbalanced (T := Fm) pp y m = unbalanced (T := Fm) pp x m &
    forall e j, (e < m)%N -> (j < l)%N -> interpolated (T := Fm) pp (entry (T := Fm) y e) j =
      bsum gen (2 ^ lam) b e (fun i => interpolated (T := Fm) pp (entry (T := Fm) x i) j)].
Proof.
move=> pr sx.
have Hx : vsharing (T := Fm) pp n m x (fun e => interpolated (T := Fm) pp (entry (T := Fm) x e)).
  by apply/vsharingP; split=> // e _; apply: (shared_any (T := Fm) ok).
have [y [Ey Hy]] := fft1_vsharing El pr Hx; have /vsharingP[sy Hy'] := Hy.
have Ee p e : (p < n)%N -> (e < m)%N -> (y p)`_e = bsum gen (2 ^ lam) b e (nth 0 (x p)).
  move=> lp le; have := Ey p lp; rewrite (fft1P El (sx p lp)) //; last first.
    by move=> K EK; apply: half_root; rewrite EK.
  by case=> <-; rewrite nth_mkseq.
have Ei e : (e < m)%N -> imbalance (T := Fm) pp (entry (T := Fm) y e) =
    bsum gen (2 ^ lam) b e (fun i => imbalance (T := Fm) pp (entry (T := Fm) x i)).
  move=> le; rewrite /imbalance /bsum.
  transitivity (\sum_(p < n) \sum_(i < 2 ^ b) gen ^+ (2 ^ lam * e.+1 * bitrev b i) * (share_pt pp p * (x p)`_i)).
    apply: eq_bigr => p _; rewrite /entry Ee // /bsum /GRing.scale /= mulr_sumr.
    by apply: eq_bigr => i _; rewrite mulrCA.
  by rewrite exchange_big; apply: eq_bigr => i _; rewrite mulr_sumr.
exists y; split=> // [|e j le lj].
  apply/idP/idP => [/hasP[e]|]; rewrite /unbalanced.
    rewrite mem_iota add0n => /= le; rewrite Ei //; apply: contraR => /hasPn H; apply/eqP.
    rewrite /bsum big1 // => i _; have /eqP -> : imbalance (T := Fm) pp (entry (T := Fm) x i) == 0.
      by have := H (val i); rewrite mem_iota add0n negbK /= => ->; rewrite ?ltn_ord.
    by rewrite mulr0.
  apply: contraTT => /hasPn H; apply/hasPn => i; rewrite mem_iota add0n => /= li; rewrite negbK.
  apply/eqP; apply: (@bsum_inj gen (fun i => imbalance (T := Fm) pp (entry (T := Fm) x i)) pr _ i li) => e le.
  rewrite -Ei //; apply/eqP.
  by have := H e; rewrite mem_iota add0n negbK; apply.
exact: (interpolated_shared (T := Fm) ok (leqnn _) (Hy' e le) lj).
Qed.

Variable dom : domain F.
Hypothesis Edom : domain_new F (2 ^ k) = Some dom.

Lemma strides_exist (f : nat -> nat -> F) : exists c : seq F, size c = (2 ^ k)%N /\
  forall e j, (e < m)%N -> (j < l)%N -> strides (T := Fm) b k c e j = f e j.
Proof.
exists (mkseq (fun q => f (bitrev k q %% m)%N (bitrev k q %/ m)%N) (2 ^ k)); split=> [|e j le lj].
  by rewrite size_mkseq.
have m0 : (0 < m)%N by rewrite expn_gt0.
rewrite /strides nth_mkseq ?bitrev_lt // bitrevK; last first.
  by rewrite expnD -El; move: le lj; generalize m l => u w; nia.
by rewrite addnC modnMDl modn_small // divnMDl // divn_small // addn0.
Qed.

Lemma d_fft_any dbg rearrange (masks : nat -> fft_mask F) (x : nat -> seq F) (c : seq F) r :
  masks_ok pp lam b rearrange 1 (d_gen dom) masks -> (forall p, (p < n)%N -> size (x p) = m) ->
  ~~ (dbg && unbalanced (T := Fm) pp x m) -> size c = (2 ^ k)%N ->
  (forall e j, (e < m)%N -> (j < l)%N ->
     strides (T := Fm) b k c e j = interpolated (T := Fm) pp (entry (T := Fm) x e) j) ->
  exists out : nat -> seq F,
    vsharing (T := Fm) pp (2 * l) m out
      (slots (T := Fm) pp rearrange b k (evals (T := Fm) 1 (d_gen dom) (2 ^ k) c)) /\
    forall ord, hash_ok ord -> king_prog n (fun d => (d != 0%N) && (n <= d)%N)
      (fun p => d_fft dbg pp n p ord cF (x p) (masks p) rearrange dom r) out.
Proof.
move=> Hm sx bal sc Ec; have pr := dom_prim Edom; have l0 := pp_l_gt0 ok.
have [y [Ey sy Uy Iy]] := fft1_any pr sx; rewrite -Uy in bal.
have [out [Ho Hp]] := fft2_any r pr Hm sy bal.
exists out; split.
  apply: vsharing_ext Ho => // e j lt_e lt_j; rewrite !(slots_ix pp lam b).
  have lq := slot_ix_lt El rearrange lt_e lt_j; rewrite !nth_mkseq // expr1n !mul1r.
  rewrite -(kfft_eval ok El m_small pr sc lq); apply: (eq_kfft El) => // i li.
  have lj : (i %% l < l)%N by rewrite ltn_pmod.
  have le : (i %/ l < m)%N by rewrite ltn_divLR // El -expnD.
  by rewrite Iy //; apply: eq_bsum => e' le'; rewrite Ec.
move=> ord Hord; apply: king_prog_ext (Hp ord Hord); first by have := n_gt1 ok; lia.
by move=> p lt_p; rewrite /d_fft (px_assert El Edom) ?sx // Ey.
Qed.

Lemma d_fft_caught rearrange (masks : nat -> fft_mask F) (x : nat -> seq F) r sid ord :
  masks_ok pp lam b rearrange 1 (d_gen dom) masks -> (forall p, (p < n)%N -> size (x p) = m) ->
  unbalanced (T := Fm) pp x m -> hash_ok ord ->
  king_dies (mkseq (fun p => pthread sid
    (d_fft true pp n p ord cF (x p) (masks p) rearrange dom r)) n).
Proof.
move=> Hm sx bal Ho; have pr := dom_prim Edom.
have [y [Ey sy Uy _]] := fft1_any pr sx; rewrite -Uy in bal.
have := fft2_caught r sid pr Hm sy bal Ho; congr (king_dies _).
by apply: eq_mkseq_in => p lp; rewrite /d_fft (px_assert El Edom) ?sx // Ey.
Qed.

(** scaling *)
Lemma scale_any (a : F) (x : nat -> seq F) : a != 0 -> (forall p, (p < n)%N -> size (x p) = m) ->
  let x' p := [seq u * a | u <- x p] in
  [/\ forall p, (p < n)%N -> size (x' p) = m,
      unbalanced (T := Fm) pp x' m = unbalanced (T := Fm) pp x m &
      forall e j, (e < m)%N -> (j < l)%N -> interpolated (T := Fm) pp (entry (T := Fm) x' e) j =
        interpolated (T := Fm) pp (entry (T := Fm) x e) j * a].
Proof.
move=> a0 sx x'; have sx' p : (p < n)%N -> size (x' p) = m by move=> lp; rewrite size_map sx.
have Ee e p : (e < m)%N -> (p < n)%N -> entry (T := Fm) x' e p = entry (T := Fm) x e p * a.
  by move=> le lp; rewrite /entry (nth_map 0) // sx.
split=> // [|e j le lj].
  apply: eq_in_has => e; rewrite mem_iota add0n => /= le.
  have -> : imbalance (T := Fm) pp (entry (T := Fm) x' e) = imbalance (T := Fm) pp (entry (T := Fm) x e) * a.
    rewrite /imbalance mulr_suml; apply: eq_bigr => p _; rewrite Ee //; exact: mulrA.
  by rewrite mulf_eq0 (negPf a0) orbF.
rewrite /interpolated mulr_suml; apply: eq_bigr => p _; rewrite Ee //; exact: mulrA.
Qed.

Lemma size_inv_neq0 : d_size_inv dom != 0.
Proof. by have [dok _ _] := dom_ok Edom; rewrite (dok_size_inv dok) invr_neq0 // (dok_size dok). Qed.

Lemma d_ifft_any dbg rearrange g (masks : nat -> fft_mask F) (x : nat -> seq F) (c : seq F) r :
  masks_ok pp lam b rearrange g (d_gen_inv dom) masks -> (forall p, (p < n)%N -> size (x p) = m) ->
  ~~ (dbg && unbalanced (T := Fm) pp x m) -> size c = (2 ^ k)%N ->
  (forall e j, (e < m)%N -> (j < l)%N ->
     strides (T := Fm) b k (evals (T := Fm) 1 (d_gen dom) (2 ^ k) c) e j
     = interpolated (T := Fm) pp (entry (T := Fm) x e) j) ->
  exists out : nat -> seq F,
    vsharing (T := Fm) pp (2 * l) m out
      (slots (T := Fm) pp rearrange b k (coset_coeffs (T := Fm) g c)) /\
    forall ord, hash_ok ord -> king_prog n (fun d => (d != 0%N) && (n <= d)%N)
      (fun p => d_ifft dbg pp n p ord cF (x p) (masks p) rearrange dom g r) out.
Proof.
move=> Hm sx bal sc Ec; have pr := dom_prim_inv Edom; have l0 := pp_l_gt0 ok.
have [sx' Ux' Ix'] := scale_any size_inv_neq0 sx.
have [y [Ey sy Uy Iy]] := fft1_any pr sx'; rewrite -Ux' -Uy in bal.
have [out [Ho Hp]] := fft2_any r pr Hm sy bal.
exists out; split.
  apply: vsharing_ext Ho => // e j lt_e lt_j.
  rewrite -(ifft_slots ok El m_small Edom rearrange g sc lt_e lt_j) !(slots_ix pp lam b).
  have lq := slot_ix_lt El rearrange lt_e lt_j; rewrite !nth_mkseq //; congr (_ * _).
  apply: (eq_kfft El) => // i li.
  have lj : (i %% l < l)%N by rewrite ltn_pmod.
  have le : (i %/ l < m)%N by rewrite ltn_divLR // El -expnD.
  by rewrite Iy //; apply: eq_bsum => e' le'; rewrite Ec // Ix'.
move=> ord Hord; apply: king_prog_ext (Hp ord Hord); first by have := n_gt1 ok; lia.
by move=> p lt_p; rewrite /d_ifft (px_assert El Edom) ?sx // Ey.
Qed.

Lemma d_ifft_caught rearrange g (masks : nat -> fft_mask F) (x : nat -> seq F) r sid ord :
  masks_ok pp lam b rearrange g (d_gen_inv dom) masks -> (forall p, (p < n)%N -> size (x p) = m) ->
  unbalanced (T := Fm) pp x m -> hash_ok ord ->
  king_dies (mkseq (fun p => pthread sid
    (d_ifft true pp n p ord cF (x p) (masks p) rearrange dom g r)) n).
Proof.
move=> Hm sx bal Ho; have pr := dom_prim_inv Edom.
have [sx' Ux' _] := scale_any size_inv_neq0 sx.
have [y [Ey sy Uy _]] := fft1_any pr sx'; rewrite -Ux' -Uy in bal.
have := fft2_caught r sid pr Hm sy bal Ho; congr (king_dies _).
by apply: eq_mkseq_in => p lp; rewrite /d_ifft (px_assert El Edom) ?sx // Ey.
Qed.

End Transform.
