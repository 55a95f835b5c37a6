(** The unit tests of the secret sharing, of Gao's decoder and of the multi-scalar multiplication. *)
From mathcomp Require Import all_ssreflect all_algebra.
From mathcomp Require Import zify.
From Verif Require Import RingTac Base ModelField ModelUtils ModelPss ModelGao ModelPack ModelFft ModelNet.
From Verif Require Import ModelProto ModelDemo ModelUnit.
From Verif Require Import Spec SpecNet SpecProto.
From Verif Require Import NetProofs KingProofs RoundProofs.
From Verif Require Import FieldProofs UtilsProofs PssProofs PackProofs FftProofs ProtoProofs DegProofs PpProofs GaoProofs.
From Verif Require Import ExtProofs PssThm UtilsThm GaoThm ProtoThm DemoThm.
Set Implicit Arguments.
Unset Strict Implicit.
Unset Printing Implicit Defensive.
Import GRing.Theory.
Local Open Scope ring_scope.
Local Notation Fm F := [lmodType F of F^o].

Lemma square_zipmap (F : fftField) (s : seq F) : zipmap (fun x y : F^o => x *: y) s s = [seq x * x | x <- s].
Proof. by rewrite /zipmap; elim: s => //= x s ->. Qed.

Lemma take_nth_iota A (x0 : A) k (s : seq A) : (k <= size s)%N -> take k s = [seq nth x0 s q | q <- iota 0 k].
Proof.
move=> le_k; apply: (@eq_from_nth _ x0); rewrite size_takel // ?size_map ?size_iota // => i lt_i.
by rewrite nth_take // (nth_map 0%N) ?size_iota // nth_iota // add0n.
Qed.

Lemma rassert_eq (A : eqType) (x y : A) : x = y -> rassert (x == y) = Ok tt.
Proof. by move=> ->; rewrite /rassert eqxx. Qed.

(*** theorems ***)

(** C71: [test_initialize] *)
Lemma c71_initialize (F : fftField) (dbg : bool) k : (k.+2 <= ff_two_adicity F)%N ->
  test_initialize F dbg (2 ^ k) = Ok tt.
Proof.
move=> le_k; have [pp [E [El Et En] [s1 s2 s3] _ _]] := c07_new dbg le_k.
rewrite !size_mkseq in s1 s2 s3; rewrite /test_initialize E; cbn [rbind].
have a1 : (4 * 2 ^ k == 2 ^ k * 4)%N by rewrite mulnC.
have a2 : (2 * 2 ^ k == 2 ^ k + 2 ^ k)%N by rewrite addnn mul2n.
have a3 : (4 * 2 ^ k == 2 * (2 ^ k + 2 ^ k))%N by rewrite addnn -mul2n mulnA.
by rewrite El Et En s1 s2 s3 /rassert !eqxx a1 a2 a3.
Qed.

(** C71: [test_packing] reconstructs from [n - t + 1 = 3l + 1] shares.  The debug assertion of
    [lagrange_unpack] wants more than [4l - 2], so the test only passes for [l <= 2] in debug builds. *)
Lemma c71_packing (F : fftField) (dbg : bool) k (secrets : seq F) (r : rng F) :
  (k.+2 <= ff_two_adicity F)%N -> size secrets = (2 ^ k)%N ->
  test_packing dbg (2 ^ k) secrets r = if dbg && (1 < k)%N then Panic else Ok tt.
Proof.
move=> le_k ss; have [pp [E [El Et En] _ _ _]] := c07_new dbg le_k.
have k0 : (0 < 2 ^ k)%N by rewrite expn_gt0.
have ok := pss_new_ok E; have ss' : size secrets = p_l pp by rewrite El.
have [sh [Esh sz H]] := pack_sharing (T := Fm F) ok dbg r ss'.
rewrite /test_packing E; cbn [rbind]; rewrite Esh; cbn [rbind]; have Hk : (p_n pp - p_t pp + 1 <= p_n pp)%N by lia.
rewrite /slice0 sz /rassert Hk; cbn [rbind].
rewrite (take_nth_iota 0) ?sz //.
case: (boolP (dbg && (1 < k)%N)) => [/andP[d k1]|Hd].
  suff -> : lagrange_unpack dbg pp [seq sh`_q | q <- iota 0 (p_n pp - p_t pp + 1)]
              (iota 0 (p_n pp - p_t pp + 1)) = Panic by [].
  have k4 : (4 <= 2 ^ k)%N by rewrite -[4%N]/(2 ^ 2)%N leq_exp2l.
  rewrite /lagrange_unpack d size_map size_iota eqxx /dassert /=.
  have -> : (0 < p_t pp + p_l pp)%N by lia.
  have -> : (2 * (p_t pp + p_l pp - 1) < p_n pp - p_t pp + 1)%N = false by lia.
  by [].
have u := iota_uniq 0 (p_n pp - p_t pp + 1).
rewrite (lagrange_unpack_sharing ok (dbg := dbg) H u); last 3 first.
- by apply/allP => q; rewrite mem_iota; lia.
- by rewrite size_iota; lia.
- rewrite size_iota; case: (dbg) Hd => //= Hk1 _.
  by case: (k) El Et En Hk1 => [|[|//]] /=; rewrite ?expn0 ?expn1; lia.
by cbn [rbind]; rewrite (unpack_sharing ok H) eqxx.
Qed.

(** C71: [test_det_packing] and, for any module, [pack_unpack_test] *)
Lemma c71_pack_unpack (F : fftField) (T : lmodType F) (dbg : bool) k (s : seq F) (s' : seq T) (r : rng T) :
  (k.+2 <= ff_two_adicity F)%N -> size s = (2 ^ k)%N -> size s' = (2 ^ k)%N ->
  test_det_packing dbg (2 ^ k) s = Ok tt /\ pack_unpack_test dbg (2 ^ k) s' r = Ok tt.
Proof.
move=> le_k ss ss'; have [pp [E [El Et En] _ _ _]] := c07_new dbg le_k.
rewrite /test_det_packing /pack_unpack_test E; cbn [rbind]; split.
  have [|sh [-> _ U]] := c03_det_pack (T := Fm F) (secrets := s) E; first by rewrite El.
  by cbn [rbind]; rewrite U; apply: rassert_eq.
have [sh [-> _ _ U]] := c01_pack_unpack r E ss'.
by cbn [rbind]; rewrite U; apply: rassert_eq.
Qed.

(** C71: [test_multiplication] *)
Lemma c71_multiplication (F : fftField) (dbg : bool) k (secrets : seq F) (r : rng F) :
  (k.+2 <= ff_two_adicity F)%N -> size secrets = (2 ^ k)%N ->
  test_multiplication dbg (2 ^ k) secrets r = Ok tt.
Proof.
move=> le_k ss; have [pp [E [El Et En] _ _ _]] := c07_new dbg le_k.
have k0 : (0 < 2 ^ k)%N by rewrite expn_gt0.
have ok := pss_new_ok E; have ss' : size secrets = p_l pp by rewrite El.
have [sh [Esh sz H]] := pack_sharing (T := Fm F) ok dbg r ss'.
have l2 : (0 < 2 * p_l pp)%N by lia.
have := sharing_mul l2 H H; rewrite !square_zipmap.
have -> : (2 * p_l pp + 2 * p_l pp).-1 = (4 * p_l pp - 1)%N by lia.
move=> H2; have szm : size [seq x * x | x <- (sh : seq F)] = p_n pp by rewrite size_map.
rewrite /test_multiplication E; cbn [rbind]; rewrite Esh; cbn [rbind].
rewrite (unpack2_sharing ok _ H2); last by case: (dbg); lia.
cbn [rbind]; rewrite /slice0 szm /rassert leq_subr; cbn [rbind].
rewrite (take_nth_iota 0) ?szm ?leq_subr //.
rewrite (lagrange_unpack_sharing ok (dbg := dbg) H2 (iota_uniq _ _)); last 3 first.
- by apply/allP => q; rewrite mem_iota; lia.
- by rewrite size_iota; lia.
- by rewrite size_iota => _; lia.
by cbn [rbind]; rewrite !eqxx.
Qed.

(** C71: [test_eval_interpolate] passes exactly if the last coefficient is not zero (otherwise the
    interpolation returns a shorter, or for the zero polynomial a longer, vector). *)
Lemma c71_eval_interpolate (F : fftField) (p : seq F) : (0 < size p)%N ->
  uniq [seq x%:R : F | x <- iota 1 (2 * size p)] -> 0 \notin [seq x%:R : F | x <- iota 1 (2 * size p)] ->
  test_eval_interpolate p = if last 0 p == 0 then Panic else Ok tt.
Proof.
move=> p0; set xs := map _ _ => u_x n_x; rewrite /test_eval_interpolate -/xs.
have sx : size xs = (2 * size p)%N by rewrite size_map size_iota.
have le : (size p <= size xs)%N by rewrite sx; lia.
have -> : [seq eval p x | x <- xs] = [seq pval (T := Fm F) x p | x <- xs].
  by apply: eq_map => x; rewrite c11_eval /pval; apply: eq_bigr => i _; rewrite mulrC.
rewrite (lagrange_unique (T := Fm F) u_x n_x le); cbn [rbind].
set t := truncate_zeros _; have [k [Ek H]] := truncate_zerosP (resize (0 : Fm F) (size xs) p).
rewrite -/t in Ek H.
have Et i : t`_i = p`_i.
  rewrite /t nth_truncate_zeros nth_resize; case: ltnP => // le_i.
  by rewrite nth_default // (leq_trans le).
have aux (a : nat) : (0 < a)%N -> (a + 0 = 2 * a)%N -> False by lia.
rewrite /rassert; case: eqP => [Ep|Np].
  case: H => [[_ kz]|[c' [x [Ec x0]]]]; last by rewrite -Ep Ec last_rcons (negbTE x0).
  by move: (congr1 size Ek); rewrite size_cat size_nseq Ep kz size_resize sx => /(aux _ p0).
case: eqP => // /eqP lp; case: Np; case: H => [[/allP H kz]|[c' [x [Ec x0]]]].
  case/eqP: lp; rewrite -nth_last -Et; apply/eqP; apply: H.
  have st : size t = (2 * size p)%N by rewrite -sx -(size_resize (0 : Fm F) (size xs) p) -Ek kz cats0.
  by rewrite -Ek kz cats0 mem_nth // st prednK // mul2n -addnn leq_addr.
have K (c : seq F) : last 0 c != 0 -> (0 < size c)%N -> polyseq (Poly c) = c.
  by case: c => // a c /= l0 _; rewrite -[LHS]/(polyseq (Poly (a :: c))) (@PolyK _ 1).
have Pt : Poly (t : seq F) = Poly p by apply/polyP => i; rewrite !coef_Poly Et.
by rewrite -(K p) // -Pt (K t) // Ec ?last_rcons // size_rcons.
Qed.

(** C71: [test_error_correction] for any message of at most [K] coefficients and at most
    [(n - K) / 2] errors, anywhere. *)
Lemma c71_error_correction (F : fftField) (dbg : bool) k (m : seq F) (errors : seq (nat * F)) K :
  (k.+2 < ff_two_adicity F)%N -> (size m <= K <= 4 * 2 ^ k)%N ->
  all (fun e => e.1 < 4 * 2 ^ k)%N errors -> (size errors <= (4 * 2 ^ k - K) %/ 2)%N ->
  test_error_correction dbg (2 ^ k) m errors (4 * 2 ^ k) K = Ok tt.
Proof.
move=> le_k /andP[mK Kn] He le_e; have [pp [E [El Et En] _ _ _]] := c07_new dbg (ltnW le_k).
have ok := pss_new_ok E.
rewrite /test_error_correction E; cbn [rbind].
set code := fft _ _; have sc : size code = p_n pp by rewrite size_mkseq (share_size ok).
have nthc i : (i < p_n pp)%N -> code`_i = (Poly m).[share_pt pp i].
  have sm : (size m <= d_size (p_share pp))%N by rewrite (share_size ok) En; apply: leq_trans Kn.
  move=> lt_i; rewrite /code fft_mkseq // nth_mkseq ?(share_size ok) // pval_horner.
  by rewrite (element_share ok).
have F1 es (c : seq F) : all (fun e => e.1 < p_n pp)%N es -> size c = p_n pp ->
  exists c', [/\ foldM (fun code e => let! x := vget code e.1 in vset code e.1 (x + e.2)) c es = Ok c',
    size c' = p_n pp & forall i, i \notin [seq e.1 | e <- es] -> c'`_i = c`_i].
  elim: es c => [|[i a] es IH] c /=; first by exists c.
  case/andP=> lt_i Hes szc; rewrite (vget_nth 0) ?szc // [rbind (Ok _) _]/= /vset szc lt_i [rbind (Ok _) _]/=.
  have szs : size (set_nth (c`_i + a) c i (c`_i + a)) = p_n pp by rewrite size_set_nth szc; apply/maxn_idPr.
  have [c' [E1 s1 C1]] := IH _ Hes szs; exists c'; split=> // j.
  rewrite inE negb_or => /andP[ji jn]; rewrite C1 //.
  case: (ltnP j (p_n pp)) => lt_j; last by rewrite nth_default ?szs // nth_default ?szc.
  by rewrite (set_nth_default (c`_i + a)) ?szs // nth_set_nth /= (negbTE ji) (set_nth_default 0) ?szc.
rewrite -En in He le_e Kn *; have [c' [-> s1 C1]] := F1 errors code He sc; cbn [rbind].
have pow : (p_n pp < 2 ^ ff_two_adicity F)%N.
  by rewrite En -[4%N]/(2 ^ 2)%N -expnD ltn_exp2l.
rewrite (decode_correct ok (m := m)) //.
  by cbn [rbind]; rewrite dp_normE; apply: rassert_eq.
apply: leq_trans le_e; rewrite -size_filter -(size_map fst errors).
apply: uniq_leq_size => [|i]; first by rewrite filter_uniq // iota_uniq.
rewrite mem_filter mem_iota add0n => /andP[bad /andP[_ lt_i]]; apply: contraNT bad => /C1 ->.
by rewrite nthc.
Qed.

(** C71: [pack_unpack2_test] for any points and scalars, any number of chunks *)
Lemma c71_pack_unpack2 (F : fftField) (T : lmodType F) (dbg : bool) k m (gs : seq T) (fs : seq F)
    (rg : rng T) (rf : rng F) :
  (k.+2 <= ff_two_adicity F)%N -> (0 < m)%N -> size gs = (m * 2 ^ k)%N -> size fs = (m * 2 ^ k)%N ->
  pack_unpack2_test dbg (2 ^ k) gs fs rg rf = Ok tt.
Proof.
move=> le_k m0 sg sf; have [pp [E [El Et En] _ _ _]] := c07_new dbg le_k.
have k0 : (0 < 2 ^ k)%N by rewrite expn_gt0.
have ok := pss_new_ok E; rewrite -El in sg sf.
have [xs [Exs Hxs]] := pack_chunks_deal ok dbg rg m0 sg.
have [ys [Eys Hys]] := pack_chunks_deal (T := Fm F) ok dbg rf m0 sf.
have msmE (g : seq T) (f : seq F) N : size g = N -> size f = N -> msm g f = Ok (\sum_(i < N) f`_i *: g`_i).
  move=> sg' sf'; rewrite /msm sg' sf' eqxx DegProofs.foldr_sum size_zipmap sg' sf' minnn; congr Ok.
  by apply: eq_bigr => i _; rewrite (nth_zipmap _ 0 0) ?sg' ?sf'.
rewrite /pack_unpack2_test E; cbn [rbind]; rewrite (msmE _ _ _ sg sf); cbn [rbind].
rewrite Exs; cbn [rbind]; rewrite Eys; cbn [rbind].
have /vsharingP[X1 X2] := Hxs; have /vsharingP[Y1 Y2] := Hys.
pose c p := \sum_(e < m) (ys p)`_e *: (xs p)`_e.
have fold j : (j <= p_n pp)%N -> foldM (fun result i =>
      let! g := vget (mkseq xs (p_n pp)) i in
      let! f := vget (mkseq ys (p_n pp)) i in
      let! x := (if msm g f is Ok x then Ok x else Panic) in
      vset result i x) (nseq (p_n pp) 0) (iota 0 j) = Ok (mkseq (fun i => if (i < j)%N then c i else 0) (p_n pp)).
  elim: j => [_|j IH lt_j].
    by congr Ok; apply: (@eq_from_nth _ 0); rewrite size_nseq ?size_mkseq // => i lt_i; rewrite nth_nseq lt_i nth_mkseq.
  rewrite -addn1 iotaD foldM_cat IH ?(ltnW lt_j) //= (vget_nth [::]) ?size_mkseq //= (vget_nth [::]) ?size_mkseq //=.
  rewrite !nth_mkseq // (msmE _ _ m) ?X1 ?Y1 //= /vset size_mkseq lt_j /=; congr Ok.
  apply: (@eq_from_nth _ 0); rewrite size_set_nth !size_mkseq (maxn_idPr lt_j) // => i lt_i.
  rewrite (set_nth_default (c j)) ?size_set_nth ?size_mkseq ?(maxn_idPr lt_j) //.
  rewrite nth_set_nth /= !nth_mkseq // addn1 ltnS [(i <= j)%N]leq_eqVlt add0n; by case: eqP => [->|].
have -> : (2 ^ k * 4 = p_n pp)%N by rewrite En mulnC.
rewrite fold //; cbn [rbind].
have Ec : mkseq (fun i => if (i < p_n pp)%N then c i else 0) (p_n pp) = mkseq c (p_n pp).
  by apply: eq_mkseq_in => i ->.
rewrite Ec; pose sec j := \sum_(e < m) blocks (T := Fm F) pp fs e j *: blocks pp gs e j.
have Hc : shared pp (4 * p_l pp - 1) c sec.
  have := @shared_sum _ _ pp (4 * p_l pp - 1) m (fun=> 1)
    (fun e p => (ys p)`_e *: (xs p)`_e) (fun e j => blocks (T := Fm F) pp fs e j *: blocks pp gs e j).
  have Hm e : (e < m)%N -> shared pp (4 * p_l pp - 1) (fun p => (ys p)`_e *: (xs p)`_e)
                             (fun j => blocks (T := Fm F) pp fs e j *: blocks pp gs e j).
    move=> lt_e; have -> : (4 * p_l pp - 1 = (2 * p_l pp + 2 * p_l pp).-1)%N by lia.
    by apply: shared_mul (Y2 e lt_e) (X2 e lt_e); lia.
  by move/(_ Hm); apply: shared_ext => i lt_i; apply: eq_bigr => e _; rewrite scale1r.
rewrite (unpack2_sharing ok _ (proj2 (sharingP _ _ _ _) Hc)); last by case: (dbg); lia.
cbn [rbind]; apply: rassert_eq; rewrite DegProofs.foldr_sum size_mkseq.
rewrite (big_split_blocks m (p_l pp) (fun i => fs`_i *: gs`_i)) exchange_big.
by apply: eq_bigr => j _; rewrite nth_mkseq.
Qed.
