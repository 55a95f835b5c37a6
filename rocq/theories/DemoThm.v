(** Theorems about the example programs. *)
From mathcomp Require Import all_ssreflect all_algebra.
From mathcomp Require Import zify.
From Verif Require Import Base ModelField ModelUtils ModelPss ModelPack ModelFft ModelNet ModelProto.
From Verif Require Import ModelDemo Spec SpecNet SpecProto ExampleField ExamplesNet ExamplesProto.
From Verif Require Import KingProofs RoundProofs FieldProofs UtilsProofs PssProofs PackProofs FftProofs.
From Verif Require Import ProtoProofs DegProofs PpProofs FewProofs MaskProofs ViewProofs ProtoThm ViewThm.
Set Implicit Arguments.
Unset Strict Implicit.
Unset Printing Implicit Defensive.
Import GRing.Theory.
Local Open Scope ring_scope.
Local Notation Fm F := [lmodType F of F^o].

(** a last collection, after which the king alone computes *)
Lemma collect_prog T B (c : codec T) n (dok : pred nat) ord (x : nat -> T) thr
    (k : nat -> received T -> res B) (v : B) :
  (0 < n)%N -> (forall d, dok d -> d != 0%N) -> hash_ok ord -> (thr <= n.-1)%N ->
  (forall i, (i < n)%N -> ModelNet.decode c (enc c (x i)) = Ok (x i)) ->
  (forall d, dok d -> k 0%N (received_from x n d ord) = Ok v) ->
  king_prog n dok (fun p => do! rs := csokr_ser c n p ord (x p) thr in clift (king_map (k p) rs))
    (fun p => if p == 0%N then Some v else None).
Proof.
move=> n0 dok0 Ho Ht Hd Hk.
case E: (csokr_ser c n 0 ord (x 0%N) thr) => [|||st K|] //.
have Est : st = nseq n None by move: E => [<-].
rewrite Est in E.
apply: (@KP_gather _ _ _ _ _ (fun p => enc c (x p)) (fun st => cbind (K st) (fun rs =>
   clift (king_map (k 0%N) rs))) (fun p => CRet (Ok (if p == 0%N then Some v else None)))).
- by rewrite E.
- move=> p pI; have p0 : (p == 0%N) = false by lia.
  by rewrite /csokr_ser /client_send_or_king_receive p0.
- by move=> d dd; rewrite (csokr_king n0 (dok0 d dd) Ho Ht Hd E) /= Hk.
exact: KP_ret.
Qed.

Lemma clift_ok A B (a : A) (f : A -> cproc B) : cbind (clift (Ok a)) f = f a.
Proof. by []. Qed.

Lemma mapM_nth I A (f : I -> res A) i0 a0 (js : seq I) s e : mapM f js = Ok s -> (e < size js)%N ->
  f (nth i0 js e) = Ok (nth a0 s e).
Proof.
elim: js s e => //= j js IH s e; case Ej: (f j) => [a|//|//] /=; case E: (mapM f js) => [s'|//|//] /= Es.
by rewrite -(Ok_inj Es); case: e => //= e lt_e; apply: IH.
Qed.

Lemma size_mapM I A (f : I -> res A) (js : seq I) s : mapM f js = Ok s -> size s = size js.
Proof.
elim: js s => [|j js IH] s /=; first by move=> E; rewrite -(Ok_inj E).
case: (f j) => [a|//|//] /=; case E: (mapM f js) => [s'|//|//] /= Es.
by rewrite -(Ok_inj Es) /= (IH _ E).
Qed.

(** the entries [p] of all rows *)
Lemma transpose_column A (m : seq (seq A)) n (out : nat -> seq A) p :
  transpose m = Ok (mkseq out n) -> (p < n)%N -> mapM (fun row => vget row p) m = Ok (out p).
Proof.
rewrite /transpose; case: (rassert _) => [_|//|//] /=; case: (vget m 0) => [r0|//|//] /=.
case: (vget r0 0) => [_|//|//] /=.
move=> E lt_p; have := size_mapM E; rewrite size_mkseq size_iota => Er.
have := mapM_nth 0%N [::] (e := p) E; rewrite size_iota -Er => /(_ lt_p).
by rewrite nth_iota -?Er // add0n nth_mkseq.
Qed.

Section Demo.
Variables (F : fftField) (pp : pss F).
Hypothesis ok : pp_ok pp.

Lemma unpack_all_blocks m (out : nat -> seq F) v d ord : (0 < m)%N -> hash_ok ord -> (p_n pp <= d)%N ->
  size v = (m * p_l pp)%N -> vsharing (T := Fm F) pp (2 * p_l pp) m out (blocks (T := Fm F) pp v) ->
  unpack_all pp (received_from out (p_n pp) d ord) = Ok v.
Proof.
move=> m0 Ho dn sv [H1 H2]; have l0 := pp_l_gt0 ok.
rewrite /unpack_all (transpose_who (T := Fm F) ok d Ho m0 H1) [rbind (Ok _) _]/=; congr Ok.
have -> : who pp d ord = iota 0 (p_n pp) by rewrite /who /received_from [(d < _)%N]ltnNge dn.
rewrite -map_comp -[RHS](mkseq_nth 0) sv.
transitivity (flatten (mkseq (fun e => mkseq (blocks (T := Fm F) pp v e) (p_l pp)) m)).
  congr flatten; apply/eq_in_map => e; rewrite mem_iota add0n => /andP[_ lt_e].
  exact: (unpack_sharing ok (H2 e lt_e)).
rewrite (flatten_mkseq_blocks 0) //; apply: eq_mkseq => q.
by rewrite /blocks -divn_eq.
Qed.

Lemma pack_chunks_deal dbg (T : lmodType F) m (v : seq T) r : (0 < m)%N -> size v = (m * p_l pp)%N ->
  exists out, pack_chunks dbg pp v r = Ok (mkseq out (p_n pp)) /\
    vsharing pp (2 * p_l pp) m out (blocks pp v).
Proof.
move=> m0 sv; have l0 := pp_l_gt0 ok; have [out [E H]] := pack_vec_deal ok dbg r m0 sv.
exists out; split=> //; move: E; rewrite /pack_vec /pack_chunks.
by rewrite /rassert l0 [rbind (Ok _) _]/= sv modnMl eqxx /dassert implybT.
Qed.

End Demo.

(*** theorems ***)

(** C62: in every execution without a crash the assertion of [d_fft_test] holds, for every vector of
    coefficients; the king has compared with the values of the polynomial on the domain. *)
Lemma c62_d_fft_test (F : fftField) dbg lam b pp dom (cF : codec F) mb (x : seq F) (r0 r : rng F) :
  pss_new F dbg (2 ^ lam) = Ok pp -> domain_new F (2 ^ (b + lam)) = Some dom ->
  codec_ok cF mb -> (2 ^ b < 256 ^ 8)%N -> size x = (2 ^ (b + lam))%N ->
  yields (p_n pp) true
    (fun ords p => d_fft_test dbg pp (p_n pp) p (ords 0%N) (ords 1%N) cF dom x r0 r)
    (fun p => if p == 0%N then Some (evals (T := Fm F) 1 (d_gen dom) (2 ^ (b + lam)) x) else None).
Proof.
move=> new Edom cok mb8 sx.
have ok := pss_new_ok new; have El := pss_new_l new; have l0 := pp_l_gt0 ok; have n0 := n_gt0 new.
have En := ppn ok; have Et := ppt ok; have n1 := n_gt1 ok.
have m0 : (0 < 2 ^ b)%N by rewrite expn_gt0.
have Em : (2 ^ (b + lam) = 2 ^ b * p_l pp)%N by rewrite El expnD.
have [dok Es Eo] := dom_ok Edom.
have [xs [Exs Hxs]] := share_out_deal ok El dbg true r0 sx.
have Hm : fft_masks dbg pp false 1 (d_gen dom) (2 ^ (b + lam))
    (fun=> fft_mask_zero F (2 ^ (b + lam) %/ p_l pp)) by left.
have Hm' := fft_masks_ok new (dom_prim Edom) Hm.
have Hdeg : (2 * p_l pp <= 4 * p_l pp - 1)%N by lia.
have [out [Ho Hp]] := d_fft_prog ok El cok mb8 Edom dbg r Hdeg Hm' sx Hxs.
set v := evals _ _ _ _ in Ho *; have sv : size v = (2 ^ b * p_l pp)%N by rewrite size_mkseq.
have Ev : fft dom (x : seq (Fm F)) = v.
  rewrite fft_mkseq ?sx ?Es //; apply: eq_map => i; by rewrite /element Eo.
have [E1 E2] : exists x1, fft_rearrange x = Ok x1 /\ exists2 sh,
    pack_strided dbg pp (x1 : seq (Fm F)) r0 = Ok sh & transpose sh = Ok (mkseq xs (p_n pp)).
  move: Exs; rewrite /share_out; case: (fft_rearrange x) => [x1|//|//] /=.
  case E: (pack_strided _ _ _ _) => [sh||] //= Et'; exists x1; split=> //; by exists sh.
case: E2 => E2 [sh E3 E4].
apply: yields_prog => // ords Hords.
apply: (king_prog_ext n0 (P' := fun p =>
   do! peval_share := d_fft dbg pp (p_n pp) p (ords 0%N) cF (xs p)
                        (fft_mask_zero F (2 ^ (b + lam) %/ p_l pp)) false dom r in
   do! result := csokr_ser (vec_codec cF) (p_n pp) p (ords 1%N) peval_share (p_t pp) in
   clift (king_map (fun rs => let! pevals := unpack_all pp rs in
     let! _ := rassert ((p == 0)%N ==> (v == pevals)) in Ok pevals) result))).
  move=> p lt_p; rewrite /d_fft_test Ev Es E2 clift_ok E3 clift_ok.
  by rewrite (transpose_column E4 lt_p) clift_ok.
apply: (@king_prog_bind _ _ _ _ _ (fun p peval_share =>
   do! result := csokr_ser (vec_codec cF) (p_n pp) p (ords 1%N) peval_share (p_t pp) in
   clift (king_map (fun rs => let! pevals := unpack_all pp rs in
     let! _ := rassert ((p == 0)%N ==> (v == pevals)) in Ok pevals) result)) _ _ n0).
  by apply: (king_prog_dok _ (Hp _ (Hords 0%N))) => d /andP[].
apply: (@collect_prog _ _ _ _ _ _ _ _ (fun p rs => let! pevals := unpack_all pp rs in
     let! _ := rassert ((p == 0)%N ==> (v == pevals)) in Ok pevals)) => //.
- by move=> d /andP[].
- by rewrite Et; lia.
- by move=> i lt_i; apply: (vec_dec (T := Fm F) cok mb8); case: Ho => H _; apply: H.
move=> d /andP[_ /= dn].
by rewrite (unpack_all_blocks ok m0 (Hords 1%N) dn sv Ho) /= eqxx.
Qed.

(** C62: with the coefficients [0 .. N - 1] of the program *)
Lemma c62_d_fft_test_input (F : fftField) dbg lam b pp dom (cF : codec F) mb (r0 r : rng F) :
  pss_new F dbg (2 ^ lam) = Ok pp -> domain_new F (2 ^ (b + lam)) = Some dom ->
  codec_ok cF mb -> (2 ^ b < 256 ^ 8)%N ->
  yields (p_n pp) true
    (fun ords p => d_fft_test dbg pp (p_n pp) p (ords 0%N) (ords 1%N) cF dom (d_fft_input dom) r0 r)
    (fun p => if p == 0%N then
       Some (mkseq (fun k => \sum_(i < 2 ^ (b + lam)) d_gen dom ^+ (k * i) * i%:R) (2 ^ (b + lam))) else None).
Proof.
move=> new Edom cok mb8; have [dok Es Eo] := dom_ok Edom.
have sx : size (d_fft_input dom) = (2 ^ (b + lam))%N by rewrite size_mkseq Es.
have -> : mkseq (fun k => \sum_(i < 2 ^ (b + lam)) d_gen dom ^+ (k * i) * i%:R) (2 ^ (b + lam))
    = evals (T := Fm F) 1 (d_gen dom) (2 ^ (b + lam)) (d_fft_input dom).
  apply: eq_map => k; rewrite /pval sx; apply: eq_bigr => i _.
  by rewrite mul1r -exprM nth_mkseq ?Es.
exact: (c62_d_fft_test r0 r new Edom cok mb8 sx).
Qed.

(** C62: the same for [d_pp_test]; the numbers [1 .. N] that are divided have to be nonzero in the
    field. *)
Lemma c62_d_pp_test (F : fftField) dbg lam b pp dom (cF : codec F) mb (r0 r r' values r_in r_out : rng F) :
  pss_new F dbg (2 ^ lam) = Ok pp -> domain_new F (2 ^ (b + lam)) = Some dom ->
  codec_ok cF mb -> (2 * 2 ^ b < 256 ^ 8)%N ->
  (forall i, (0 < i <= 2 ^ (b + lam))%N -> i%:R != 0 :> F) ->
  exists px masks, d_pp_deal dbg pp dom r0 values r_in r_out = Ok (px, masks) /\
    yields (p_n pp) true
      (fun ords p => d_pp_test dbg pp (p_n pp) p (ords 0%N) (ords 1%N) (ords 2%N) cF dom
         (nth [::] px p) (nth (degred_mask_zero (Fm F) 0) masks p) r r')
      (fun p => if p == 0%N then Some (nseq (2 ^ (b + lam)) 1) else None).
Proof.
move=> new Edom cok mb8 nz.
have ok := pss_new_ok new; have El := pss_new_l new; have l0 := pp_l_gt0 ok; have n0 := n_gt0 new.
have En := ppn ok; have Et := ppt ok; have n1 := n_gt1 ok.
have m0 : (0 < 2 ^ b)%N by rewrite expn_gt0.
have Em : (2 ^ (b + lam) = 2 ^ b * p_l pp)%N by rewrite El expnD.
have [dok Es Eo] := dom_ok Edom.
set x := d_pp_input dom; have sx : size x = (2 ^ b * p_l pp)%N by rewrite size_mkseq Es.
have [px [Epx Hpx]] := pack_vec_deal (T := Fm F) ok dbg r0 m0 sx.
have [s Esm] : exists s, degred_mask_sample dbg pp (1 : Fm F) (2 ^ b) values r_in r_out = Ok s.
  have := degred_sampleE ok dbg (1 : Fm F) values r_in r_out m0.
  by case=> ins [outs [_ [_ E]]]; eexists; exact: E.
have Hm : degred_masks dbg pp (1 : Fm F) (2 ^ b) (nth (degred_mask_zero (Fm F) 0) s).
  by right; exists values, r_in, r_out, s.
have Hm' := degred_masks_ok new m0 Hm.
have Hdeg : (2 * p_l pp <= 4 * p_l pp - 1)%N by lia.
have nzx : all (fun z => z != 0) x.
  apply/(all_nthP 0) => i; rewrite size_mkseq Es => lt_i; rewrite nth_mkseq ?Es //.
  by apply: nz; rewrite addn1.
exists (mkseq px (p_n pp)), s; split.
  rewrite /d_pp_deal -/x; move: Epx; case: (pack_vec _ _ _ _) => [sh|//|//] /= ->.
  by rewrite [rbind (Ok _) _]/= Es Em mulnK // Esm.
have [out [Ho Hp]] := d_pp_prog ok cok dbg (conj m0 mb8) Hdeg sx sx Hpx Hpx r r' nzx Hm'.
have Er : running x x = nseq (2 ^ (b + lam)) 1.
  apply: (@eq_from_nth _ 0); rewrite size_mkseq ?size_nseq sx Em // => i lt_i.
  rewrite nth_mkseq ?sx // nth_nseq lt_i big1 // => k _; rewrite divff //.
  by apply: (allP nzx); apply: mem_nth; rewrite sx; apply: leq_ltn_trans lt_i; rewrite -ltnS.
rewrite Er in Ho; set v := nseq _ 1 in Ho *.
have sv : size v = (2 ^ b * p_l pp)%N by rewrite size_nseq.
apply: yields_prog => // ords Hords.
pose rest p (y : seq F) :=
   do! result := csokr_ser (vec_codec cF) (p_n pp) p (ords 2%N) y (p_t pp) in
   clift (king_map (fun rs => let! pp_px := unpack_all pp rs in
     let! _ := dassert dbg (v == pp_px) in Ok pp_px) result).
apply: (king_prog_ext n0 (P' := fun p =>
   cbind (d_pp dbg pp (p_n pp) p (ords 0%N) (ords 1%N) cF (px p) (px p)
           (nth (degred_mask_zero (Fm F) 0) s p) r r') (rest p))).
  by move=> p lt_p; rewrite /d_pp_test nth_mkseq // Es.
apply: (king_prog_bind n0).
  apply: (king_prog_dok _ (Hp _ _ (Hords 0%N) (Hords 1%N))) => d /andP[-> /= dn].
  by apply/implyP.
apply: (@collect_prog _ _ _ _ _ _ _ _ (fun p rs => let! pp_px := unpack_all pp rs in
     let! _ := dassert dbg (v == pp_px) in Ok pp_px)) => //.
- by move=> d /andP[].
- by rewrite Et; lia.
- move=> i lt_i; apply: (vec_dec (T := Fm F) (m := 2 ^ b) cok).
    by apply: leq_ltn_trans mb8; rewrite leq_pmull.
  by case: Ho => H _; apply: H.
move=> d /andP[_ /= dn].
by rewrite (unpack_all_blocks ok m0 (Hords 2%N) dn sv Ho) /= eqxx /dassert implybT.
Qed.

(** C62: the assertion of [d_msm_test] holds even if one client crashes. *)
Lemma c62_d_msm_test (F : fftField) (T : lmodType F) dbg lam m pp (gen : T) (cT : codec T) mb
    (x_pub : seq T) (y_pub : seq F) (rx : rng T) (ry values : rng F) (rm : rng T) :
  pss_new F dbg (2 ^ lam) = Ok pp -> codec_ok cT mb -> (0 < m)%N ->
  size x_pub = (m * 2 ^ lam)%N -> size y_pub = (m * 2 ^ lam)%N ->
  exists xs ys masks,
    d_msm_deal dbg pp gen x_pub y_pub rx ry values rm = Ok (xs, ys, masks) /\
    yields (p_n pp) false
      (fun ords p => d_msm_test dbg pp (p_n pp) p (ords 0%N) (ords 1%N) cT x_pub y_pub
         (nth [::] xs p) (nth [::] ys p) (nth (msm_mask_zero T) masks p))
      (fun p => if p == 0%N then
         Some (nseq (2 ^ lam) (\sum_(i < m * 2 ^ lam) y_pub`_i *: x_pub`_i)) else None).
Proof.
move=> new cok m0 sx sy.
have ok := pss_new_ok new; have El := pss_new_l new; have l0 := pp_l_gt0 ok; have n0 := n_gt0 new.
have En := ppn ok; have Et := ppt ok; have n1 := n_gt1 ok; rewrite -El in sx sy *.
have [xs [Exs Hxs]] := pack_chunks_deal ok dbg rx m0 sx.
have [ys [Eys Hys]] := pack_chunks_deal (T := Fm F) ok dbg ry m0 sy.
have [Esm _] := msm_sample_dealing ok dbg gen values rm.
set s := mkseq _ _ in Esm.
have Hm : msm_masks dbg pp gen (nth (msm_mask_zero T) s) by right; exists values, rm, s.
exists (mkseq xs (p_n pp)), (mkseq ys (p_n pp)), s; split.
  by rewrite /d_msm_deal Exs /= Eys /= Esm.
have [out [Ho Hp]] := d_msm_prog ok cok dbg (msm_masks_ok new Hm) Hxs Hys.
set v := \sum_(i < _) _.
have Ev : msm x_pub y_pub = Ok v.
  rewrite /msm sx sy eqxx foldr_sum size_zipmap sx sy minnn; congr Ok.
  by apply: eq_bigr => i _; rewrite (nth_zipmap _ 0 0) ?sx ?sy.
apply: yields_prog' => // ords Hords.
pose k (p : nat) (rs : received T) :=
  let! result := unpack_missing_shares dbg pp (shares rs) (parties rs) in
  let! u := vget result 0 in
  let! _ := rassert (v == u) in Ok result.
apply: (king_prog_ext n0 (P' := fun p =>
   cbind (d_msm dbg pp (p_n pp) p (ords 0%N) cT (xs p) (ys p) (nth (msm_mask_zero T) s p))
     (fun y => do! result := csokr_ser cT (p_n pp) p (ords 1%N) y (p_t pp) in
               clift (king_map (k p) result)))).
  by move=> p lt_p; rewrite /d_msm_test !nth_mkseq // Ev.
apply: (@king_prog_bind _ _ _ _ _ (fun p y =>
  do! result := csokr_ser cT (p_n pp) p (ords 1%N) y (p_t pp) in
               clift (king_map (k p) result)) _ _ n0 (Hp _ (Hords 0%N))).
apply: (@collect_prog _ _ _ _ _ _ _ _ k) => //.
- by rewrite Et; lia.
- by move=> i lt_i; have [_ H _] := cok; rewrite /ModelNet.decode -[enc _ _]cats0 H.
move=> d d0; rewrite /k parties_who shares_who.
have Hdeg : (2 * p_l pp <= 4 * p_l pp - 1)%N by lia.
rewrite (unpack_who ok dbg d (Hords 1%N) Hdeg Ho) [rbind (Ok _) _]/=.
set w := mkseq _ _; have -> : w = nseq (p_l pp) v.
  apply: (@eq_from_nth _ 0); rewrite size_mkseq ?size_nseq // => i lt_i.
  rewrite nth_mkseq // nth_nseq lt_i /inner /blocks.
  by rewrite /v (big_split_blocks m (p_l pp) (fun i => y_pub`_i *: x_pub`_i)).
by rewrite (vget_nth 0) ?size_nseq // nth_nseq l0 [rbind (Ok _) _]/= eqxx.
Qed.

(** C62, refuted for crashes: [d_fft_test] reconstructs with [unpack], which takes the shares as they
    come; without the share of one client the assertion fails, although [d_fft] itself goes
    through. *)
Lemma c62_d_fft_test_crash_refuted : exists (F : fftField) dbg lam b pp dom (cF : codec F) mb (r0 r : rng F),
  [/\ pss_new F dbg (2 ^ lam) = Ok pp, domain_new F (2 ^ (b + lam)) = Some dom, codec_ok cF mb &
      forall out, ~ yields (p_n pp) false (fun ords p =>
        d_fft_test dbg pp (p_n pp) p (ords 0%N) (ords 1%N) cF dom (d_fft_input dom) r0 r) out].
Proof.
exists F17, true, 1%N, 1%N, pp2, dom4, cF17, 1%N, (rnd 5), (rnd 11); split=> //; first exact: c17_ok.
move=> out /(_ (fun _ => id) 3%N 6%N 0%N (fun=> 0%N) (fun _ s => perm_refl s) isT) /(_ (fun H => False_ind _ (notF H))).
case=> N [d [_ _]] H.
pose ps := crashing (p_n pp2) 6%N 0%N (fun=> 0%N) (fun p => pthread 3%N
  (d_fft_test true pp2 (p_n pp2) p id id cF17 dom4 (d_fft_input dom4) (rnd 5) (rnd 11))).
pose s := [seq party p | p <- others] ++ [seq king (KArrive p) | p <- others] ++ [:: king KGathered]
   ++ nseq 7%N (king KOp) ++ [seq party p | p <- others]
   ++ [seq party p | p <- others] ++ [seq king (KArrive p) | p <- others] ++ [:: king KGathered].
have E : (if run s (init ps) is Some c then isSome (step (0%N, LAbort 0%N) c) else false) = true.
  by vm_compute.
have cl : all clean s by [].
move: E; case Er: (run s (init ps)) => [c|//]; have [_ /(_ 0%N 0%N isT isT) -> //] := H s c cl Er.
Qed.
