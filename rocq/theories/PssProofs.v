(** Proofs about secret-sharing/src/pss.rs. *)
From mathcomp Require Import all_ssreflect all_algebra.
From mathcomp Require Import zify.
From Verif Require Import RingTac Base ModelField ModelUtils ModelPss Spec FieldProofs UtilsProofs.
Set Implicit Arguments.
Unset Strict Implicit.
Unset Printing Implicit Defensive.
Import GRing.Theory.
Local Open Scope ring_scope.

Lemma next_pow2_expn k : next_pow2 (2 ^ k) = (2 ^ k)%N.
Proof. by rewrite /next_pow2 up_expnK. Qed.

Section Params.
Variable F : fftField.

(** what [new] guarantees for a power of two *)
Record pp_ok (pp : pss F) : Prop := PpOk {
  ppl_pow : exists k, p_l pp = (2 ^ k)%N;
  ppt : p_t pp = p_l pp;
  ppn : p_n pp = (4 * p_l pp)%N;
  pp_share_ok : domain_ok (p_share pp);
  pp_secret_ok : domain_ok (p_secret pp);
  pp_secret2_ok : domain_ok (p_secret2 pp);
  pp_share_size : d_size (p_share pp) = (4 * p_l pp)%N;
  pp_secret_size : d_size (p_secret pp) = (2 * p_l pp)%N;
  pp_secret2_size : d_size (p_secret2 pp) = (4 * p_l pp)%N;
  pp_share_off : d_offset (p_share pp) = 1;
  pp_secret_off : d_offset (p_secret pp) = ff_generator F;
  pp_secret2_off : d_offset (p_secret2 pp) = ff_generator F;
  pp_secret2_gen : d_gen (p_secret2 pp) = d_gen (p_share pp);
  pp_secret_gen : d_gen (p_secret pp) = d_gen (p_share pp) ^+ 2
}.

Lemma pss_new_ok dbg k pp : pss_new F dbg (2 ^ k) = Ok pp -> pp_ok pp.
Proof.
rewrite /pss_new.
have -> : (2 ^ k * 4 = 2 ^ k.+2)%N by rewrite !expnS; lia.
have -> : (2 ^ k + 2 ^ k = 2 ^ k.+1)%N by rewrite !expnS; lia.
have -> : (2 * 2 ^ k.+1 = 2 ^ k.+2)%N by rewrite !expnS; lia.
rewrite {1}/dassert eqxx implybT [rbind _ _]/=.
case E1: (domain_new F (2 ^ k.+2)) => [sh|] //=.
case E2: (domain_new F (2 ^ k.+1)) => [se|] //=.
have [ok1 s1 o1 a1] := domain_new_ok E1.
have [ok2 s2 o2 a2] := domain_new_ok E2.
have g1 := domain_new_gen E1; have g2 := domain_new_gen E2.
rewrite !up_expnK // in a1 a2 g1 g2; rewrite !next_pow2_expn in s1 s2.
case C1: (get_coset se _) => [se'|] //=.
case C2: (get_coset sh _) => [sh'|] //=.
have [ok3 s3 g3 o3] := get_coset_ok ok2 C1.
have [ok4 s4 g4 o4] := get_coset_ok ok1 C2.
rewrite s3 s4 s1 s2 /dassert !eqxx !implybT /= => -[<-].
split=> //=.
- by exists k.
- by rewrite !expnS; lia.
- by rewrite s1 !expnS; lia.
- by rewrite s3 s2 !expnS; lia.
- by rewrite s4 s1 !expnS; lia.
- rewrite g3 g2 g1 -exprM -expnSr; congr (_ ^+ (2 ^ _)); lia.
Qed.

(** success and failure of [new] *)
Lemma pss_new_succeeds dbg k : (k.+2 <= ff_two_adicity F)%N ->
  exists pp, pss_new F dbg (2 ^ k) = Ok pp.
Proof.
move=> le_k; rewrite /pss_new.
have -> : (2 ^ k * 4 = 2 ^ k.+2)%N by rewrite !expnS; lia.
have -> : (2 ^ k + 2 ^ k = 2 ^ k.+1)%N by rewrite !expnS; lia.
have -> : (2 * 2 ^ k.+1 = 2 ^ k.+2)%N by rewrite !expnS; lia.
rewrite {1}/dassert eqxx implybT [rbind _ _]/=.
rewrite /domain_new /get_root_of_unity !up_expnK // le_k /= (ltnW le_k) /=.
rewrite /get_coset (negPf (ff_generator_neq0 F)) /= /dassert !eqxx !implybT /=.
by eexists.
Qed.

Lemma pss_new_small_field dbg l : (ff_two_adicity F < up_log 2 (4 * l))%N ->
  pss_new F dbg l = Panic.
Proof.
move=> lt_a; rewrite /pss_new /dassert.
have -> : (l * 4 == 2 * (l + l))%N by apply/eqP; lia.
rewrite implybT /= /domain_new /get_root_of_unity.
by rewrite mulnC leqNgt lt_a.
Qed.

Lemma pss_new_debug_pow2 l pp : pss_new F true l = Ok pp -> exists k, l = (2 ^ k)%N.
Proof.
rewrite /pss_new /dassert.
have -> : (l * 4 == 2 * (l + l))%N by apply/eqP; lia.
rewrite [rbind _ _]/=.
case E1: (domain_new F (l * 4)) => [sh|] //=.
case E2: (domain_new F (l + l)) => [se|] //=.
have [_ s1 _ _] := domain_new_ok E1.
case: (get_coset _ _) => //= d1; case: (domain_new _ _) => //= d2.
case: (get_coset _ _) => //= d3.
rewrite s1 /next_pow2; case: eqP => //= El _.
case: (up_log 2 (l * 4)) El => [|[|k]] El; try by lia.
by exists k; move: El; rewrite !expnS; lia.
Qed.

End Params.

Section Pss.
Variable F : fftField.
Add Field FF : (stdlib_field F).
Variable T : lmodType F.
Variables (pp : pss F) (ok : pp_ok pp).
Local Notation l := (p_l pp).
Local Notation n := (p_n pp).
Implicit Types (c shares secrets : seq T).

Lemma pp_l_gt0 : (0 < l)%N.
Proof. by have [k ->] := ppl_pow ok; rewrite expn_gt0. Qed.

Lemma element_share i : element (p_share pp) i = share_pt pp i.
Proof. by rewrite /element (pp_share_off ok) mul1r. Qed.

Lemma element_secret j : element (p_secret pp) j = secret_pt pp j.
Proof. by rewrite /element (pp_secret_off ok). Qed.

Lemma element_secret2 j : element (p_secret2 pp) (j * 2) = secret_pt pp j.
Proof.
rewrite /element (pp_secret2_off ok) /secret_pt (pp_secret_gen ok) (pp_secret2_gen ok).
by rewrite -exprM mulnC.
Qed.

Lemma share_size : d_size (p_share pp) = n.
Proof. by rewrite (pp_share_size ok) (ppn ok). Qed.

Lemma share_pt_neq0 i : share_pt pp i != 0.
Proof. by rewrite expf_neq0 // dok_gen //; exact: pp_share_ok. Qed.

Lemma share_pt_eq i j : (i < n)%N -> (j < n)%N -> (share_pt pp i == share_pt pp j) = (i == j).
Proof.
move=> lt_i lt_j; rewrite /share_pt (eq_prim_root_expr (dok_prim (pp_share_ok ok))).
by rewrite share_size !modn_small.
Qed.

Lemma secret_pt_neq0 j : secret_pt pp j != 0.
Proof. by rewrite mulf_neq0 ?ff_generator_neq0 // expf_neq0 // dok_gen //; exact: pp_secret_ok. Qed.

Lemma secret_pt_eq i j : (i < 2 * l)%N -> (j < 2 * l)%N ->
  (secret_pt pp i == secret_pt pp j) = (i == j).
Proof.
move=> lt_i lt_j; rewrite /secret_pt (inj_eq (mulfI (ff_generator_neq0 F))).
rewrite (eq_prim_root_expr (dok_prim (pp_secret_ok ok))).
by rewrite (pp_secret_size ok) !modn_small.
Qed.

(** ** Encoding: coefficients to shares *)

Definition encode c : seq T := mkseq (fun i => pval (share_pt pp i) c) n.
Definition decode c : seq T := mkseq (fun j => pval (secret_pt pp j) c) l.

Lemma size_encode c : size (encode c) = n. Proof. exact: size_mkseq. Qed.
Lemma size_decode c : size (decode c) = l. Proof. exact: size_mkseq. Qed.

Lemma nth_encode c i : (i < n)%N -> (encode c)`_i = pval (share_pt pp i) c.
Proof. exact: nth_mkseq. Qed.

Lemma fft_share c : (size c <= n)%N -> fft (p_share pp) c = encode c.
Proof.
move=> le_c; rewrite fft_mkseq ?share_size //.
by apply: eq_map => i; rewrite element_share.
Qed.

Lemma ifft_share c : (size c <= n)%N -> ifft (p_share pp) (encode c) = resize 0 n c.
Proof.
move=> le_c; rewrite -fft_share // -fft_resize fftK ?size_resize ?share_size //.
exact: pp_share_ok.
Qed.

Lemma take_fft_secret c : (size c <= 2 * l)%N -> take l (fft (p_secret pp) c) = decode c.
Proof.
move=> le_c; rewrite fft_mkseq ?(pp_secret_size ok) //.
rewrite /mkseq -map_take take_iota; have /minn_idPl -> : (l <= 2 * l)%N by lia.
by apply: eq_map => i; rewrite element_secret.
Qed.

Lemma every_other_secret2 c : (size c <= n)%N ->
  every_other pp (fft (p_secret2 pp) c) = Ok (decode c).
Proof.
move=> le_c; rewrite /every_other size_fft (pp_secret2_size ok) /rassert.
have -> : (2 * l <= 4 * l)%N by lia.
rewrite [rbind _ _]/=; congr Ok.
rewrite (step_by_spec 0) // size_take size_fft (pp_secret2_size ok).
have -> : (2 * l < 4 * l)%N by have := pp_l_gt0; lia.
rewrite mulnC div_ceil_mul // /decode /mkseq.
apply/eq_in_map => i; rewrite mem_iota add0n /= => lt_i.
rewrite nth_take; last by lia.
rewrite nth_fft ?element_secret2 // ?(pp_secret2_size ok); last by lia.
by rewrite -(ppn ok).
Qed.

(** ** Packing *)

Lemma pack_pts_encode dbg secrets rands : size secrets = l -> size rands = l ->
  exists c, [/\ size c = (2 * l)%N, pack_pts dbg pp secrets rands = Ok (encode c) &
     fft (p_secret pp) c = secrets ++ rands].
Proof.
move=> ss sr; rewrite /pack_pts /dassert ss eqxx implybT [rbind _ _]/=.
set c := ifft _ _.
have sc : size c = (2 * l)%N by rewrite size_ifft (pp_secret_size ok).
exists c; split=> //; last first.
  rewrite ifftK //; first exact: pp_secret_ok.
  by rewrite size_cat ss sr (pp_secret_size ok); lia.
rewrite (ppt ok) drop_oversize ?implybT /=; last by rewrite sc; lia.
by rewrite fft_share // sc (ppn ok); lia.
Qed.

Lemma fft_secret_decode c secrets rands : (size c <= 2 * l)%N ->
  fft (p_secret pp) c = secrets ++ rands -> size secrets = l -> decode c = secrets.
Proof. by move=> le_c E ss; rewrite -take_fft_secret // E -ss take_size_cat. Qed.

Lemma pack_pts_sharing dbg secrets rands : size secrets = l -> size rands = l ->
  exists shares, [/\ pack_pts dbg pp secrets rands = Ok shares, size shares = n &
    sharing pp (2 * l) shares secrets].
Proof.
move=> ss sr; have [c [sc E Ec]] := pack_pts_encode dbg ss sr.
exists (encode c); split=> //; first exact: size_encode.
exists c; split=> //; first by rewrite sc.
by rewrite -(fft_secret_decode _ Ec ss) ?sc.
Qed.

Lemma pack_sharing dbg secrets r : size secrets = l ->
  exists shares, [/\ pack dbg pp secrets r = Ok shares, size shares = n &
    sharing pp (2 * l) shares secrets].
Proof.
move=> ss; rewrite /pack; apply: pack_pts_sharing => //.
by rewrite size_mkseq (ppt ok).
Qed.

Lemma pack_ok_sharing dbg secrets r shares : size secrets = l ->
  pack dbg pp secrets r = Ok shares -> sharing pp (2 * l) shares secrets.
Proof. by move=> ss; have [sh [-> _ H]] := pack_sharing dbg r ss => -[<-]. Qed.

(** ** Unpacking sharings *)

Lemma unpack_sharing shares secrets :
  sharing pp (2 * l) shares secrets -> unpack pp shares = secrets.
Proof.
move=> [c [le_c -> ->]]; rewrite /unpack -/(encode c) -/(decode c).
have le_n : (size c <= n)%N by rewrite (ppn ok); lia.
rewrite ifft_share // -take_fft_secret //; congr take.
rewrite -fft_resize -[in RHS]fft_resize; congr fft.
apply: (@eq_from_nth _ 0) => [|i]; rewrite !size_resize // => lt_i.
rewrite !nth_resize lt_i; case: ltnP => // le_i.
by rewrite nth_default //; exact: leq_trans le_n le_i.
Qed.

Lemma unpack2_sharing (dbg : bool) d shares secrets : (d + dbg <= n)%N ->
  sharing pp d shares secrets -> unpack2 dbg pp shares = Ok secrets.
Proof.
move=> le_d [c [le_c -> ->]]; rewrite /unpack2 -/(encode c) -/(decode c).
have le_n : (size c <= n)%N by lia.
rewrite ifft_share // /dassert (ppt ok) addnn.
have -> : (0 < l.*2)%N by have := pp_l_gt0; lia.
rewrite implybT [rbind _ _]/=.
have -> : (dbg ==> all (fun x => x == 0) (drop (2 * l.*2 - 1) (resize 0 n c))).
  case: dbg le_d => //= le_d; apply/allP => x /(nthP 0) [i].
  rewrite size_drop size_resize nth_drop nth_resize => lt_i <-.
  case: ifP => // _; rewrite nth_default ?eqxx //.
  have := ppn ok; have := pp_l_gt0; move: (p_l pp) (p_n pp) (size c) le_d le_c => ? ? ?; lia.
rewrite [rbind _ _]/= -[in RHS]every_other_secret2 //; congr every_other.
by rewrite -[in RHS]fft_resize (pp_secret2_size ok) -(ppn ok).
Qed.

Lemma parties_points (parties : seq nat) : all (fun q => q < n)%N parties ->
  mapM (fun i => let! q := vget parties i in vget (elements (p_share pp)) q)
       (iota 0 (size parties)) = Ok [seq share_pt pp q | q <- parties].
Proof.
move=> /allP lt_p.
set f := (X in mapM X _).
rewrite (@mapM_ok _ _ f (fun i => share_pt pp (nth 0%N parties i))).
  by rewrite (map_comp (share_pt pp) (nth 0%N parties)) map_nth_iota0 // take_size.
move=> i0 i; rewrite size_iota => lt_i; rewrite nth_iota // add0n /f.
rewrite (vget_nth 0%N) // [rbind _ _]/=.
have := lt_p _ (mem_nth 0%N lt_i) => lt_q.
rewrite (vget_nth 0) ?size_mkseq ?share_size // nth_mkseq ?share_size //.
by rewrite element_share.
Qed.

Lemma uniq_points (parties : seq nat) : uniq parties -> all (fun q => q < n)%N parties ->
  uniq [seq share_pt pp q | q <- parties].
Proof.
move=> u_p /allP lt_p; rewrite map_inj_in_uniq // => i j /lt_p lt_i /lt_p lt_j /eqP.
by rewrite share_pt_eq // => /eqP.
Qed.

Lemma points_neq0 (parties : seq nat) : 0 \notin [seq share_pt pp q | q <- parties].
Proof. by apply/mapP => -[q _ /eqP]; rewrite eq_sym (negPf (share_pt_neq0 q)). Qed.

(** Any at least [d] shares of distinct parties, in any order. *)
Lemma lagrange_unpack_sharing (dbg : bool) d shares secrets (parties : seq nat) :
  sharing pp d shares secrets ->
  uniq parties -> all (fun q => q < n)%N parties -> (d <= size parties)%N ->
  (dbg -> 4 * l - 2 < size parties)%N ->
  lagrange_unpack dbg pp [seq shares`_q | q <- parties] parties = Ok secrets.
Proof.
move=> [c [le_c -> ->]] u_p lt_p le_d H.
rewrite /lagrange_unpack -/(encode c) -/(decode c) /dassert size_map eqxx implybT.
rewrite (ppt ok) addnn.
have -> : (0 < l.*2)%N by have := pp_l_gt0; lia.
have -> : (dbg ==> (2 * (l.*2 - 1) < size parties))%N by case: dbg H => //= /(_ isT); lia.
rewrite implybT [rbind _ _]/= parties_points // [rbind _ _]/=.
have -> : [seq (encode c)`_q | q <- parties] =
          [seq pval x c | x <- [seq share_pt pp q | q <- parties]].
  rewrite -map_comp; apply/eq_in_map => q q_p /=.
  by rewrite nth_encode // (allP lt_p).
have le_p : (size parties <= n)%N.
  rewrite -(size_iota 0 n); apply: uniq_leq_size => // q q_p.
  by rewrite mem_iota (allP lt_p).
rewrite lagrange_unique ?uniq_points ?points_neq0 ?size_map ?(leq_trans le_c) //.
rewrite [rbind _ _]/= -[in RHS]every_other_secret2; last first.
  by apply: leq_trans le_p; exact: leq_trans le_d.
congr every_other; rewrite !fft_mkseq.
- apply: eq_map => i; apply: eq_pval => j.
  rewrite nth_truncate_zeros nth_resize; case: ltnP => // le_j.
  rewrite nth_default //; apply: leq_trans le_j; exact: leq_trans le_d.
- rewrite (pp_secret2_size ok) -(ppn ok); apply: leq_trans le_p; exact: leq_trans le_d.
- apply: leq_trans (size_truncate_zeros _) _.
  by rewrite size_resize (pp_secret2_size ok) -(ppn ok).
Qed.

Lemma unpack_missing_full (dbg : bool) d shares secrets (parties : seq nat) :
  sharing pp d shares secrets -> (d + dbg <= n)%N -> size parties = n ->
  unpack_missing_shares dbg pp shares parties = Ok secrets.
Proof.
move=> Hs le_d sp; rewrite /unpack_missing_shares.
have -> : size shares = n by case: Hs => c [_ -> _]; rewrite size_mkseq.
by rewrite sp /dassert eqxx implybT [rbind _ _]/= (unpack2_sharing _ Hs).
Qed.

Lemma unpack_missing_partial (dbg : bool) d shares secrets (parties : seq nat) :
  sharing pp d shares secrets ->
  uniq parties -> all (fun q => q < n)%N parties -> (d <= size parties < n)%N ->
  (dbg -> 4 * l - 2 < size parties)%N ->
  unpack_missing_shares dbg pp [seq shares`_q | q <- parties] parties = Ok secrets.
Proof.
move=> Hs u_p lt_p /andP[le_d lt_n] H; rewrite /unpack_missing_shares size_map /dassert eqxx.
rewrite implybT [rbind _ _]/=; have -> : (size parties == n) = false by apply/eqP; lia.
exact: lagrange_unpack_sharing Hs _ _ _ _.
Qed.

(** ** Linearity *)

Lemma pval_lin (a : F) x c1 c2 m : (size c1 <= m)%N -> (size c2 <= m)%N ->
  pval x (mkseq (fun i => a *: c1`_i + c2`_i) m) = a *: pval x c1 + pval x c2.
Proof.
move=> le1 le2; rewrite (pval_widen _ le1) (pval_widen _ le2) /pval size_mkseq.
rewrite scaler_sumr -big_split; apply: eq_bigr => i _ /=.
by rewrite nth_mkseq // scalerDr !scalerA mulrC.
Qed.

Lemma sharing_lin (a : F) d (sh1 sec1 sh2 sec2 : seq T) :
  sharing pp d sh1 sec1 -> sharing pp d sh2 sec2 ->
  sharing pp d (zipmap (fun x y => a *: x + y) sh1 sh2)
               (zipmap (fun x y => a *: x + y) sec1 sec2).
Proof.
move=> [c1 [le1 -> ->]] [c2 [le2 -> ->]].
exists (mkseq (fun i => a *: c1`_i + c2`_i) d); split; first by rewrite size_mkseq.
- apply: (@eq_from_nth _ 0); rewrite size_zipmap !size_mkseq minnn // => i lt_i.
  by rewrite (nth_zipmap _ 0 0) ?size_mkseq // !nth_mkseq // pval_lin.
- apply: (@eq_from_nth _ 0); rewrite size_zipmap !size_mkseq minnn // => i lt_i.
  by rewrite (nth_zipmap _ 0 0) ?size_mkseq // !nth_mkseq // pval_lin.
Qed.

Lemma sharing_widen d1 d2 (sh sec : seq T) : (d1 <= d2)%N -> sharing pp d1 sh sec -> sharing pp d2 sh sec.
Proof. by move=> le_d [c [le_c E1 E2]]; exists c; split=> //; apply: leq_trans le_d. Qed.

Lemma sharing_size d (sh sec : seq T) : sharing pp d sh sec -> size sh = n /\ size sec = l.
Proof. by move=> [c [_ -> ->]]; rewrite !size_mkseq. Qed.

(** ** Products *)

Lemma pval_cons x (a : T) c : pval x (a :: c) = a + x *: pval x c.
Proof. by rewrite -!heval_pval. Qed.

Fixpoint conv (a : seq F^o) (b : seq T) : seq T :=
  if a is x :: a' then
    let r := 0 :: conv a' b in
    mkseq (fun i => x *: b`_i + r`_i) (maxn (size b) (size r))
  else [::].

Lemma pval_conv x a b : pval x (conv a b) = pval x a *: pval x b.
Proof.
elim: a => [|y a IH]; first by rewrite /pval !big_ord0 scale0r.
rewrite [conv _ _]/= pval_lin ?leq_maxl ?leq_maxr // pval_cons IH add0r scalerA -scalerDl.
by congr (_ *: _); rewrite -[RHS]heval_pval /= heval_pval.
Qed.

Lemma size_conv a b : (0 < size b)%N -> (size (conv a b) <= (size a + size b).-1)%N.
Proof.
move=> b0; elim: a => [|x a IH] /=; first by [].
rewrite size_mkseq /= geq_max; apply/andP; split; first by rewrite leq_addl.
by move: IH; lia.
Qed.

Lemma sharing_mul d1 d2 (sa : seq F^o) (a : seq F^o) (sb b : seq T) : (0 < d2)%N ->
  sharing pp d1 sa a -> sharing pp d2 sb b ->
  sharing pp (d1 + d2).-1 (zipmap (fun x y => x *: y) sa sb) (zipmap (fun x y => x *: y) a b).
Proof.
move=> d20 [ca [lea -> ->]] [cb [leb -> ->]].
pose cb' := resize 0 d2 cb.
have Eb x : pval x cb = pval x cb' by rewrite pval_resize.
exists (conv ca cb'); split.
- apply: leq_trans (size_conv _ _) _; rewrite size_resize //.
  by rewrite -!subn1 leq_sub2r // leq_add2r.
- apply: (@eq_from_nth _ 0); rewrite size_zipmap !size_mkseq minnn // => i lt_i.
  by rewrite (nth_zipmap _ 0 0) ?size_mkseq // !nth_mkseq // pval_conv Eb.
- apply: (@eq_from_nth _ 0); rewrite size_zipmap !size_mkseq minnn // => i lt_i.
  by rewrite (nth_zipmap _ 0 0) ?size_mkseq // !nth_mkseq // pval_conv Eb.
Qed.

(** ** Deterministic packing *)

Lemma det_pack_release secrets : (size secrets <= l)%N ->
  det_pack false pp secrets = pack_pts false pp (secrets ++ nseq (l - size secrets) 0) (nseq l 0).
Proof.
move=> le_s; rewrite /det_pack /pack_pts /dassert !implyFb [rbind _ _]/= (ppt ok).
rewrite [in RHS]/rbind; congr (Ok (fft _ _)).
rewrite -ifft_resize -[in RHS]ifft_resize; congr ifft.
apply: (@eq_from_nth _ 0) => [|i]; rewrite !size_resize // => lt_i.
rewrite !nth_resize lt_i !nth_cat !nth_nseq !if_same.
rewrite size_cat size_nseq subnKC //; case: (ltnP i l) => lt_il //.
by case: (ltnP i (size secrets)) => H //; rewrite nth_default.
Qed.

Lemma det_pack_full dbg secrets : size secrets = l ->
  det_pack dbg pp secrets = pack_pts dbg pp secrets (nseq l 0).
Proof.
move=> ss; have [c [sc Ec Fc]] := pack_pts_encode dbg ss (size_nseq l (0 : T)).
have [c' [sc' Ec' Fc']] := pack_pts_encode false ss (size_nseq l (0 : T)).
have -> : det_pack dbg pp secrets = det_pack false pp secrets.
  by rewrite /det_pack /dassert ss eqxx !implybT.
rewrite det_pack_release ?ss // subnn cats0 Ec' Ec; congr (Ok (encode _)).
rewrite -(fftK (pp_secret_ok ok) (c := c)) ?(pp_secret_size ok) //.
by rewrite Fc -Fc' fftK ?(pp_secret_size ok) //; exact: pp_secret_ok.
Qed.

Lemma det_pack_debug_panic secrets : size secrets != l -> det_pack true pp secrets = Panic.
Proof. by move=> /negPf ss; rewrite /det_pack /dassert ss. Qed.

(** ** Packing a vector that is too long: the randomness is truncated away (sha256.rs) *)

Lemma pval_const x (r : T) : pval x [:: r] = r.
Proof. by rewrite /pval big_ord1 expr0 scale1r. Qed.

Lemma pack_overlong (secrets rands : seq T) (r : T) :
  (2 * l <= size secrets)%N -> all (pred1 r) (take (2 * l) secrets) ->
  pack_pts false pp secrets rands = Ok (nseq n r).
Proof.
move=> le_s /all_pred1P; rewrite size_takel // => Es.
rewrite /pack_pts /dassert !implyFb [rbind _ _]/=; congr Ok.
have -> : ifft (p_secret pp) (secrets ++ rands) = resize 0 (2 * l) [:: r].
  rewrite -(fftK (pp_secret_ok ok) (c := resize 0 (2 * l) [:: r])); last first.
    by rewrite size_resize (pp_secret_size ok).
  rewrite -ifft_resize; congr ifft.
  rewrite -(pp_secret_size ok) fft_resize fft_mkseq; last first.
    by rewrite (pp_secret_size ok) /=; have := pp_l_gt0; lia.
  rewrite (pp_secret_size ok) /resize.
  have -> : (2 * l - size (secrets ++ rands) = 0)%N by rewrite size_cat; lia.
  rewrite cats0 takel_cat // Es.
  apply: (@eq_from_nth _ 0); rewrite size_nseq ?size_mkseq // => i lt_i.
  by rewrite nth_nseq lt_i nth_mkseq // pval_const.
rewrite fft_share; last by rewrite size_resize (ppn ok); lia.
apply: (@eq_from_nth _ 0); rewrite size_encode ?size_nseq // => i lt_i.
rewrite nth_encode // nth_nseq lt_i pval_resize ?pval_const //=.
by have := pp_l_gt0; lia.
Qed.

(** ** Privacy *)

Lemma secret_share_disjoint j i : ff_generator F ^+ n != 1 -> secret_pt pp j != share_pt pp i.
Proof.
move=> gn; apply: contraNneq gn => E.
have zn : d_gen (p_share pp) ^+ n = 1.
  by rewrite -share_size (prim_expr_order (dok_prim (pp_share_ok ok))).
have zm m : d_gen (p_share pp) ^+ (m * n) = 1 by rewrite mulnC exprM zn expr1n.
have := congr1 (fun x => x ^+ n) E.
by rewrite /secret_pt /share_pt exprMn (pp_secret_gen ok) -!exprM ?mulnA !zm mulr1 => ->.
Qed.

(** interpolation through the l secret points and t share points *)
Definition priv_points (P : seq nat) : seq F :=
  mkseq (secret_pt pp) l ++ [seq share_pt pp q | q <- P].

Lemma priv_points_ok P : ff_generator F ^+ n != 1 -> uniq P -> all (fun q => q < n)%N P ->
  uniq (priv_points P) /\ 0 \notin priv_points P.
Proof.
move=> gn u_P lt_P; split.
  rewrite cat_uniq uniq_points // andbT; apply/andP; split.
    rewrite map_inj_in_uniq ?iota_uniq // => i j; rewrite !mem_iota !add0n /= => lt_i lt_j /eqP.
    by rewrite secret_pt_eq => [/eqP //||]; lia.
  apply/hasPn => x /mapP[q _ ->]; apply/mapP => -[j _ /eqP].
  by rewrite eq_sym (negPf (secret_share_disjoint j q gn)).
rewrite mem_cat negb_or points_neq0 andbT.
by apply/mapP => -[j _ /eqP]; rewrite eq_sym (negPf (secret_pt_neq0 j)).
Qed.

Lemma privacy_exists dbg (P : seq nat) secrets (targets : seq T) :
  ff_generator F ^+ n != 1 -> uniq P -> all (fun q => q < n)%N P -> size P = l ->
  size secrets = l -> size targets = l ->
  exists2 rands, size rands = l & exists2 shares, pack_pts dbg pp secrets rands = Ok shares &
     [seq shares`_q | q <- P] = targets.
Proof.
move=> gn u_P lt_P sP ss st; have [u_x n_x] := priv_points_ok gn u_P lt_P.
have sx : size (priv_points P) = (2 * l)%N by rewrite size_cat size_mkseq size_map sP; lia.
have sy : size (secrets ++ targets) = size (priv_points P) by rewrite sx size_cat ss st; lia.
pose c := mkseq (lag_coef (priv_points P) (secrets ++ targets)) (2 * l).
have Hc i := lagrange_values (ys := secrets ++ targets) (i := i) u_x n_x sy.
rewrite sx -/c in Hc.
have sc : size c = (2 * l)%N by rewrite size_mkseq.
pose rands := drop l (fft (p_secret pp) c).
have sr : size rands = l by rewrite size_drop size_fft (pp_secret_size ok); lia.
have Hs j : (j < l)%N -> pval (secret_pt pp j) c = secrets`_j.
  move=> lt_j; have := Hc j; rewrite nth_cat size_mkseq lt_j nth_mkseq // nth_cat ss lt_j.
  by apply; lia.
have Ht i : (i < l)%N -> pval (share_pt pp (nth 0%N P i)) c = targets`_i.
  move=> lt_i; have := Hc (l + i)%N; rewrite !nth_cat size_mkseq ss.
  have -> : (l + i < l)%N = false by lia.
  rewrite addKn (nth_map 0%N) ?sP //.
  by apply; lia.
have dc : decode c = secrets.
  apply: (@eq_from_nth _ 0) => [|j]; rewrite size_decode ?ss // => lt_j.
  by rewrite nth_mkseq // Hs.
have Ec : fft (p_secret pp) c = secrets ++ rands.
  by rewrite -(cat_take_drop l (fft _ _)) take_fft_secret ?sc // dc.
exists rands => //; have [c' [sc' E Fc']] := pack_pts_encode dbg ss sr.
have Ecc : c' = c.
  rewrite -(fftK (pp_secret_ok ok) (c := c)) ?(pp_secret_size ok) //.
  by rewrite Ec -Fc' fftK ?(pp_secret_size ok) //; exact: pp_secret_ok.
exists (encode c'); rewrite // Ecc.
apply: (@eq_from_nth _ 0); rewrite size_map sP ?st // => i lt_i.
rewrite (nth_map 0%N) ?sP // nth_encode ?Ht //.
by apply: (allP lt_P); apply: mem_nth; rewrite sP.
Qed.

(** two polynomials with at most [m] coefficients agreeing in [m] points are equal *)
Lemma pval_inj xs c1 c2 : uniq xs -> 0 \notin xs -> size c1 = size xs -> size c2 = size xs ->
  (forall x, x \in xs -> pval x c1 = pval x c2) -> c1 = c2.
Proof.
move=> u_x n_x s1 s2 E.
have := lagrange_unique (c := c1) u_x n_x; rewrite s1 leqnn => /(_ isT).
have := lagrange_unique (c := c2) u_x n_x; rewrite s2 leqnn => /(_ isT).
have -> : [seq pval x c1 | x <- xs] = [seq pval x c2 | x <- xs].
  by apply/eq_in_map => x /E.
rewrite !resize_id // => -> [E2].
apply: (@eq_from_nth _ 0) => [|i _]; first by rewrite s1 s2.
by rewrite -nth_truncate_zeros -E2 nth_truncate_zeros.
Qed.

Lemma privacy_unique dbg (P : seq nat) secrets (rands1 rands2 sh1 sh2 : seq T) :
  ff_generator F ^+ n != 1 -> uniq P -> all (fun q => q < n)%N P -> size P = l ->
  size secrets = l -> size rands1 = l -> size rands2 = l ->
  pack_pts dbg pp secrets rands1 = Ok sh1 -> pack_pts dbg pp secrets rands2 = Ok sh2 ->
  [seq sh1`_q | q <- P] = [seq sh2`_q | q <- P] -> rands1 = rands2.
Proof.
move=> gn u_P lt_P sP ss s1 s2; have [u_x n_x] := priv_points_ok gn u_P lt_P.
have sx : size (priv_points P) = (2 * l)%N by rewrite size_cat size_mkseq size_map sP; lia.
have [c1 [sc1 -> Fc1]] := pack_pts_encode dbg ss s1.
have [c2 [sc2 -> Fc2]] := pack_pts_encode dbg ss s2.
move=> [<-] [<-] /eq_in_map Esh.
suff E : c1 = c2.
  by move: Fc1; rewrite E Fc2 => /eqP; rewrite eqseq_cat // eqxx /= => /eqP.
apply: (pval_inj u_x n_x); rewrite ?sx // => x; rewrite mem_cat => /orP[/mapP[j]|/mapP[q q_P ->]].
  rewrite mem_iota add0n /= => lt_j ->.
  have D1 := fft_secret_decode _ Fc1 ss; have D2 := fft_secret_decode _ Fc2 ss.
  rewrite -(nth_mkseq 0 (fun j => pval (secret_pt pp j) c1) lt_j) -/(decode c1) D1 ?sc1 //.
  by rewrite -(nth_mkseq 0 (fun j => pval (secret_pt pp j) c2) lt_j) -/(decode c2) D2 ?sc2.
by rewrite -!nth_encode ?Esh // (allP lt_P).
Qed.

End Pss.
