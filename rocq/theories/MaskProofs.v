(** Masked shares: every message can be explained by exactly one mask. *)
From mathcomp Require Import all_ssreflect all_algebra.
From mathcomp Require Import zify.
From Verif Require Import RingTac Base ModelField ModelUtils ModelPss ModelPack ModelFft ModelNet.
From Verif Require Import ModelProto Spec SpecNet SpecProto.
From Verif Require Import FieldProofs UtilsProofs PssProofs PackProofs FftProofs ProtoProofs DegProofs.
Set Implicit Arguments.
Unset Strict Implicit.
Unset Printing Implicit Defensive.
Import GRing.Theory.
Local Open Scope ring_scope.

Lemma choice_upto A (x0 : A) m (P : nat -> A -> Prop) : (forall e, (e < m)%N -> exists x, P e x) ->
  exists R, forall e, (e < m)%N -> P e (R e).
Proof.
elim: m => [|m IH] H; first by exists (fun=> x0).
have [|R HR] := IH; first by move=> e lt_e; apply: H; apply: ltnW.
have [x Hx] := H m (ltnSn m).
exists (fun e => if e == m then x else R e) => e lt_e; case: (altP (e =P m)) => [->//|ne].
by apply: HR; lia.
Qed.

Section Mask.
Variable F : fftField.
Variable T : lmodType F.
Variables (pp : pss F) (ok : pp_ok pp).
Local Notation l := (p_l pp).
Local Notation n := (p_n pp).
Local Notation t := (p_t pp).

(** every sharing of degree below [2l] is the result of [pack] *)
Lemma pack_hit f g : shared pp (2 * l) f g ->
  exists r : rng T, forall dbg, pack dbg pp (mkseq g l) r = Ok (mkseq f n).
Proof.
move=> [c0 [sc0 Hf Hg]]; pose c := resize 0 (2 * l) c0.
have sc : size c = (2 * l)%N by rewrite size_resize.
have Ec x : pval x c0 = pval x c by rewrite pval_resize.
pose rr i := pval (secret_pt pp (l + i)) c.
have Efft : fft (p_secret pp) c = mkseq g l ++ mkseq rr l.
  rewrite fft_mkseq ?(pp_secret_size ok) ?sc //.
  apply: (@eq_from_nth _ 0); rewrite ?size_cat !size_mkseq; first by lia.
  move=> i lt_i; rewrite nth_cat size_mkseq (nth_mkseq _ _ lt_i) (element_secret ok); case: ifP => il.
    by rewrite nth_mkseq // Hg // Ec.
  by rewrite nth_mkseq /rr; [congr (pval (secret_pt pp _) _)|]; lia.
exists rr => dbg; rewrite /pack (ppt ok).
have [c1 [sc1 -> E1]] := pack_pts_encode ok dbg (size_mkseq g l) (size_mkseq rr l).
have -> : c1 = c.
  by rewrite -(fftK (pp_secret_ok ok) (c := c1)) ?E1 -?Efft ?fftK ?(pp_secret_size ok) //; apply: pp_secret_ok.
by congr Ok; apply: eq_mkseq_in => i lt_i; rewrite Hf // Ec.
Qed.

(** the shares of the clients determine secrets and randomness *)
Lemma pack_clients dbg (s1 s2 : seq T) (r1 r2 : rng T) sh1 sh2 : size s1 = l -> size s2 = l ->
  pack dbg pp s1 r1 = Ok sh1 -> pack dbg pp s2 r2 = Ok sh2 ->
  (forall p, (0 < p < n)%N -> sh1`_p = sh2`_p) -> s1 = s2 /\ forall i, (i < t)%N -> r1 i = r2 i.
Proof.
move=> z1 z2; rewrite /pack; have En := ppn ok; have l0 := pp_l_gt0 ok.
have sr (r : rng T) : size (mkseq r t) = l by rewrite size_mkseq (ppt ok).
have [c1 [sc1 -> E1]] := pack_pts_encode ok dbg z1 (sr r1).
have [c2 [sc2 -> E2]] := pack_pts_encode ok dbg z2 (sr r2).
move=> [<-] [<-] H.
suff E : c1 = c2.
  move: E1; rewrite E E2 => /eqP; rewrite eqseq_cat ?z1 // => /andP[/eqP-> /eqP Er]; split=> // i lt_i.
  by apply/esym; apply: mkseq_inj_in Er lt_i.
pose ps := iota 1 (2 * l).
have lt_ps q : q \in ps -> (0 < q < n)%N by rewrite mem_iota; lia.
have u_ps : uniq [seq share_pt pp q | q <- ps].
  rewrite map_inj_in_uniq ?iota_uniq // => i j /lt_ps/andP[_ li] /lt_ps/andP[_ lj] /eqP.
  by rewrite share_pt_eq // => /eqP.
apply: (pval_inj u_ps); rewrite ?size_map ?size_iota //.
  exact: points_neq0.
move=> x /mapP[q /lt_ps qn ->]; have [_ lt_q] := andP qn; have := H q qn.
by rewrite !nth_encode.
Qed.

(** *** Vectors *)

Lemma pack_vecE dbg (v : seq T) r m : (0 < m)%N -> size v = (m * l)%N ->
  rbind (pack_vec dbg pp v r) (@transpose _) =
  Ok (mkseq (fun p => mkseq (fun e => (get_ok [::] (pack dbg pp (mkseq (blocks pp v e) l)
                                                    (rskip (e * t) r)))`_p) m) n).
Proof.
move=> m0 sv; have l0 := pp_l_gt0 ok; have n0 : (0 < n)%N by apply: ltnW (n_gt1 ok).
rewrite /pack_vec /rassert l0 [rbind (Ok _) _]/= sv modnMl eqxx /dassert implybT [rbind (Ok _) _]/=.
pose sh e := get_ok [::] (pack dbg pp (mkseq (blocks pp v e) l) (rskip (e * t) r)).
have Esz : size (chunks l v) = m by rewrite size_chunks sv div_ceil_mul.
have Hp e : pack dbg pp (mkseq (blocks pp v e) l) (rskip (e * t) r) = Ok (sh e) /\ size (sh e) = n.
  rewrite /sh.
  by have [s [-> sz _]] := pack_sharing ok dbg (rskip (e * t) r) (size_mkseq (blocks pp v e) l).
have -> : mapM (fun i => let! c := vget (chunks l v) i in pack dbg pp c (rskip (i * t) r))
   (iota 0 (size (chunks l v))) = Ok (mkseq sh m).
  rewrite Esz; apply: mapM_ok => i0 i; rewrite size_iota => lt_i; rewrite nth_iota // add0n.
  rewrite (vget_nth [::]) ?Esz // [rbind (Ok _) _]/=.
  suff -> : nth [::] (chunks l v) i = mkseq (blocks pp v i) l by have [-> _] := Hp i.
  rewrite -[LHS](mkseq_nth 0) (size_nth_chunks ok sv) //.
  apply: eq_mkseq_in => j lt_j; rewrite nth_chunks ?sv ?div_ceil_mul //.
  by rewrite nth_take // nth_drop.
rewrite [rbind (Ok _) _]/= (transpose_rect 0 m0 n0).
  by congr Ok; apply: eq_map => p; apply: eq_mkseq_in => e lt_e; rewrite nth_mkseq.
by split=> [|i lt_i]; rewrite ?size_mkseq // nth_mkseq //; have [_ ->] := Hp i.
Qed.

Lemma pack_vec_hit m f sec : (0 < m)%N -> vsharing pp (2 * l) m f sec ->
  exists r : rng T, forall dbg, rbind (pack_vec dbg pp
     (mkseq (fun i => sec (i %/ l)%N (i %% l)%N) (m * l)) r) (@transpose _) = Ok (mkseq f n).
Proof.
move=> m0 /vsharingP[H1 H2]; have l0 := pp_l_gt0 ok; have n0 : (0 < n)%N by apply: ltnW (n_gt1 ok).
have [e lt_e|R HR] := choice_upto (fun=> 0) (m := m) (P := fun e (r : rng T) => forall dbg,
    pack dbg pp (mkseq (sec e) l) r = Ok (mkseq (fun p => (f p)`_e) n)).
  exact: pack_hit (H2 e lt_e).
have t0 : (0 < t)%N by rewrite (ppt ok).
exists (fun i => R (i %/ t)%N (i %% t)%N) => dbg; rewrite (pack_vecE dbg _ m0) ?size_mkseq //; congr Ok.
apply: eq_mkseq_in => p lt_p; apply: (@eq_from_nth _ 0); rewrite size_mkseq ?H1 // => e lt_e.
rewrite nth_mkseq //.
have -> : pack dbg pp (mkseq (blocks pp (mkseq (fun i => sec (i %/ l)%N (i %% l)%N) (m * l)) e) l)
   (rskip (e * t) (fun i => R (i %/ t)%N (i %% t)%N)) = pack dbg pp (mkseq (sec e) l) (R e).
  rewrite /pack; congr pack_pts; apply: eq_mkseq_in => j lt_j.
    rewrite /blocks nth_mkseq; last by nia.
    by rewrite divnMDl // modnMDl divn_small // addn0 modn_small.
  by rewrite /rskip divnMDl // modnMDl (divn_small lt_j) addn0 (modn_small lt_j).
by rewrite HR //= nth_mkseq.
Qed.

Lemma pack_vec_clients dbg m (v1 v2 : seq T) (r1 r2 : rng T) f1 f2 : (0 < m)%N ->
  size v1 = (m * l)%N -> size v2 = (m * l)%N ->
  rbind (pack_vec dbg pp v1 r1) (@transpose _) = Ok (mkseq f1 n) ->
  rbind (pack_vec dbg pp v2 r2) (@transpose _) = Ok (mkseq f2 n) ->
  (forall p, (0 < p < n)%N -> f1 p = f2 p) -> v1 = v2 /\ forall i, (i < m * t)%N -> r1 i = r2 i.
Proof.
move=> m0 z1 z2; rewrite (pack_vecE dbg _ m0 z1) (pack_vecE dbg _ m0 z2) => Q1 Q2 H; have E1 := Ok_inj Q1; have E2 := Ok_inj Q2.
have l0 := pp_l_gt0 ok; have t0 : (0 < t)%N by rewrite (ppt ok).
have X e : (e < m)%N -> mkseq (blocks pp v1 e) l = mkseq (blocks pp v2 e) l /\
    forall i, (i < t)%N -> rskip (e * t) r1 i = rskip (e * t) r2 i.
  move=> lt_e; have [s1 [P1 _ _]] := pack_sharing ok dbg (rskip (e * t) r1) (size_mkseq (blocks pp v1 e) l).
  have [s2 [P2 _ _]] := pack_sharing ok dbg (rskip (e * t) r2) (size_mkseq (blocks pp v2 e) l).
  apply: (pack_clients _ _ P1 P2); rewrite ?size_mkseq // => p pI; have [_ lt_p] := andP pI.
  have /(congr1 (nth 0 ^~ e)) /= := mkseq_inj_in E1 lt_p.
  have /(congr1 (nth 0 ^~ e)) /= := mkseq_inj_in E2 lt_p.
  by rewrite !nth_mkseq // P1 P2 /= => -> ->; rewrite H.
split=> [|i lt_i].
  apply: (@eq_from_nth _ 0); rewrite ?z1 ?z2 // => i lt_i.
  have lt_e : (i %/ l < m)%N by rewrite ltn_divLR.
  have [/mkseq_inj_in/(_ (ltn_pmod i l0)) + _] := X _ lt_e.
  by rewrite /blocks -divn_eq.
have lt_e : (i %/ t < m)%N by rewrite ltn_divLR.
have [_ /(_ _ (ltn_pmod i t0))] := X _ lt_e.
by rewrite /rskip -divn_eq.
Qed.

(** *** Masked vectors *)

Definition masked (y ins : nat -> seq T) (p : nat) : seq T := zipmap +%R (y p) (ins p).

Lemma vsharing_sub d m f g (sf sg : nat -> nat -> T) : vsharing pp d m f sf -> vsharing pp d m g sg ->
  vsharing pp d m (fun p => mkseq (fun e => (f p)`_e - (g p)`_e) m) (fun e j => sf e j - sg e j).
Proof.
move=> /vsharingP[H1 H2] /vsharingP[H3 H4]; apply/vsharingP; split=> [p lt_p|e lt_e].
  by rewrite size_mkseq.
apply: shared_ext (shared_lin (-1) (H4 e lt_e) (H2 e lt_e)) => i lt_i; last by rewrite scaleN1r addrC.
by rewrite nth_mkseq // scaleN1r addrC.
Qed.

Lemma mask_switch dbg m y sec y' sec' (v : seq T) r ins : (0 < m)%N ->
  vsharing pp (2 * l) m y sec -> vsharing pp (2 * l) m y' sec' -> size v = (m * l)%N ->
  rbind (pack_vec dbg pp v r) (@transpose _) = Ok (mkseq ins n) ->
  exists (v' : seq T) (r' : rng T), [/\ size v' = (m * l)%N,
    exists2 ins', rbind (pack_vec dbg pp v' r') (@transpose _) = Ok (mkseq ins' n) &
      forall p, (p < n)%N -> masked y ins p = masked y' ins' p &
    forall v'' r'' ins'', size v'' = (m * l)%N ->
      rbind (pack_vec dbg pp v'' r'') (@transpose _) = Ok (mkseq ins'' n) ->
      (forall p, (0 < p < n)%N -> masked y ins p = masked y' ins'' p) ->
      v'' = v' /\ forall i, (i < m * t)%N -> r'' i = r' i].
Proof.
move=> m0 Hy Hy' sv Ei.
have Hi : vsharing pp (2 * l) m ins (blocks pp v).
  have [out [E H]] := pack_vec_deal ok dbg r m0 sv.
  apply: vsharing_ext H => // p lt_p; rewrite E in Ei; have E' := Ok_inj Ei.
  exact: mkseq_inj_in E' lt_p.
have Ht := vsharing_sub (vsharing_add Hy Hi) Hy'.
set f := (X in vsharing _ _ _ X _) in Ht; set sf := (X in vsharing _ _ _ _ X) in Ht.
have [r' Er] := pack_vec_hit m0 Ht; set v' := mkseq _ _ in Er.
have sv' : size v' = (m * l)%N by rewrite size_mkseq.
have Sy p : (p < n)%N -> size (y p) = m by case: Hy => H _ /H.
have Sy' p : (p < n)%N -> size (y' p) = m by case: Hy' => H _ /H.
have Si p : (p < n)%N -> size (ins p) = m by case: Hi => H _ /H.
exists v', r'; split=> //.
  exists f => // p lt_p; rewrite /masked; apply: (@eq_from_nth _ 0).
    by rewrite !size_zipmap size_mkseq Sy // Sy' // Si.
  move=> i; rewrite size_zipmap Sy // Si // minnn => lt_i.
  rewrite [RHS](nth_zipmap _ 0 0) ?Sy' ?size_mkseq //.
  by rewrite nth_mkseq // addrCA subrr addr0.
move=> v'' r'' ins'' sv'' E'' H; apply: (pack_vec_clients m0 _ _ E'' (Er dbg)) => // p pI.
have [p0 lt_p] := andP pI; have := H p pI; rewrite /masked => E.
have S'' : size (ins'' p) = m.
  have [out [E1 [H1 _]]] := pack_vec_deal ok dbg r'' m0 sv''.
  by rewrite E'' in E1; have E2 := Ok_inj E1; rewrite (mkseq_inj_in E2 lt_p) H1.
apply: (@eq_from_nth _ 0); rewrite ?size_mkseq // S'' => i lt_i.
rewrite nth_mkseq // E (nth_zipmap _ 0 0) ?Sy' ?S'' //.
by rewrite addrAC subrr add0r.
Qed.

End Mask.

(** ** What the samplers return *)
Section Samplers.
Variable F : fftField.
Variables (pp : pss F) (ok : pp_ok pp) (lam b : nat).
Hypothesis El : p_l pp = (2 ^ lam)%N.
Local Notation l := (p_l pp).
Local Notation n := (p_n pp).
Local Notation N := (2 ^ (b + lam))%N.
Local Notation Fm := [lmodType F of F^o].

Lemma fft_sampleE dbg rearrange g gen values r_in r_out : N.-primitive_root gen ->
  exists ins outs,
    rbind (pack_vec (T := Fm) dbg pp (mkseq values N) r_in) (@transpose _) = Ok (mkseq ins n) /\
    fft_mask_sample dbg pp rearrange g gen N values r_in r_out =
    Ok (mkseq (fun p => FftMask (ins p) (outs p)) n).
Proof.
move=> pr; have m0 : (0 < 2 ^ b)%N by rewrite expn_gt0.
have Em : (2 ^ b * l = N)%N by rewrite El expnD.
have sv : size (mkseq values N) = (2 ^ b * l)%N by rewrite size_mkseq Em.
have [ins [Ei _]] := pack_vec_deal (T := Fm) ok dbg r_in m0 sv.
rewrite /fft_mask_sample; move: Ei; case: (pack_vec _ _ _ _) => //= shs Ei; rewrite Ei.
rewrite (fft2_kfft El (size_mkseq _ _) pr) /= shiftE size_mkseq.
set w := map _ _; have sw : size w = N by rewrite size_map size_mkseq.
have [outs [Eo _]] := share_out_deal ok El dbg rearrange r_out sw.
exists ins, outs; split=> //; rewrite Eo /=; congr Ok.
apply: (@eq_from_nth _ (FftMask [::] [::])); rewrite size_zipmap !size_mkseq minnn // => p lt_p.
by rewrite (nth_zipmap _ [::] [::]) ?size_mkseq // !nth_mkseq.
Qed.

Variable T : lmodType F.

Lemma degred_sampleE dbg (gen : T) m values r_in r_out : (0 < m)%N ->
  exists ins outs,
    rbind (pack_vec dbg pp (mkseq (fun i => values i *: gen) (m * l)) r_in) (@transpose _) =
      Ok (mkseq ins n) /\
    (forall p, (p < n)%N -> size (ins p) = m /\ size (outs p) = m) /\
    degred_mask_sample dbg pp gen m values r_in r_out =
    Ok (mkseq (fun p => DegRedMask (ins p) (outs p)) n).
Proof.
move=> m0; have sz (f : nat -> T) : size (mkseq f (m * l)) = (m * l)%N by rewrite size_mkseq.
rewrite /degred_mask_sample.
have [ins [Ei [Hi _]]] := pack_vec_deal ok dbg r_in m0 (sz (fun i => values i *: gen)).
have [outs [Eo [Ho _]]] := pack_vec_deal ok dbg r_out m0 (sz (fun i => 0 - values i *: gen)).
exists ins, outs; split=> //; split=> [p lt_p|]; first by rewrite Hi // Ho.
move: Ei; case: (pack_vec _ _ _ _) => //= shs ->; rewrite [rbind (Ok _) _]/=.
move: Eo; case: (pack_vec _ _ _ _) => //= shs' ->; rewrite [rbind (Ok _) _]/=; congr Ok.
apply: (@eq_from_nth _ (degred_mask_zero T 0)); rewrite size_zipmap !size_mkseq minnn // => p lt_p.
by rewrite (nth_zipmap _ [::] [::]) ?size_mkseq // !nth_mkseq.
Qed.

End Samplers.

(** ** What the clients send *)

Lemma sends_only_inj A (t : cproc A) m1 m2 : sends_only t m1 -> sends_only t m2 -> m1 = m2.
Proof. by move=> [k1 [-> _]] [k2 [[->] _]]. Qed.

Lemma fft2_sends (F : fftField) dbg (pp : pss F) n me ord cF px mask rearrange g gen r : me != 0%N ->
  sends_only (fft2_with_rearrange dbg pp n me ord cF px mask rearrange g gen r)
    (enc (vec_codec cF) (zipmap +%R px (fm_in mask))).
Proof.
case: me => // me _; rewrite /fft2_with_rearrange /=.
eexists; split; first by reflexivity.
move=> y /=; case: (ModelNet.decode _ y) => [z|e|] /=; by eexists.
Qed.

Lemma deg_red_sends (F : fftField) (T : lmodType F) dbg (pp : pss F) n me ord (cT : codec T) x mask r :
  me != 0%N -> size x = size (dr_in mask) -> size x = size (dr_out mask) ->
  sends_only (deg_red dbg pp n me ord cT x mask r)
    (enc (vec_codec cT) (zipmap +%R x (dr_in mask))).
Proof.
case: me => // me _ E1 E2; rewrite /deg_red /dassert /rassert -E1 -E2 eqxx implybT /=.
eexists; split; first by reflexivity.
move=> y /=; case: (ModelNet.decode _ y) => [z|e|] /=; by eexists.
Qed.
