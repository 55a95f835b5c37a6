(** What a few parties see of vectors of sharings. *)
From mathcomp Require Import all_ssreflect all_algebra.
From mathcomp Require Import zify.
From Verif Require Import RingTac Base ModelField ModelUtils ModelPss ModelPack ModelFft ModelNet.
From Verif Require Import ModelProto ModelQap ModelProve Spec SpecNet SpecProto SpecGroth.
From Verif Require Import FieldProofs UtilsProofs PssProofs PackProofs FftProofs ProtoProofs DegProofs.
From Verif Require Import PssThm MaskProofs QapProofs ProveProofs.
Set Implicit Arguments.
Unset Strict Implicit.
Unset Printing Implicit Defensive.
Import GRing.Theory.
Local Open Scope ring_scope.

Lemma dealing_ext (F : fftField) (T : lmodType F) (pp : pss F) dbg (sec sec' : nat -> nat -> T) m r p :
  (forall e j, (e < m)%N -> (j < p_l pp)%N -> sec e j = sec' e j) ->
  dealing pp dbg sec m r p = dealing pp dbg sec' m r p.
Proof.
move=> E; apply: eq_mkseq_in => e lt_e.
by have -> : mkseq (sec e) (p_l pp) = mkseq (sec' e) (p_l pp) by apply: eq_mkseq_in => j; apply: E.
Qed.

Section Views.
Variable F : fftField.
Variable T : lmodType F.
Variables (dbg : bool) (pp : pss F) (lam : nat).
Hypothesis new : pss_new F dbg (2 ^ lam) = Ok pp.
Hypothesis gn : ff_generator F ^+ p_n pp != 1.
Let ok := pss_new_ok new.
Local Notation l := (p_l pp).
Local Notation n := (p_n pp).
Local Notation t := (p_t pp).
Variable P : seq nat.
Hypotheses (u_P : uniq P) (lt_P : all (fun q => q < p_n pp)%N P).

(** the translation depends only on the difference of the secrets *)
Lemma pack_shift (d : seq T) : size d = l -> (size P <= t)%N ->
  exists delta : rng T, forall s s' r r', size s = l -> size s' = l ->
    (forall j, (j < l)%N -> s'`_j = s`_j + d`_j) ->
    (forall i, (i < t)%N -> r' i = r i + delta i) -> forall p, p \in P ->
    (get_ok [::] (pack dbg pp s' r'))`_p = (get_ok [::] (pack dbg pp s r))`_p.
Proof.
move=> sd sP; have sz : size (nseq l (0 : T)) = l by rewrite size_nseq.
have szt : size (nseq t (0 : T)) = t by rewrite size_nseq.
have [delta [sdl H]] := c06_views_independent new gn u_P lt_P sP sz sd.
have sdl' : size delta = l by rewrite sdl (ppt ok).
have szt' : size (nseq t (0 : T)) = l by rewrite szt (ppt ok).
have [c0 [sc0 E0 _]] := pack_pts_encode ok dbg sz szt'.
have [shd Ed Ev] := H _ _ szt E0.
have Ez : zipmap (fun x y => x + y) (nseq t (0 : T)) delta = delta.
  apply: (@eq_from_nth _ 0); rewrite size_zipmap szt sdl minnn // => i lt_i.
  by rewrite (nth_zipmap _ 0 0) ?szt ?sdl // nth_nseq lt_i add0r.
rewrite Ez in Ed.
have Hz p : p \in P -> shd`_p = 0.
  move=> p_P; move/eq_in_map: (Ev) => /(_ _ p_P) ->.
  have := pack_pts_add ok sz szt' sz szt' E0 E0.
  have -> : zipmap (fun x y => x + y) (nseq l (0 : T)) (nseq l 0) = nseq l 0.
    apply: (@eq_from_nth _ 0); rewrite size_zipmap sz minnn // => i lt_i.
    by rewrite (nth_zipmap _ 0 0) ?sz // nth_nseq lt_i addr0.
  have -> : zipmap (fun x y => x + y) (nseq t (0 : T)) (nseq t 0) = nseq t 0.
    apply: (@eq_from_nth _ 0); rewrite size_zipmap szt minnn // => i lt_i.
    by rewrite (nth_zipmap _ 0 0) ?szt // nth_nseq lt_i addr0.
  rewrite E0 => Q; have /(congr1 (nth 0 ^~ p)) /= := Ok_inj Q.
  have lt_p := allP lt_P _ p_P.
  rewrite (nth_zipmap _ 0 0) ?size_encode // => /eqP.
  by rewrite -subr_eq0 opprD addNKr oppr_eq0 => /eqP.
exists (nth 0 delta) => s s' r r' ss ss' Es Er p p_P.
have szr : size (mkseq r t) = l by rewrite size_mkseq (ppt ok).
have [sh [E sn _]] := pack_sharing ok dbg r ss.
have [shd' [Ed' snd _]] := pack_pts_sharing ok dbg sd sdl'.
have Eq : shd' = shd by apply: Ok_inj; rewrite -Ed' -Ed.
have := pack_pts_add ok ss szr sd sdl' E Ed.
have -> : zipmap (fun x y => x + y) s d = s'.
  apply: (@eq_from_nth _ 0); rewrite size_zipmap ss sd minnn ?ss' // => i lt_i.
  by rewrite (nth_zipmap _ 0 0) ?ss ?sd // Es.
have -> : zipmap (fun x y => x + y) (mkseq r t) delta = mkseq r' t.
  apply: (@eq_from_nth _ 0); rewrite size_zipmap size_mkseq sdl minnn ?size_mkseq // => i lt_i.
  by rewrite (nth_zipmap _ 0 0) ?size_mkseq ?sdl // !nth_mkseq // Er.
rewrite -/(pack dbg pp s' r') => ->; rewrite E /= (nth_zipmap _ 0 0) ?Hz ?addr0 //.
  by rewrite sn (allP lt_P).
by rewrite -Eq snd (allP lt_P).
Qed.

Lemma dealing_translate (d : nat -> nat -> T) m : (size P <= t)%N ->
  exists delta : rng T, forall (sec sec' : nat -> nat -> T) r r',
    (forall e j, (e < m)%N -> (j < l)%N -> sec' e j = sec e j + d e j) ->
    (forall i, (i < m * t)%N -> r' i = r i + delta i) ->
    forall p, p \in P -> dealing pp dbg sec' m r' p = dealing pp dbg sec m r p.
Proof.
move=> sP; have [e _|R HR] := choice_upto (fun=> 0) (m := m) (P := fun e (delta : rng T) =>
    forall s s' r r', size s = l -> size s' = l ->
    (forall j, (j < l)%N -> s'`_j = s`_j + (mkseq (d e) l)`_j) ->
    (forall i, (i < t)%N -> r' i = r i + delta i) -> forall p, p \in P ->
    (get_ok [::] (pack dbg pp s' r'))`_p = (get_ok [::] (pack dbg pp s r))`_p).
  by apply: pack_shift; rewrite ?size_mkseq.
have t0 : (0 < t)%N by rewrite (ppt ok) (pp_l_gt0 ok).
exists (fun i => R (i %/ t)%N (i %% t)%N) => sec sec' r r' Es Er p p_P; apply: eq_mkseq_in => e lt_e.
apply: (HR e lt_e) => //; rewrite ?size_mkseq //.
  by move=> j lt_j; rewrite !nth_mkseq // Es.
move=> i lt_i; rewrite /rskip Er; last by nia.
by rewrite divnMDl // modnMDl (divn_small lt_i) addn0 (modn_small lt_i).
Qed.

Lemma dealing_shift (sec sec' : nat -> nat -> T) m : (size P <= t)%N ->
  exists delta : rng T, forall r r', (forall i, (i < m * t)%N -> r' i = r i + delta i) ->
    forall p, p \in P -> dealing pp dbg sec' m r' p = dealing pp dbg sec m r p.
Proof.
move=> /(dealing_translate (fun e j => sec' e j - sec e j) m)[delta H]; exists delta => r r' Er p p_P.
by apply: H => // e j _ _; rewrite addrC subrK.
Qed.

(** with known random points, [t] shares determine the secrets *)
Lemma known_points (s s' rands sh sh' : seq T) : size P = t ->
  size s = l -> size s' = l -> size rands = t ->
  pack_pts dbg pp s rands = Ok sh -> pack_pts dbg pp s' rands = Ok sh' ->
  (forall p, p \in P -> sh`_p = sh'`_p) -> s = s'.
Proof.
rewrite (ppt ok) => sP ss ss' sr.
have [c1 [sc1 -> Fc1]] := pack_pts_encode ok dbg ss sr.
have [c2 [sc2 -> Fc2]] := pack_pts_encode ok dbg ss' sr.
move=> [<-] [<-] Esh; have l0 := pp_l_gt0 ok.
suff E : c1 = c2.
  by move: Fc1; rewrite E Fc2 => /eqP; rewrite eqseq_cat ?ss ?ss' // => /andP[/eqP].
pose pts := mkseq (fun j => secret_pt pp (l + j)) l ++ [seq share_pt pp q | q <- P].
have u_x : uniq pts.
  rewrite cat_uniq uniq_points // andbT; apply/andP; split.
    rewrite map_inj_in_uniq ?iota_uniq // => i j; rewrite !mem_iota !add0n /= => lt_i lt_j /eqP.
    by rewrite (secret_pt_eq ok) => [/eqP||]; lia.
  apply/hasPn => x /mapP[q _ ->]; apply/mapP => -[j _ /eqP].
  by rewrite eq_sym (negPf (secret_share_disjoint ok (l + j) q gn)).
have n_x : 0 \notin pts.
  rewrite mem_cat negb_or points_neq0 // andbT.
  by apply/mapP => -[j _ /eqP]; rewrite eq_sym (negPf (secret_pt_neq0 ok (l + j))).
have sx : size pts = (2 * l)%N by rewrite size_cat size_mkseq size_map sP; lia.
apply: (pval_inj u_x n_x); rewrite ?sx // => x; rewrite mem_cat => /orP[/mapP[j]|/mapP[q q_P ->]].
  rewrite mem_iota add0n /= => lt_j ->.
  have D (c s1 : seq T) : size c = (2 * l)%N -> size s1 = l -> fft (p_secret pp) c = s1 ++ rands ->
      pval (secret_pt pp (l + j)) c = rands`_j.
    move=> sc s1l; rewrite fft_mkseq ?(pp_secret_size ok) ?sc //.
    move/(congr1 (nth 0 ^~ (l + j)%N)); rewrite nth_mkseq; last by lia.
    rewrite -element_secret // => ->; rewrite nth_cat s1l ifN; last by lia.
    by congr nth; lia.
  by rewrite (D _ _ sc1 ss Fc1) (D _ _ sc2 ss' Fc2).
by rewrite -!nth_encode ?Esh // (allP lt_P).
Qed.

Lemma dealing_known (sec sec' : nat -> nat -> T) m r : size P = t ->
  (forall p, p \in P -> dealing pp dbg sec m r p = dealing pp dbg sec' m r p) ->
  forall e j, (e < m)%N -> (j < l)%N -> sec e j = sec' e j.
Proof.
move=> sP H e j lt_e lt_j.
have z f : size (mkseq f l : seq T) = l by rewrite size_mkseq.
have [sh [E _ _]] := pack_sharing ok dbg (rskip (e * t) r) (z (sec e)).
have [sh' [E' _ _]] := pack_sharing ok dbg (rskip (e * t) r) (z (sec' e)).
apply: (mkseq_inj_in (k := l)) lt_j.
apply: (known_points sP (z _) (z _) (size_mkseq (rskip (e * t) r) t) E E') => p p_P.
by move: (H p p_P) => /mkseq_inj_in/(_ lt_e); rewrite E E'.
Qed.

End Views.

(** ** The functions that deal shares *)
Section Dealers.
Variable F : fftField.
  Local Notation Fm := [lmodType F of F^o].
Variables (pp : pss F) (ok : pp_ok pp) (lam b : nat).
Hypothesis El : p_l pp = (2 ^ lam)%N.
Local Notation l := (p_l pp).
Local Notation n := (p_n pp).
Local Notation t := (p_t pp).
Local Notation m := (2 ^ b)%N.
Local Notation k := (b + lam)%N.

Lemma pack_stridedE dbg (v : seq F) r mm : (0 < mm)%N -> size v = (mm * l)%N ->
  rbind (pack_strided dbg pp (v : seq F^o) r) (@transpose _) =
  Ok (mkseq (dealing (T := Fm) pp dbg (fun e j => v`_(e + j * mm)) mm r) n).
Proof.
move=> m0 sv; have l0 := pp_l_gt0 ok; rewrite /pack_strided /rassert l0 [rbind (Ok _) _]/= sv mulnK //.
apply: (dealing_transpose (T := Fm)) => // e lt_e.
by rewrite (step_by_slots (T := Fm) ok).
Qed.

Lemma share_outE dbg rearrange (v : seq F) r : size v = (2 ^ k)%N ->
  share_out dbg pp rearrange v r =
  Ok (mkseq (dealing (T := Fm) pp dbg (slots (T := Fm) pp rearrange b k v) m r) n).
Proof.
move=> sv; have m0 : (0 < m)%N by rewrite expn_gt0.
have Em : (m * l = 2 ^ k)%N by rewrite El expnD.
rewrite /share_out; case: rearrange; last by rewrite (pack_vecE (T := Fm) ok dbg r m0) // Em.
rewrite (fft_rearrangeP 0 sv) [rbind (Ok _) _]/=.
have sv' : size (mkseq (fun i => v`_(bitrev k i)) (2 ^ k)) = (m * l)%N by rewrite size_mkseq Em.
rewrite (pack_stridedE dbg r m0 sv'); congr Ok; apply: eq_map => p.
apply: (dealing_ext (T := Fm)) => e j lt_e lt_j; rewrite nth_mkseq //= -Em mulnC; nia.
Qed.

Lemma qap_packE dbg (v : seq F) r : size v = (2 ^ k)%N ->
  exists2 packed, qap_pack dbg pp v r = Ok packed &
    forall i, (i < n)%N -> mapM (fun x => vget x i) packed =
      Ok (dealing (T := Fm) pp dbg (strides (T := Fm) b k v) m r i).
Proof.
move=> sv; have m0 : (0 < m)%N by rewrite expn_gt0.
have := share_outE dbg true r sv; rewrite /share_out /qap_pack (fft_rearrangeP 0 sv) [rbind (Ok _) _]/=.
move=> E; have [packed -> Et] := rbind_ok E.
exists packed => // i lt_i; rewrite (transpose_columns Et) //.
Qed.

Lemma qap_pssE dbg (q : qap_t F) r :
  size (q_a q) = (2 ^ k)%N -> size (q_b q) = (2 ^ k)%N -> size (q_c q) = (2 ^ k)%N ->
  let deal_of v r := dealing (T := Fm) pp dbg (strides (T := Fm) b k v) m r in
  qap_pss dbg pp q r = Ok (mkseq (fun p => Qap (num_inputs q) (num_constraints q)
    (deal_of (q_a q) r p) (deal_of (q_b q) (rskip (m * t) r) p)
    (deal_of (q_c q) (rskip (m * t + m * t) r) p) (q_domain q)) n).
Proof.
move=> sa sb sc deal_of; rewrite /qap_pss sa sb.
have -> : (2 ^ k %/ l = m)%N by rewrite El expnD mulnK // expn_gt0.
have [pa -> Ca] := qap_packE dbg r sa.
have [pb -> Cb] := qap_packE dbg (rskip (m * t) r) sb.
have [pc -> Cc] := qap_packE dbg (rskip (m * t + m * t) r) sc.
rewrite [rbind (Ok _) _]/=.
rewrite (mapM_ok (g := fun p => Qap (num_inputs q) (num_constraints q)
    (deal_of (q_a q) r p) (deal_of (q_b q) (rskip (m * t) r) p)
    (deal_of (q_c q) (rskip (m * t + m * t) r) p) (q_domain q))) // => i0 i; rewrite size_iota => lt_i.
by rewrite nth_iota // add0n Ca // Cb // Cc.
Qed.

Lemma witnessE dbg (z : seq F) (r : rng F) :
  pack_from_witness dbg pp z r = Ok (mkseq (dealing (T := Fm) pp dbg
    (blocks (T := Fm) pp z) (div_ceil (size z) l) r) n).
Proof.
have l0 := pp_l_gt0 ok; rewrite /pack_from_witness /rassert l0 [rbind (Ok _) _]/=.
set mm := div_ceil (size z) l; rewrite size_chunks -/mm.
pose sh e := get_ok [::] (pack dbg pp (mkseq (blocks (T := Fm) pp z e) l : seq F^o) (rskip (e * t) r)).
have Esh e : pack dbg pp (mkseq (blocks (T := Fm) pp z e) l : seq F^o) (rskip (e * t) r) = Ok (sh e)
    /\ size (sh e) = n.
  rewrite /sh.
  by have [s [-> ? _]] := pack_sharing (T := Fm) ok dbg (rskip (e * t) r) (size_mkseq (blocks (T := Fm) pp z e) l).
rewrite (@mapM_ok _ _ _ sh) => [|i0 e]; last first.
  rewrite size_iota => lt_e; rewrite nth_iota // add0n (vget_nth [::]) ?size_chunks // [rbind (Ok _) _]/=.
  have [<- _] := Esh e; congr pack; set c := nth [::] (chunks l z) e.
  have le_c : (size c <= l)%N by apply: (size_chunk_le (T := Fm)).
  transitivity (mkseq (nth 0 c) l).
    case: ltnP => H; first by rewrite /resize take_oversize //; apply: (resize_short (T := Fm)).
    by rewrite -[LHS](mkseq_nth 0); congr mkseq; apply/eqP; rewrite eqn_leq le_c.
  apply: eq_mkseq_in => j lt_j; exact: (chunk_slots (T := Fm)).
rewrite [rbind (Ok _) _]/=; apply: mapM_ok => i0 i; rewrite size_iota => lt_i; rewrite nth_iota // add0n.
rewrite /column (mapM_ok (g := fun row : seq F => row`_i)) => [|x0 e].
  by rewrite -map_comp.
rewrite size_mkseq => lt_e; rewrite (set_nth_default [::]) ?size_mkseq // nth_mkseq //.
by apply: vget_nth; have [_ ->] := Esh e.
Qed.

End Dealers.

(** ** The masks of the degree reduction and of the multi-scalar multiplication *)
Section MaskDealers.
Variable F : fftField.
Variable T : lmodType F.
Variables (pp : pss F) (ok : pp_ok pp).
Local Notation l := (p_l pp).
Local Notation n := (p_n pp).
Local Notation t := (p_t pp).

(** party [p]'s masks *)
Definition dmask dbg (gen : T) m (values : rng F) (r_in r_out : rng T) (p : nat) : degred_mask T := DegRedMask
  (dealing pp dbg (fun e j => values (e * l + j)%N *: gen) m r_in p)
  (dealing pp dbg (fun e j => - (values (e * l + j)%N *: gen)) m r_out p).

Definition mmask dbg (gen : T) (values : rng F) (r : rng T) (p : nat) : msm_mask T := MsmMask
  (get_ok [::] (pack dbg pp (mkseq (fun i => values i *: gen) l) r))`_p
  (get_ok [::] (pack dbg pp (nseq l (- \sum_(j < l) values j *: gen)) (rskip t r)))`_p.

Lemma degred_sample_dealing dbg (gen : T) m values r_in r_out : (0 < m)%N ->
  degred_mask_sample dbg pp gen m values r_in r_out = Ok (mkseq (dmask dbg gen m values r_in r_out) n).
Proof.
move=> m0; have sz (f : nat -> T) : size (mkseq f (m * l)) = (m * l)%N by rewrite size_mkseq.
rewrite /degred_mask_sample.
have := pack_vecE ok dbg r_in m0 (sz (fun i => values i *: gen)).
case: (pack_vec _ _ _ _) => //= shs ->.
have := pack_vecE ok dbg r_out m0 (sz (fun i => 0 - values i *: gen)).
case: (pack_vec _ _ _ _) => //= shs' ->; rewrite [rbind (Ok _) _]/=; congr Ok.
apply: (@eq_from_nth _ (degred_mask_zero T 0)); rewrite size_zipmap !size_mkseq minnn // => p lt_p.
rewrite (nth_zipmap _ [::] [::]) ?size_mkseq // !nth_mkseq //; congr DegRedMask; apply: dealing_ext => e j lt_e lt_j.
  by rewrite /blocks nth_mkseq //; nia.
by rewrite /blocks nth_mkseq ?sub0r //; nia.
Qed.

Lemma dmask_ok dbg (gen : T) m values r_in r_out :
  vsharing pp (2 * l) m (fun p => dr_in (dmask dbg gen m values r_in r_out p))
    (fun e j => values (e * l + j)%N *: gen) /\
  vsharing pp (2 * l) m (fun p => dr_out (dmask dbg gen m values r_in r_out p))
    (fun e j => - (values (e * l + j)%N *: gen)).
Proof. by split; [exact: (dealingP ok dbg _ m r_in)|exact: (dealingP ok dbg _ m r_out)]. Qed.

Lemma msm_sample_dealing dbg (gen : T) values r :
  msm_mask_sample dbg pp gen values r = Ok (mkseq (mmask dbg gen values r) n) /\
  shared pp (2 * l) (fun p => mm_in (mmask dbg gen values r p)) (fun j => values j *: gen) /\
  shared pp (2 * l) (fun p => mm_out (mmask dbg gen values r p)) (fun=> - \sum_(j < l) values j *: gen).
Proof.
have Es : foldr +%R 0 (mkseq (fun i => values i *: gen) l) = \sum_(j < l) values j *: gen.
  by rewrite foldr_sum size_mkseq; apply: eq_bigr => j _; rewrite nth_mkseq.
have s1 : size (mkseq (fun i => values i *: gen) l) = l by rewrite size_mkseq.
have s2 : size (nseq l (- \sum_(j < l) values j *: gen)) = l by rewrite size_nseq.
have [ins [Ei si Hi]] := pack_sharing ok dbg r s1.
have [outs [Eo so Ho]] := pack_sharing ok dbg (rskip t r) s2.
rewrite /msm_mask_sample /mmask Es Ei Eo [rbind (Ok _) _]/=; split.
  congr Ok; apply: (@eq_from_nth _ (msm_mask_zero T)); rewrite size_zipmap si so minnn ?size_mkseq // => p lt_p.
  by rewrite (nth_zipmap _ 0 0) ?si ?so // nth_mkseq.
split; [apply: shared_ext (sharing_shared Hi)|apply: shared_ext (sharing_shared Ho)] => // j lt_j.
  by rewrite nth_mkseq.
by rewrite nth_nseq lt_j.
Qed.

End MaskDealers.

Section FreshMasks.
Variable F : fftField.
Variable T : lmodType F.
Variables (dbg : bool) (pp : pss F) (lam : nat).
Hypothesis new : pss_new F dbg (2 ^ lam) = Ok pp.
Hypothesis gn : ff_generator F ^+ p_n pp != 1.
Variable P : seq nat.
Hypotheses (uP : uniq P) (ltP : all (fun q => q < p_n pp)%N P) (sP : (size P <= p_t pp)%N).
Local Notation l := (p_l pp).
Let ok := pss_new_ok new.

Lemma fresh_dmask (gen : T) m (c : nat -> nat -> F) :
  exists (dv : rng F) (d_in d_out : rng T), forall values r_in r_out,
    (forall p, p \in P -> dmask pp dbg gen m (fun i => values i + dv i) (fun i => r_in i + d_in i)
      (fun i => r_out i + d_out i) p = dmask pp dbg gen m values r_in r_out p) /\
    (forall e j, (j < l)%N -> (values (e * l + j)%N + dv (e * l + j)%N) *: gen =
      values (e * l + j)%N *: gen + c e j *: gen).
Proof.
have l0 := pp_l_gt0 ok; pose dv i := c (i %/ l)%N (i %% l)%N.
have Edv e j : (j < l)%N -> dv (e * l + j)%N = c e j.
  by move=> lt_j; rewrite /dv divnMDl // modnMDl divn_small // modn_small // addn0.
have [di Hi] := dealing_translate new gn uP ltP (fun e j => c e j *: gen) m sP.
have [do_ Ho] := dealing_translate new gn uP ltP (fun e j => - (c e j *: gen)) m sP.
exists dv, di, do_ => values r_in r_out; split=> [p p_P|e j lt_j]; last by rewrite Edv // scalerDl.
congr DegRedMask.
  by apply: Hi => // e j _ lt_j; rewrite Edv // scalerDl.
by apply: Ho => // e j _ lt_j; rewrite Edv // scalerDl opprD.
Qed.

Lemma fresh_mmask (gen : T) (c : F) :
  exists (dv : rng F) (dr : rng T), forall values r,
    (forall p, p \in P -> mmask pp dbg gen (fun i => values i + dv i) (fun i => r i + dr i) p =
       mmask pp dbg gen values r p) /\
    \sum_(j < l) (values j + dv j) *: gen = \sum_(j < l) values j *: gen + c *: gen.
Proof.
have l0 := pp_l_gt0 ok; pose dv i : F := if i == 0%N then c else 0.
have Sdv (values : rng F) : \sum_(j < l) (values j + dv j) *: gen = \sum_(j < l) values j *: gen + c *: gen.
  under eq_bigr do rewrite scalerDl; rewrite big_split /=; congr (_ + _).
  rewrite (bigD1 (Ordinal l0)) //= big1 ?addr0 // => j; rewrite /dv -val_eqE /= => /negPf->.
  by rewrite scale0r.
have [di Hi] := pack_shift new gn uP ltP (size_mkseq (fun i => dv i *: gen) l) sP.
have [do_ Ho] := pack_shift new gn uP ltP (size_nseq l (- (c *: gen))) sP.
exists dv, (fun i => if (i < p_t pp)%N then di i else do_ (i - p_t pp)%N) => values r; split=> // p p_P.
congr MsmMask.
  apply: Hi => //; rewrite ?size_mkseq // => i lt_i; first by rewrite !nth_mkseq // scalerDl.
  by rewrite lt_i.
apply: Ho => //; rewrite ?size_nseq // => i lt_i.
  by rewrite !nth_nseq lt_i Sdv opprD.
by rewrite /rskip ltnNge leq_addr /= addKn.
Qed.

End FreshMasks.
