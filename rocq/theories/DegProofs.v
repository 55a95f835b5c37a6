(** Proofs about degree reduction, multi-scalar multiplication and partial products. *)
From mathcomp Require Import all_ssreflect all_algebra.
From mathcomp Require Import zify.
From Verif Require Import RingTac Base ModelField ModelUtils ModelPss ModelPack ModelFft ModelNet.
From Verif Require Import ModelProto Spec SpecNet NetProofs KingProofs RoundProofs LogProofs.
From Verif Require Import FieldProofs UtilsProofs PssProofs PackProofs FftProofs ProtoProofs.
Set Implicit Arguments.
Unset Strict Implicit.
Unset Printing Implicit Defensive.
Import GRing.Theory.
Local Open Scope ring_scope.

Lemma king_prog_dok B n (dok dok' : pred nat) (P : nat -> cproc B) vals :
  (forall d, dok' d -> dok d) -> king_prog n dok P vals -> king_prog n dok' P vals.
Proof.
move=> sub; elim=> {P vals}
  [P vals HP|P vals msgs K P' P0 Pp HK _ IH|P vals outs kc P' P0 Pp Hkc _ IH].
- exact: KP_ret.
- by apply: (@KP_gather _ _ _ _ _ msgs K P') => // d /sub; apply: HK.
exact: (@KP_scatter _ _ _ _ _ outs kc P').
Qed.

Section Deg.
Variable F : fftField.
Variable T : lmodType F.
Variables (pp : pss F) (ok : pp_ok pp) (cT : codec T) (mb : nat).
Hypothesis cT_ok : codec_ok cT mb.
Local Notation l := (p_l pp).
Local Notation n := (p_n pp).

Lemma vec_dec m (s : seq T) : (m < 256 ^ 8)%N -> size s = m ->
  ModelNet.decode (vec_codec cT) (enc (vec_codec cT) s) = Ok s.
Proof. by move=> ms ss; apply: (decode_vec cT_ok); rewrite ss. Qed.

(** ** Degree reduction *)

Definition degred_ok (m : nat) (masks : nat -> degred_mask T) : Prop :=
  exists v : nat -> nat -> T,
    vsharing pp (2 * l) m (fun p => dr_in (masks p)) v /\
    vsharing pp (2 * l) m (fun p => dr_out (masks p)) (fun e j => - v e j).

Lemma degred_zero_ok m : degred_ok m (fun=> degred_mask_zero T m).
Proof.
exists (fun _ _ => 0); split; first exact: vsharing0.
by apply: vsharing_ext (vsharing0 T pp (2 * l) m) => // e j _ _; rewrite oppr0.
Qed.

Lemma degred_sample_ok dbg gen m values (r_in r_out : rng T) masks x0 : (0 < m)%N ->
  degred_mask_sample dbg pp gen m values r_in r_out = Ok masks ->
  size masks = n /\ degred_ok m (nth x0 masks).
Proof.
move=> m0; have sz (f : nat -> T) : size (mkseq f (m * l)) = (m * l)%N by rewrite size_mkseq.
rewrite /degred_mask_sample.
have [ins [Ei Hi]] := pack_vec_deal ok dbg r_in m0 (sz (fun i => values i *: gen)).
have [outs [Eo Ho]] := pack_vec_deal ok dbg r_out m0 (sz (fun i => 0 - values i *: gen)).
move: Ei; case: (pack_vec _ _ _ _) => //= shs ->; rewrite [rbind (Ok _) _]/=.
move: Eo; case: (pack_vec _ _ _ _) => //= shs' ->; rewrite [rbind (Ok _) _]/=.
case=> <-; split; first by rewrite size_zipmap !size_mkseq minnn.
have Em' p : (p < n)%N -> nth x0 (zipmap (@DegRedMask F T) (mkseq ins n) (mkseq outs n)) p = DegRedMask (ins p) (outs p).
  by move=> lt_p; rewrite (nth_zipmap _ [::] [::]) ?size_mkseq // !nth_mkseq.
exists (fun e j => values (e * l + j)%N *: gen); split.
  apply: vsharing_ext Hi => [p lt_p|e j lt_e lt_j]; first by rewrite Em'.
  by rewrite /blocks nth_mkseq //; nia.
apply: vsharing_ext Ho => [p lt_p|e j lt_e lt_j]; first by rewrite Em'.
by rewrite /blocks nth_mkseq ?sub0r //; nia.
Qed.

(** the king's answers: fresh sharings of the secrets *)
Definition dealing (dbg : bool) (sec : nat -> nat -> T) (m : nat) (r : rng T) (p : nat) : seq T :=
  mkseq (fun e => (get_ok [::] (pack dbg pp (mkseq (sec e) l) (rskip (e * p_t pp) r)))`_p) m.

Lemma dealingP dbg (sec : nat -> nat -> T) m r : vsharing pp (2 * l) m (dealing dbg sec m r) sec.
Proof.
split=> [p _|e lt_e]; first by rewrite size_mkseq.
have [s [E sz H]] := pack_sharing ok dbg (rskip (e * p_t pp) r) (size_mkseq (sec e) l).
have := H; congr (sharing _ _ _ _); rewrite -[LHS](mkseq_nth 0) sz; apply: eq_map => p.
by rewrite nth_mkseq // E.
Qed.

Lemma dealing_transpose dbg (sec : nat -> nat -> T) m r (f : nat -> res (seq T)) : (0 < m)%N ->
  (forall e, (e < m)%N -> f e = pack dbg pp (mkseq (sec e) l) (rskip (e * p_t pp) r)) ->
  rbind (mapM f (iota 0 m)) (@transpose _) = Ok (mkseq (dealing dbg sec m r) n).
Proof.
move=> m0 Ef; pose sh e := get_ok [::] (pack dbg pp (mkseq (sec e) l) (rskip (e * p_t pp) r)).
have Esh e : pack dbg pp (mkseq (sec e) l) (rskip (e * p_t pp) r) = Ok (sh e) /\ size (sh e) = n.
  rewrite /sh.
  by have [s [-> ? _]] := pack_sharing ok dbg (rskip (e * p_t pp) r) (size_mkseq (sec e) l).
rewrite (@mapM_ok _ _ _ sh) => [|i0 i]; last first.
  by rewrite size_iota => lt_i; rewrite nth_iota // add0n Ef //; have [-> _] := Esh i.
rewrite [rbind (Ok _) _]/= (@transpose_rect _ 0 m n) //.
- by congr Ok; apply: eq_map => p; apply: eq_mkseq_in => e lt_e; rewrite nth_mkseq.
- by apply: ltnW (n_gt1 ok).
by split=> [|i lt_i]; rewrite ?size_mkseq // nth_mkseq //; have [_] := Esh i.
Qed.

Lemma deg_red_kingP dbg (r : rng T) m deg (x : nat -> seq T) sec : (0 < m)%N ->
  (deg <= 4 * l - 1)%N -> vsharing pp deg m x sec ->
  forall d ord, hash_ok ord ->
    deg_red_king dbg pp r (received_from x n d ord) = Ok (mkseq (dealing dbg sec m r) n).
Proof.
move=> m0 Hdeg /vsharingP[H1 H2] d ord Hord.
rewrite /deg_red_king (transpose_who ok d Hord m0 H1) [rbind (Ok _) _]/= size_mkseq parties_who.
apply: dealing_transpose => // i lt_i.
rewrite (vget_nth [::]) ?size_mkseq // [rbind (Ok _) _]/= nth_mkseq //.
by rewrite (unpack_who ok dbg d Hord Hdeg (H2 i lt_i)).
Qed.

Lemma deg_red_answer dbg m (masks : nat -> degred_mask T) (x : nat -> seq T) sec deg v r :
  (0 < m < 256 ^ 8)%N -> (deg <= 4 * l - 1)%N ->
  vsharing pp (2 * l) m (fun p => dr_in (masks p)) v ->
  vsharing pp (2 * l) m (fun p => dr_out (masks p)) (fun e j => - v e j) ->
  vsharing pp deg m x sec ->
  let ans e j := sec e j + v e j in
    vsharing pp (2 * l) m (fun p => zipmap +%R (dealing dbg ans m r p) (dr_out (masks p))) sec /\
    forall ord, hash_ok ord -> king_log n (fun d => d != 0%N)
      (fun p => deg_red dbg pp n p ord cT (x p) (masks p) r)
      (fun p => zipmap +%R (dealing dbg ans m r p) (dr_out (masks p)))
      (king_msgs (fun p => enc (vec_codec cT) (dealing dbg ans m r p))).
Proof.
move=> /andP[m0 ms] Hdeg Hin Hout Hx ans; have l0 := pp_l_gt0 ok; have En := ppn ok.
pose deg' := maxn deg (2 * l).
have Hdeg' : (deg' <= 4 * l - 1)%N by rewrite geq_max Hdeg; lia.
have Hsum := vsharing_add (vsharing_widen (leq_maxl deg (2 * l)) Hx)
                          (vsharing_widen (leq_maxr deg (2 * l)) Hin).
have Hd := dealingP dbg ans m r; pose dealt := dealing dbg ans m r.
have Ed := deg_red_kingP dbg r m0 Hdeg' Hsum.
split.
  by apply: vsharing_ext (vsharing_add Hd Hout) => // e j lt_e lt_j; rewrite addrK.
move=> ord Ho; have n1 := n_gt1 ok.
pose x' p := zipmap +%R (x p) (dr_in (masks p)).
have sx' p : (p < n)%N -> size (x' p) = m by case: Hsum => H _ /H.
have sx p : (p < n)%N -> size (x p) = m by case: Hx => H _ /H.
have si p : (p < n)%N -> size (dr_in (masks p)) = m by case: Hin => H _ /H.
have so p : (p < n)%N -> size (dr_out (masks p)) = m by case: Hout => H _ /H.
have sd p : (p < n)%N -> size (dealt p) = m by case: Hd => H _ /H.
have K : king_log n (fun d => d != 0%N) (fun p =>
    do! rs := csokr_ser (vec_codec cT) n p ord (x' p) (p_t pp) in
    do! outs := clift (if rs is Some q then rmap Some (deg_red_king dbg pp r q) else Ok None) in
    do! w := crokss_ser (vec_codec cT) n p outs in
    clift (Ok (zipmap +%R w (dr_out (masks p)))))
  (fun p => zipmap +%R (dealt p) (dr_out (masks p)))
  (fun p => king_msgs (fun p => enc (vec_codec cT) (dealt p)) p ++ [::]).
  apply: (@king_round_log _ _ _ _ _ _ _ _ _ _ dealt) => //.
  - by lia.
  - by rewrite (ppt ok); lia.
  - by move=> i lt_i; apply: vec_dec (sx' _ _).
  - by move=> i lt_i; apply: vec_dec (sd _ _).
  - by move=> i lt_i; rewrite !(size_enc_vec cT_ok) !sd //; lia.
  - by move=> d _; rewrite Ed.
  - exact: KL_ret.
apply: king_log_ext K => // [|p lt_p|p _]; [by lia| |by rewrite cats0].
by rewrite /deg_red sx // si // so // /dassert eqxx implybT.
Qed.

Lemma deg_red_prog dbg m (masks : nat -> degred_mask T) (x : nat -> seq T) sec deg (r : rng T) :
  (0 < m < 256 ^ 8)%N -> (deg <= 4 * l - 1)%N -> degred_ok m masks ->
  vsharing pp deg m x sec ->
  exists out : nat -> seq T, vsharing pp (2 * l) m out sec /\
    forall ord, hash_ok ord -> king_prog n (fun d => d != 0%N)
      (fun p => deg_red dbg pp n p ord cT (x p) (masks p) r) out.
Proof.
move=> Hm Hdeg [v [Hin Hout]] Hx.
exists (fun p => zipmap +%R (dealing dbg (fun e j => sec e j + v e j) m r p) (dr_out (masks p))).
by have [H K] := deg_red_answer dbg r Hm Hdeg Hin Hout Hx; split=> // ord /K/king_log_prog.
Qed.

(** ** Multi-scalar multiplication *)

Lemma foldr_sum (s : seq T) : foldr +%R 0 s = \sum_(i < size s) s`_i.
Proof. by elim: s => [|x s IH]; rewrite ?big_ord0 // big_ord_recl /= IH. Qed.

Definition msm_ok (masks : nat -> msm_mask T) : Prop :=
  exists v : nat -> T, shared pp (2 * l) (fun p => mm_in (masks p)) v /\
    shared pp (2 * l) (fun p => mm_out (masks p)) (fun _ => - \sum_(j < l) v j).

Lemma msm_zero_ok : msm_ok (fun=> msm_mask_zero T).
Proof.
exists (fun=> 0); split; first exact: shared0.
by apply: shared_ext (shared0 T pp (2 * l)) => // i _; rewrite big1 ?oppr0.
Qed.

Lemma sharing_shared d sh sec : sharing pp d sh sec -> shared (T := T) pp d (nth 0 sh) (nth 0 sec).
Proof.
move=> Hs; have [ss st] := sharing_size Hs; apply/sharingP.
by rewrite -ss -st !mkseq_nth.
Qed.

Lemma msm_sample_ok dbg gen values (r : rng T) masks x0 :
  msm_mask_sample dbg pp gen values r = Ok masks ->
  size masks = n /\ msm_ok (nth x0 masks).
Proof.
rewrite /msm_mask_sample.
have s1 : size (mkseq (fun i => values i *: gen) l) = l by rewrite size_mkseq.
have [ins [-> si Hi]] := pack_sharing ok dbg r s1.
rewrite [rbind (Ok _) _]/=.
have s2 : size (nseq l (- foldr +%R 0 (mkseq (fun i => values i *: gen) l))) = l by rewrite size_nseq.
have [outs [-> so Ho]] := pack_sharing ok dbg (rskip (p_t pp) r) s2.
case=> <-; split; first by rewrite size_zipmap si so minnn.
have Em' p : (p < n)%N -> nth x0 (zipmap (@MsmMask F T) ins outs) p = MsmMask ins`_p outs`_p.
  by move=> lt_p; rewrite (nth_zipmap _ 0 0) ?si ?so.
exists (fun i => values i *: gen); split.
  apply: shared_ext (sharing_shared Hi) => i lt_i; first by rewrite Em'.
  by rewrite nth_mkseq.
apply: shared_ext (sharing_shared Ho) => i lt_i; first by rewrite Em'.
rewrite nth_nseq lt_i foldr_sum size_mkseq; congr (- _); apply: eq_bigr => j _.
by rewrite nth_mkseq.
Qed.

Lemma shared_mul d1 d2 (f : nat -> F) (g : nat -> F) (f' g' : nat -> T) : (0 < d2)%N ->
  shared (T := [lmodType F of F^o]) pp d1 f g -> shared pp d2 f' g' ->
  shared pp (d1 + d2).-1 (fun i => f i *: f' i) (fun j => g j *: g' j).
Proof.
move=> d20 /sharingP H1 /sharingP H2; apply/sharingP.
have := sharing_mul d20 H1 H2; congr (sharing _ _ _ _);
  apply: (@eq_from_nth _ 0); rewrite size_zipmap !size_mkseq minnn // => i lt_i;
  by rewrite (nth_zipmap _ 0 0) ?size_mkseq // !nth_mkseq.
Qed.

Lemma shared_const d (a : T) : (0 < d)%N -> shared pp d (fun=> a) (fun=> a).
Proof. by move=> d0; exists [:: a]; split=> // i _; rewrite pval_const. Qed.

(** sum over all entries of the products of the slots *)
Definition inner (m : nat) (sb : nat -> nat -> T) (ss : nat -> nat -> F) : T :=
  \sum_(e < m) \sum_(j < l) ss e j *: sb e j.

Lemma d_msm_answer dbg m (masks : nat -> msm_mask T) (bases : nat -> seq T) sb
    (scalars : nat -> seq F) ss v :
  shared pp (2 * l) (fun p => mm_in (masks p)) v ->
  shared pp (2 * l) (fun p => mm_out (masks p)) (fun _ => - \sum_(j < l) v j) -> vsharing pp (2 * l) m bases sb ->
  vsharing (T := [lmodType F of F^o]) pp (2 * l) m scalars ss ->
  let out p := inner m sb ss + \sum_(j < l) v j + mm_out (masks p) in
  shared pp (2 * l) out (fun _ => inner m sb ss) /\
    forall ord, hash_ok ord -> king_log n (fun d => d != 0%N)
      (fun p => d_msm dbg pp n p ord cT (bases p) (scalars p) (masks p)) out
      (king_msgs (fun=> enc cT (inner m sb ss + \sum_(j < l) v j))).
Proof.
move=> Hin Hout /vsharingP[Hb1 Hb2] /vsharingP[Hs1 Hs2] out.
have l0 := pp_l_gt0 ok; have En := ppn ok; have n1 := n_gt1 ok.
pose c p := \sum_(e < m) (scalars p)`_e *: (bases p)`_e.
pose sec j := \sum_(e < m) ss e j *: sb e j.
have Hc : shared pp (4 * l - 1) c sec.
  have := @shared_sum _ _ pp (4 * l - 1) m (fun=> 1)
    (fun e p => (scalars p)`_e *: (bases p)`_e) (fun e j => ss e j *: sb e j).
  have Hm e : (e < m)%N -> shared pp (4 * l - 1) (fun p => (scalars p)`_e *: (bases p)`_e)
                                                 (fun j => ss e j *: sb e j).
    move=> lt_e; have -> : (4 * l - 1 = (2 * l + 2 * l).-1)%N by lia.
    by apply: shared_mul (Hs2 e lt_e) (Hb2 e lt_e); lia.
  by move/(_ Hm); apply: shared_ext => i lt_i; apply: eq_bigr => e _; rewrite scale1r.
have Hin' : shared pp (4 * l - 1) (fun p => mm_in (masks p)) v.
  by case: Hin => q [sq E1 E2]; exists q; split=> //; lia.
have Hx := shared_lin 1 Hc Hin'.
pose S := \sum_(j < l) (sec j + v j).
have ES : inner m sb ss + \sum_(j < l) v j = S by rewrite /S big_split /= /inner exchange_big.
rewrite /out ES; split.
  have l2 : (0 < 2 * l)%N by lia.
  apply: shared_ext (shared_lin 1 (shared_const S l2) Hout) => i _; rewrite scale1r //.
  by rewrite -ES addrK.
move=> ord Ho.
pose x' p := c p + mm_in (masks p).
have dk a : ModelNet.decode cT (enc cT a) = Ok a.
  by have [_ H _] := cT_ok; rewrite /ModelNet.decode -[enc cT a]cats0 H.
have K : king_log n (fun d => d != 0%N) (fun p =>
    do! rs := csokr_ser cT n p ord (x' p) (p_t pp) in
    do! outs := clift (if rs is Some q then rmap Some (d_msm_king dbg pp n q) else Ok None) in
    do! w := crokss_ser cT n p outs in clift (Ok (w + mm_out (masks p))))
  (fun p => S + mm_out (masks p)) (fun p => king_msgs (fun=> enc cT S) p ++ [::]).
  apply: (@king_round_log _ _ _ _ _ _ _ _ _ _ (fun=> S)) => //.
  - by lia.
  - by rewrite (ppt ok); lia.
  - move=> d _; rewrite /d_msm_king shares_who parties_who.
    have le_d : (4 * l - 1 <= 4 * l - 1)%N by [].
    have Hx' : shared pp (4 * l - 1) x' (fun j => sec j + v j).
      by apply: shared_ext Hx => i _; rewrite scale1r.
    rewrite (unpack_who ok dbg d Ho le_d Hx') [rbind (Ok _) _]/= foldr_sum size_mkseq.
    have -> : \sum_(i < l) (mkseq (fun j => sec j + v j) l)`_i = S.
      by apply: eq_bigr => i _; rewrite nth_mkseq.
    congr Ok; apply: (@eq_from_nth _ 0); rewrite size_nseq ?size_mkseq // => i lt_i.
    by rewrite nth_nseq lt_i nth_mkseq.
  - exact: KL_ret.
apply: king_log_ext K => // [|p lt_p|p _]; [by lia| |by rewrite cats0].
rewrite /d_msm Hb1 // Hs1 // /dassert eqxx implybT /msm Hb1 // Hs1 // eqxx.
suff -> : foldr +%R 0 (zipmap (fun s b => s *: b) (scalars p) (bases p)) = c p by [].
rewrite foldr_sum size_zipmap Hb1 // Hs1 // minnn; apply: eq_bigr => e _.
by rewrite (nth_zipmap _ 0 0) ?Hb1 ?Hs1.
Qed.

Lemma d_msm_prog dbg m (masks : nat -> msm_mask T) (bases : nat -> seq T) sb
    (scalars : nat -> seq F) ss :
  msm_ok masks -> vsharing pp (2 * l) m bases sb ->
  vsharing (T := [lmodType F of F^o]) pp (2 * l) m scalars ss ->
  exists out : nat -> T, shared pp (2 * l) out (fun _ => inner m sb ss) /\
    forall ord, hash_ok ord -> king_prog n (fun d => d != 0%N)
      (fun p => d_msm dbg pp n p ord cT (bases p) (scalars p) (masks p)) out.
Proof.
move=> [v [Hin Hout]] Hb Hs.
have [H K] := d_msm_answer dbg Hin Hout Hb Hs.
by exists (fun p => inner m sb ss + \sum_(j < l) v j + mm_out (masks p)); split=> // ord /K/king_log_prog.
Qed.

End Deg.
