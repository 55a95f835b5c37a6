(** Proofs about the distributed transforms. *)
From mathcomp Require Import all_ssreflect all_algebra.
From mathcomp Require Import zify.
From Verif Require Import RingTac Base ModelField ModelUtils ModelPss ModelPack ModelFft ModelNet.
From Verif Require Import ModelProto Spec SpecNet NetProofs KingProofs RoundProofs LogProofs.
From Verif Require Import FieldProofs UtilsProofs PssProofs PackProofs FftProofs.
Set Implicit Arguments.
Unset Strict Implicit.
Unset Printing Implicit Defensive.
Import GRing.Theory.
Local Open Scope ring_scope.

Section Shared.
Variable F : fftField.
Variable T : lmodType F.
Variables (pp : pss F) (ok : pp_ok pp).
Local Notation l := (p_l pp).
Local Notation n := (p_n pp).

(** ** Sharings as functions *)
Implicit Types (sh : nat -> seq T) (sec : nat -> nat -> T).

Definition shared (d : nat) (f g : nat -> T) : Prop :=
  exists c : seq T, [/\ (size c <= d)%N, forall i, (i < n)%N -> f i = pval (share_pt pp i) c &
    forall j, (j < l)%N -> g j = pval (secret_pt pp j) c].

Lemma eq_mkseq_in A k (f g : nat -> A) : (forall i, (i < k)%N -> f i = g i) -> mkseq f k = mkseq g k.
Proof. by move=> E; apply/eq_in_map => i; rewrite mem_iota add0n => /andP[_ /E]. Qed.

Lemma mkseq_inj_in A k (f g : nat -> A) i : mkseq f k = mkseq g k -> (i < k)%N -> f i = g i.
Proof. by move=> /(congr1 (nth (f 0%N) ^~ i)) /=; move=> E lt_i; move: E; rewrite !nth_mkseq. Qed.

Lemma sharingP d f g : sharing pp d (mkseq f n) (mkseq g l) <-> shared d f g.
Proof.
split=> -[c [sc Ef Eg]]; exists c; split=> //.
- by move=> i; apply: mkseq_inj_in Ef.
- by move=> j; apply: mkseq_inj_in Eg.
- exact: eq_mkseq_in.
- exact: eq_mkseq_in.
Qed.

Lemma shared_ext d f g f' g' : (forall i, (i < n)%N -> f i = f' i) ->
  (forall j, (j < l)%N -> g j = g' j) -> shared d f g -> shared d f' g'.
Proof.
move=> Ef Eg [c [sc Hf Hg]]; exists c; split=> // i lt_i; first by rewrite -Ef // Hf.
by rewrite -Eg // Hg.
Qed.

Lemma shared_lin (a : F) d f g f' g' : shared d f g -> shared d f' g' ->
  shared d (fun i => a *: f i + f' i) (fun j => a *: g j + g' j).
Proof.
move=> [c [sc Hf Hg]] [c' [sc' Hf' Hg']].
exists (mkseq (fun i => a *: c`_i + c'`_i) d); split; first by rewrite size_mkseq.
  by move=> i lt_i; rewrite pval_lin // Hf // Hf'.
by move=> i lt_i; rewrite pval_lin // Hg // Hg'.
Qed.

Lemma shared0 d : shared d (fun=> 0) (fun=> 0).
Proof. by exists [::]; split=> // i _; rewrite /pval big_ord0. Qed.

Lemma shared_sum d m (a : nat -> F) (f g : nat -> nat -> T) :
  (forall e, (e < m)%N -> shared d (f e) (g e)) ->
  shared d (fun i => \sum_(e < m) a e *: f e i) (fun j => \sum_(e < m) a e *: g e j).
Proof.
elim: m => [|m IH] H.
  by apply: shared_ext (shared0 d) => i _; rewrite big_ord0.
have H1 := IH (fun e lt_e => H e (ltnW lt_e)).
apply: shared_ext (shared_lin (a m) (H m (ltnSn m)) H1) => i _ /=;
by rewrite big_ord_recr /= addrC.
Qed.

Lemma vsharingP d m sh sec : vsharing pp d m sh sec <->
  (forall p, (p < n)%N -> size (sh p) = m) /\
  forall e, (e < m)%N -> shared d (fun p => (sh p)`_e) (sec e).
Proof. by split=> -[H1 H2]; split=> // e /H2 /sharingP. Qed.

Lemma vsharing_ext d m sh (sh' : nat -> seq T) sec (sec' : nat -> nat -> T) : (forall p, (p < n)%N -> sh p = sh' p) ->
  (forall e j, (e < m)%N -> (j < l)%N -> sec e j = sec' e j) ->
  vsharing pp d m sh sec -> vsharing pp d m sh' sec'.
Proof.
move=> Es Ee /vsharingP[H1 H2]; apply/vsharingP; split=> [p lt_p|e lt_e]; first by rewrite -Es // H1.
by apply: shared_ext (H2 e lt_e) => i lt_i; rewrite ?Es // Ee.
Qed.

(** a matrix applied to the vectors of shares *)
Lemma vsharing_matrix d m m' (M : nat -> nat -> F) sh sec : vsharing pp d m sh sec ->
  vsharing pp d m' (fun p => mkseq (fun k => \sum_(e < m) M k e *: (sh p)`_e) m')
                   (fun k j => \sum_(e < m) M k e *: sec e j).
Proof.
move=> /vsharingP[H1 H2]; apply/vsharingP; split=> [p lt_p|k lt_k]; first by rewrite size_mkseq.
by apply: shared_ext (shared_sum (M k) H2) => i lt_i //; rewrite nth_mkseq.
Qed.

Lemma vsharing_add d m sh sec (sh' : nat -> seq T) (sec' : nat -> nat -> T) : vsharing pp d m sh sec -> vsharing pp d m sh' sec' ->
  vsharing pp d m (fun p => zipmap +%R (sh p) (sh' p)) (fun e j => sec e j + sec' e j).
Proof.
move=> /vsharingP[H1 H2] /vsharingP[H3 H4]; apply/vsharingP; split=> [p lt_p|e lt_e].
  by rewrite size_zipmap H1 // H3 // minnn.
apply: shared_ext (shared_lin 1 (H2 e lt_e) (H4 e lt_e)) => i lt_i; last by rewrite scale1r.
by rewrite scale1r (nth_zipmap _ 0 0) ?H1 ?H3.
Qed.

Lemma vsharing_widen d d' m sh sec : (d <= d')%N -> vsharing pp d m sh sec ->
  vsharing pp d' m sh sec.
Proof. by move=> le_d [H1 H2]; split=> // e /H2; apply: sharing_widen. Qed.

Lemma vsharing0 d m : vsharing pp d m (fun=> nseq m (0 : T)) (fun _ _ => 0).
Proof.
apply/vsharingP; split=> [p _|e lt_e]; first by rewrite size_nseq.
by apply: shared_ext (shared0 d) => i _ //; rewrite nth_nseq if_same.
Qed.

(** ** The king's view *)

Definition who (d : nat) (ord : hash_order) : seq nat := parties (received_from (fun i => i) n d ord).

Lemma parties_who U (x : nat -> U) d ord : parties (received_from x n d ord) = who d ord.
Proof. by rewrite /who /received_from; case: ifP. Qed.

Lemma shares_who U (x : nat -> U) d ord : shares (received_from x n d ord) = [seq x i | i <- who d ord].
Proof. by rewrite /who /received_from; case: ifP. Qed.

Lemma who_lt d ord : hash_ok ord -> all (fun q => q < n)%N (who d ord).
Proof.
move=> Ho; rewrite /who /received_from; case: ifP => _ /=; last first.
  by apply/allP => i; rewrite mem_iota.
by rewrite (perm_all _ (Ho _)); apply/allP => i; rewrite mem_filter mem_iota add0n => /andP[_ /andP[]].
Qed.

Lemma size_who_lt d ord : hash_ok ord -> (d < n)%N -> size (who d ord) = n.-1.
Proof. by move=> Ho dn; rewrite /who /received_from dn /= (perm_size (Ho _)) size_heard. Qed.

Lemma n_gt1 : (1 < n)%N. Proof. rewrite (ppn ok); have := pp_l_gt0 ok; lia. Qed.

Lemma size_who_gt0 d ord : hash_ok ord -> (0 < size (who d ord))%N.
Proof.
move=> Ho; have n1 := n_gt1; case: (ltnP d n) => dn; first by rewrite size_who_lt //; lia.
by rewrite /who /received_from [(d < n)%N]ltnNge dn /= size_iota; lia.
Qed.

Lemma unpack_who (dbg : bool) deg f g d ord : hash_ok ord -> (deg <= 4 * l - 1)%N -> shared deg f g ->
  unpack_missing_shares dbg pp [seq f i | i <- who d ord] (who d ord) = Ok (mkseq g l).
Proof.
move=> Ho Hd /sharingP Hs; have l0 := pp_l_gt0 ok; have En := ppn ok; have lt_w := who_lt d Ho.
have Ew : [seq f i | i <- who d ord] = [seq (mkseq f n)`_i | i <- who d ord].
  by apply/eq_in_map => i iw; rewrite nth_mkseq // (allP lt_w).
rewrite Ew; case: (ltnP d n) => dn; last first.
  have -> : who d ord = iota 0 n by rewrite /who /received_from [(d < n)%N]ltnNge dn.
  have -> : [seq (mkseq f n)`_i | i <- iota 0 n] = mkseq f n by rewrite -[RHS](mkseq_nth 0) size_mkseq.
  by apply: unpack_missing_full Hs _ _; rewrite ?size_iota //; case: dbg; lia.
apply: unpack_missing_partial Hs _ lt_w _ _; rewrite ?size_who_lt //; last by rewrite En; lia.
  by rewrite /who /received_from dn /= (perm_uniq (Ho _)) filter_uniq // iota_uniq.
by rewrite En; lia.
Qed.

End Shared.

(** ** Dealing and collecting vectors *)
Section Deal.
Variable F : fftField.
Variable T : lmodType F.
Variables (pp : pss F) (ok : pp_ok pp).
Local Notation l := (p_l pp).
Local Notation n := (p_n pp).
Implicit Types (sec : nat -> nat -> T).

Lemma transpose_who m (x : nat -> seq T) d ord : hash_ok ord -> (0 < m)%N ->
  (forall p, (p < n)%N -> size (x p) = m) ->
  transpose (shares (received_from x n d ord)) =
  Ok (mkseq (fun e => [seq (x i)`_e | i <- who pp d ord]) m).
Proof.
move=> Ho m0 Hx; rewrite shares_who; have lt_w := who_lt pp d Ho.
have R : rect (size (who pp d ord)) m [seq x i | i <- who pp d ord].
  split=> [|i lt_i]; first by rewrite size_map.
  by rewrite (nth_map 0%N) // Hx // (allP lt_w) // mem_nth.
rewrite (transpose_rect 0 _ m0 R) ?size_who_gt0 //; congr Ok; apply: eq_map => e.
apply: (@eq_from_nth _ 0); rewrite size_mkseq ?size_map // => i lt_i.
by rewrite nth_mkseq // !(nth_map 0%N).
Qed.

Lemma deal d m shs sec : (0 < m)%N -> rect m n shs ->
  (forall e, (e < m)%N -> sharing pp d (nth [::] shs e) (mkseq (sec e) l)) ->
  exists out, transpose shs = Ok (mkseq out n) /\ vsharing pp d m out sec.
Proof.
move=> m0 R H; have n0 : (0 < n)%N by apply: ltnW (n_gt1 ok).
exists (fun p => mkseq (fun e => nth 0 (nth [::] shs e) p) m); split; first exact: transpose_rect.
split=> [p _|e lt_e]; first by rewrite size_mkseq.
have := H e lt_e; congr (sharing _ _ _ _); have [_ Hs] := R.
rewrite -[LHS](mkseq_nth 0) Hs //; apply: eq_map => p.
by rewrite nth_mkseq.
Qed.

Lemma pack_vec_deal dbg (v : seq T) r m : (0 < m)%N -> size v = (m * l)%N ->
  exists out, rbind (pack_vec dbg pp v r) (@transpose _) = Ok (mkseq out n) /\
    vsharing pp (2 * l) m out (blocks pp v).
Proof.
move=> m0 sv; have [shs [-> R H]] := pack_vec_sharing ok dbg r sv; apply: deal => // e lt_e.
have := H e lt_e; congr (sharing _ _ _ _); rewrite -[LHS](mkseq_nth 0) (size_nth_chunks ok sv) //.
apply: eq_mkseq_in => j lt_j; rewrite nth_chunks ?sv ?div_ceil_mul ?(pp_l_gt0 ok) //.
by rewrite nth_take // nth_drop.
Qed.

Lemma step_by_slots (v : seq T) m e : (0 < m)%N -> size v = (m * l)%N -> (e < m)%N ->
  step_by m (drop e v) = mkseq (fun j => v`_(e + j * m)) l.
Proof.
move=> m0 sv lt_e; rewrite (step_by_spec 0) // size_drop sv.
have -> : div_ceil (m * l - e) m = l.
  rewrite /div_ceil; have l0 := pp_l_gt0 ok.
  have -> : (m * l - e + m.-1 = l * m + (m.-1 - e))%N by nia.
  by rewrite divnMDl // divn_small; lia.
by apply: eq_map => j; rewrite nth_drop.
Qed.

Lemma pack_strided_deal dbg (v : seq T) r m : (0 < m)%N -> size v = (m * l)%N ->
  exists out, rbind (pack_strided dbg pp v r) (@transpose _) = Ok (mkseq out n) /\
    vsharing pp (2 * l) m out (fun e j => v`_(e + j * m)).
Proof.
move=> m0 sv; have l0 := pp_l_gt0 ok; rewrite /pack_strided /rassert l0 [rbind (Ok _) _]/= sv mulnK //.
have Hs e : (e < m)%N -> size (step_by m (drop e v)) = l.
  by move=> lt_e; rewrite step_by_slots // size_mkseq.
pose sh e := get_ok [::] (pack dbg pp (step_by m (drop e v)) (rskip (e * p_t pp) r)).
have -> : mapM (fun i => pack dbg pp (step_by m (drop i v)) (rskip (i * p_t pp) r)) (iota 0 m)
          = Ok (mkseq sh m).
  apply: mapM_ok => i0 i; rewrite size_iota => lt_i; rewrite nth_iota // add0n.
  by have [s [E _ _]] := pack_sharing ok dbg (rskip (i * p_t pp) r) (Hs i lt_i); rewrite /sh E.
apply: deal => //.
  split=> [|i lt_i]; first by rewrite size_mkseq.
  rewrite nth_mkseq // /sh.
  by have [s [-> sz _]] := pack_sharing ok dbg (rskip (i * p_t pp) r) (Hs i lt_i).
move=> e lt_e; rewrite nth_mkseq // /sh.
have [s [-> _ H]] := pack_sharing ok dbg (rskip (e * p_t pp) r) (Hs e lt_e).
by rewrite -step_by_slots.
Qed.

End Deal.

(** ** The transforms *)
Section Transform.
Variable F : fftField.
Variables (pp : pss F) (ok : pp_ok pp) (lam b : nat).
Hypothesis El : p_l pp = (2 ^ lam)%N.
Local Notation l := (p_l pp).
Local Notation n := (p_n pp).
Local Notation m := (2 ^ b)%N.
Local Notation k := (b + lam)%N.

Local Notation Fm := [lmodType F of F^o].

Lemma share_out_deal dbg rearrange (v : seq F) r : size v = (2 ^ k)%N ->
  exists out, share_out dbg pp rearrange v r = Ok (mkseq out n) /\
    vsharing (T := Fm) pp (2 * l) m out (slots (T := Fm) pp rearrange b k v).
Proof.
move=> sv; have m0 : (0 < m)%N by rewrite expn_gt0.
have Em : (m * l = 2 ^ k)%N by rewrite El expnD.
rewrite /share_out; case: rearrange; last by apply: (pack_vec_deal (T := Fm) ok dbg r m0); rewrite Em.
rewrite (fft_rearrangeP 0 sv) [rbind (Ok _) _]/=.
have sv' : size (mkseq (fun i => v`_(bitrev k i)) (2 ^ k)) = (m * l)%N by rewrite size_mkseq Em.
have [out [-> H]] := pack_strided_deal (T := Fm) ok dbg r m0 sv'.
exists out; split=> //; apply: vsharing_ext H => // e j lt_e lt_j.
rewrite nth_mkseq //= -Em mulnC; nia.
Qed.

Lemma distribute_powersE (v : seq F) g : distribute_powers (v : seq F^o) g = mkseq (fun i => g ^+ i * v`_i) (size v).
Proof.
pose go := fix go (p : F) (v : seq F) := if v is x :: v' then p * x :: go (p * g) v' else [::].
rewrite -[LHS]/(go 1 v).
suff H p : go p v = mkseq (fun i => p * g ^+ i * v`_i) (size v).
  by rewrite H; apply: eq_map => i; rewrite mul1r.
elim: v p => //= x v IH p; rewrite IH /mkseq /= expr0 mulr1; congr (_ :: _).
by rewrite -[1%N]addn0 iotaDl -map_comp; apply: eq_map => i /=; rewrite exprS mulrA.
Qed.

Lemma shiftE (v : seq F) g : shift v g = mkseq (fun i => g ^+ i * v`_i) (size v).
Proof.
rewrite /shift; case: eqP => [->|_] /=; last exact: distribute_powersE.
by rewrite -[LHS](mkseq_nth 0); apply: eq_map => i; rewrite expr1n mul1r.
Qed.

(** the king's stage, entry by entry *)
Definition rot_ix (q : nat) : nat := if q is q'.+1 then q' else (2 ^ k).-1.
Definition kfft (gen : F) (s : nat -> F) (q : nat) : F :=
  bsum gen 1 lam (rot_ix q) (fun e => s (rot_ix q %% m * 2 ^ lam + e)%N).

Lemma rotr1_mkseq A (x0 : A) (f : nat -> A) q : (q < 2 ^ k)%N ->
  nth x0 (rotr 1 (mkseq f (2 ^ k))) q = f (rot_ix q).
Proof.
rewrite /rot_ix; have : (0 < 2 ^ k)%N by rewrite expn_gt0.
case: (2 ^ k)%N => // N _ lt_q; rewrite /rotr /rot size_mkseq subn1 /= nth_cat.
rewrite size_drop size_mkseq; case: q lt_q => [|q] lt_q.
  by rewrite subSn // subnn /= nth_drop addn0 nth_mkseq.
rewrite subSn // subnn ltnS /= subSS subn0 nth_take // nth_mkseq //; exact: ltnW.
Qed.

Lemma fft2_kfft (s : seq F) gen : size s = (2 ^ k)%N -> (2 ^ k)%N.-primitive_root gen ->
  fft2 pp s gen = Ok (mkseq (kfft gen (nth 0 s)) (2 ^ k)).
Proof.
move=> ss pr; rewrite (fft2P El (mbyl := m)) ?expn_gt0 ?ss -?expnD //; last first.
  by move=> K EK; rewrite -expnD; apply: half_root; rewrite -addnS EK.
congr Ok; apply: (@eq_from_nth _ 0); rewrite size_rotr ?size_mkseq // => q lt_q.
by rewrite rotr1_mkseq // nth_mkseq.
Qed.

Lemma kfftD gen s t q : kfft gen (fun i => s i + t i) q = kfft gen s q + kfft gen t q.
Proof. by rewrite /kfft /bsum -big_split; apply: eq_bigr => e _; rewrite mulrDr. Qed.

Lemma eq_kfft gen s t q : (q < 2 ^ k)%N -> (forall i, (i < 2 ^ k)%N -> s i = t i) ->
  kfft gen s q = kfft gen t q.
Proof.
move=> lt_q E; apply: eq_bsum => e lt_e; apply: E; rewrite expnD.
have : (rot_ix q %% m < m)%N by rewrite ltn_pmod // expn_gt0.
by move: lt_e; generalize (2 ^ lam)%N (rot_ix q %% m)%N m => x y z; nia.
Qed.

(** masks for a transform with generator [gen] and shift [g]: sharings of some vector and of
    the negated transform of that vector *)
Definition masks_ok (rearrange : bool) (g gen : F) (masks : nat -> fft_mask F) : Prop :=
  exists v : nat -> F,
    vsharing (T := Fm) pp (2 * l) m (fun p => fm_in (masks p)) (fun e j => v (e * l + j)%N) /\
    vsharing (T := Fm) pp (2 * l) m (fun p => fm_out (masks p))
      (slots (T := Fm) pp rearrange b k (mkseq (fun q => - (g ^+ q * kfft gen v q)) (2 ^ k))).

Lemma mask_zero_ok rearrange g gen : masks_ok rearrange g gen (fun=> fft_mask_zero F m).
Proof.
exists (fun=> 0); split; first exact: vsharing0.
apply: vsharing_ext (vsharing0 Fm pp (2 * l) m) => // e j lt_e lt_j.
have -> : mkseq (fun q => - (g ^+ q * kfft gen (fun=> 0) q)) (2 ^ k) = nseq (2 ^ k) 0.
  apply: (@eq_from_nth _ 0); rewrite size_mkseq ?size_nseq // => q lt_q.
  rewrite nth_mkseq // nth_nseq lt_q /kfft /bsum big1 ?mulr0 ?oppr0 // => i _; by rewrite mulr0.
by rewrite /slots; case: rearrange; rewrite /strides /blocks nth_nseq if_same.
Qed.

Lemma mask_sample_ok dbg rearrange g gen values r_in r_out masks x0 :
  (2 ^ k)%N.-primitive_root gen ->
  fft_mask_sample dbg pp rearrange g gen (2 ^ k) values r_in r_out = Ok masks ->
  size masks = n /\ masks_ok rearrange g gen (nth x0 masks).
Proof.
move=> pr; have m0 : (0 < m)%N by rewrite expn_gt0.
have Em : (m * l = 2 ^ k)%N by rewrite El expnD.
have sv : size (mkseq values (2 ^ k)) = (m * l)%N by rewrite size_mkseq Em.
have [ins [Ei Hi]] := pack_vec_deal (T := Fm) ok dbg r_in m0 sv.
rewrite /fft_mask_sample; move: Ei; case: (pack_vec _ _ _ _) => //= shs ->.
rewrite fft2_kfft ?size_mkseq //= shiftE size_mkseq.
set w := map _ _; have sw : size w = (2 ^ k)%N by rewrite size_map size_mkseq.
have [outs [-> Ho]] := share_out_deal dbg rearrange r_out sw.
case=> <-; split; first by rewrite size_zipmap !size_mkseq minnn.
have Em' p : (p < n)%N -> nth x0 (zipmap (@FftMask F) (mkseq ins n) (mkseq outs n)) p = FftMask (ins p) (outs p).
  by move=> lt_p; rewrite (nth_zipmap _ [::] [::]) ?size_mkseq // !nth_mkseq.
exists values; split.
  apply: vsharing_ext Hi => [p lt_p|e j lt_e lt_j]; first by rewrite Em'.
  by rewrite /blocks nth_mkseq // -Em; nia.
apply: vsharing_ext Ho => [p lt_p|e j lt_e lt_j]; first by rewrite Em'.
suff -> : w = mkseq (fun q => - (g ^+ q * kfft gen values q)) (2 ^ k) by [].
rewrite /w -map_comp; apply: eq_mkseq_in => q lt_q /=; rewrite nth_mkseq //.
by congr (- (_ * _)); apply: eq_kfft => // i lt_i; rewrite nth_mkseq.
Qed.

(** *** The king *)

Lemma fill_block (tmp s : seq F) base : size tmp = l -> (base + l <= size s)%N ->
  foldM (fun s j => let! v := vget tmp j in vset s (base + j) v) s (iota 0 l) =
  Ok (mkseq (fun q => if (base <= q < base + l)%N then tmp`_(q - base) else s`_q) (size s)).
Proof.
move=> st ls; set f := (X in foldM X _ _).
suff H j : (j <= l)%N -> foldM f s (iota 0 j) =
    Ok (mkseq (fun q => if (base <= q < base + j)%N then tmp`_(q - base) else s`_q) (size s)).
  exact: H.
elim: j => [|j IH] le_j.
  rewrite /= -[in LHS](mkseq_nth 0 s); congr Ok; apply: eq_map => q; rewrite addn0.
  by case: ifP => //; lia.
rewrite -addn1 iotaD foldM_cat IH ?(ltnW le_j) // [rbind (Ok _) _]/= add0n /=.
rewrite /f (vget_nth 0) ?st // [rbind (Ok _) _]/= (vset_nth 0) ?size_mkseq ?rbind_ok; last by lia.
rewrite /=; congr Ok; apply: (@eq_from_nth _ 0); rewrite size_set_nth !size_mkseq; first by lia.
move=> q lt_q; have lt_q' : (q < size s)%N by move: lt_q; lia.
rewrite nth_set_nth /= !nth_mkseq //.
case: eqP => [->|/eqP neq]; first by rewrite addKn; case: ifP => //; lia.
have -> : (base <= q < base + (j + 1) = (base <= q < base + j))%N; last by [].
by apply/idP/idP; lia.
Qed.

Lemma fill_blocks (cols : nat -> seq F) (f : seq F -> res (seq F)) (sec : nat -> nat -> F) mm :
  (forall e, (e < mm)%N -> f (cols e) = Ok (mkseq (sec e) l)) ->
  foldM (fun s1 (x : nat * seq F) =>
      let! tmp := f x.2 in
      foldM (fun s1 j => let! v := vget tmp j in vset s1 (x.1 * l + j) v) s1 (iota 0 l))
    (nseq (mm * l) 0) (zip (iota 0 mm) (mkseq cols mm)) =
  Ok (mkseq (fun q => sec (q %/ l)%N (q %% l)%N) (mm * l)).
Proof.
move=> Hf; have l0 := pp_l_gt0 ok; set h := (X in foldM X _ _).
have Ez e : (e <= mm)%N -> zip (iota 0 e) (mkseq cols e) = [seq (i, cols i) | i <- iota 0 e].
  by move=> _; rewrite -{1}[iota 0 e]map_id zip_map.
suff H e : (e <= mm)%N -> foldM h (nseq (mm * l) 0) (zip (iota 0 e) (mkseq cols e)) =
    Ok (mkseq (fun q => if (q < e * l)%N then sec (q %/ l)%N (q %% l)%N else 0) (mm * l)).
  by rewrite H //; congr Ok; apply: eq_mkseq_in => q ->.
elim: e => [|e IH] le_e.
  congr Ok; apply: (@eq_from_nth _ 0); rewrite ?size_mkseq ?size_nseq // => q lt_q.
  by rewrite nth_mkseq // nth_nseq lt_q.
rewrite Ez // -addn1 iotaD map_cat foldM_cat -Ez ?(ltnW le_e) // IH ?(ltnW le_e) //.
rewrite [rbind (Ok _) _]/= add0n /= /h Hf // [rbind (Ok _) _]/= fill_block ?size_mkseq //; last first.
  by rewrite addnC -mulSn leq_mul2r le_e orbT.
rewrite /=; congr Ok; apply: eq_mkseq_in => q lt_q.
have -> : (e * l <= q < e * l + l)%N = (e == q %/ l)%N.
  apply/idP/eqP => [/andP[H1 H2]|->]; last by rewrite leq_trunc_div /= -mulSnr ltn_ceil.
  by apply/eqP; rewrite eqn_leq leq_divRL // H1 /= -ltnS ltn_divLR // mulSnr.
case: (e =P _) => [Ee|/eqP neq].
  rewrite Ee; have Eq := divn_eq q l.
  have -> : (q - q %/ l * l = q %% l)%N by lia.
  have lt_m : (q %% l < l)%N by rewrite ltn_pmod.
  by rewrite nth_mkseq // addn1 ltn_ceil.
have -> : (q < (e + 1) * l = (q < e * l))%N; last by rewrite nth_mkseq.
by rewrite -!ltn_divLR // addn1 ltnS leq_eqVlt eq_sym (negbTE neq).
Qed.

Lemma fft2_kingP dbg rearrange g gen r d deg ord (x : nat -> seq F) sec :
  hash_ok ord -> (2 ^ k)%N.-primitive_root gen -> (deg <= 4 * l - 1)%N ->
  vsharing (T := Fm) pp deg m x sec ->
  fft2_king dbg pp m m rearrange g gen r (received_from x n d ord) =
  share_out dbg pp rearrange (mkseq (fun q =>
     g ^+ q * kfft gen (fun i => sec (i %/ l)%N (i %% l)%N) q) (2 ^ k)) r.
Proof.
move=> Ho pr Hd /vsharingP[H1 H2]; have m0 : (0 < m)%N by rewrite expn_gt0.
have Em : (m * l = 2 ^ k)%N by rewrite El expnD.
rewrite /fft2_king (transpose_who (T := Fm) ok d Ho m0 H1) [rbind (Ok _) _]/=.
rewrite parties_who.
rewrite (@fill_blocks _ (fun c => unpack_missing_shares dbg pp (c : seq F^o) (who pp d ord)) sec); last first.
  by move=> e lt_e; apply: (unpack_who (T := Fm) ok dbg d Ho Hd (H2 e lt_e)).
rewrite [rbind (Ok _) _]/= fft2_kfft ?size_mkseq // [rbind (Ok _) _]/= shiftE size_mkseq.
congr share_out; apply: eq_mkseq_in => q lt_q; rewrite nth_mkseq //; congr (_ * _).
by apply: eq_kfft => // i lt_i; rewrite nth_mkseq // Em.
Qed.

(** *** The round *)

Definition slot_ix (rearrange : bool) (e j : nat) : nat :=
  if rearrange then bitrev k (e + j * m) else (e * l + j)%N.

Lemma slots_ix (T : lmodType F) rearrange (v : seq T) e j :
  slots pp rearrange b k v e j = v`_(slot_ix rearrange e j).
Proof. by case: rearrange. Qed.

Lemma slot_ix_lt rearrange e j : (e < m)%N -> (j < l)%N -> (slot_ix rearrange e j < 2 ^ k)%N.
Proof.
case: rearrange => [_ _|]; first exact: bitrev_lt.
by rewrite expnD -El /slot_ix; generalize m l => x y; nia.
Qed.

Lemma slots_mkseq (T : lmodType F) rearrange (f : nat -> T) e j : (e < m)%N -> (j < l)%N ->
  slots pp rearrange b k (mkseq f (2 ^ k)) e j = f (slot_ix rearrange e j).
Proof. by move=> lt_e lt_j; rewrite slots_ix nth_mkseq // slot_ix_lt. Qed.

Variables (cF : codec F) (mb : nat).
Hypotheses (cF_ok : codec_ok cF mb) (m_small : (m < 256 ^ 8)%N).

(** what the king computes from the secrets [sec] and the mask values [v] *)
Definition king_values g gen (sec : nat -> nat -> F) (v : nat -> F) : seq F :=
  mkseq (fun q => g ^+ q * kfft gen (fun i => sec (i %/ l)%N (i %% l)%N
                                              + v (i %/ l * l + i %% l)%N) q) (2 ^ k).

Lemma fft2_answer dbg rearrange g gen (masks : nat -> fft_mask F) (x : nat -> seq F) sec deg v r dealt :
  (2 ^ k)%N.-primitive_root gen -> (deg <= 4 * l - 1)%N ->
  vsharing (T := Fm) pp (2 * l) m (fun p => fm_in (masks p)) (fun e j => v (e * l + j)%N) ->
  vsharing (T := Fm) pp (2 * l) m (fun p => fm_out (masks p))
    (slots (T := Fm) pp rearrange b k (mkseq (fun q => - (g ^+ q * kfft gen v q)) (2 ^ k))) ->
  vsharing (T := Fm) pp deg m x sec ->
  let ans := king_values g gen sec v in
    share_out dbg pp rearrange ans r = Ok (mkseq dealt n) ->
    vsharing (T := Fm) pp (2 * l) m dealt (slots (T := Fm) pp rearrange b k ans) ->
    vsharing (T := Fm) pp (2 * l) m (fun p => zipmap +%R (dealt p) (fm_out (masks p)))
      (slots (T := Fm) pp rearrange b k
        (mkseq (fun q => g ^+ q * kfft gen (fun i => sec (i %/ l)%N (i %% l)%N) q) (2 ^ k))) /\
    forall ord, hash_ok ord -> king_log n (fun d => d != 0%N)
      (fun p => fft2_with_rearrange dbg pp n p ord cF (x p) (masks p) rearrange g gen r)
      (fun p => zipmap +%R (dealt p) (fm_out (masks p)))
      (king_msgs (fun p => enc (vec_codec cF) (dealt p))).
Proof.
move=> pr Hdeg Hin Hout Hx ans Ed Hd; have l0 := pp_l_gt0 ok; have En := ppn ok.
pose deg' := maxn deg (2 * l).
have Hdeg' : (deg' <= 4 * l - 1)%N by rewrite geq_max Hdeg; lia.
have Hsum := vsharing_add (vsharing_widen (leq_maxl deg (2 * l)) Hx)
                          (vsharing_widen (leq_maxr deg (2 * l)) Hin).
pose sec' e j := sec e j + v (e * l + j)%N.
split.
  apply: vsharing_ext (vsharing_add Hd Hout) => // e j lt_e lt_j.
  rewrite !slots_mkseq // /sec' kfftD mulrDr -addrA -[RHS]addr0; congr (_ + _).
  set q := slot_ix _ _ _; have lt_q : (q < 2 ^ k)%N by apply: slot_ix_lt.
  rewrite (@eq_kfft gen _ v q lt_q) ?subrr // => i lt_i.
  by rewrite -divn_eq.
move=> ord Ho; have n1 := n_gt1 ok.
pose x' p := zipmap +%R (x p) (fm_in (masks p)).
have sx' p : (p < n)%N -> size (x' p) = m by case: Hsum => H _ /H.
have sx p : (p < n)%N -> size (x p) = m by case: Hx => H _ /H.
have sd p : (p < n)%N -> size (dealt p) = m by case: Hd => H _ /H.
have Hdec (s : seq F) : size s = m -> ModelNet.decode (vec_codec cF) (enc (vec_codec cF) s) = Ok s.
  by move=> ss; apply: (decode_vec cF_ok); rewrite ss.
rewrite /fft2_with_rearrange -/(king_map _ _).
have K : king_log n (fun d => d != 0%N) (fun p =>
    do! rs := csokr_ser (vec_codec cF) n p ord (x' p) (p_t pp) in
    do! outs := clift (if rs is Some q then rmap Some (fft2_king dbg pp m m rearrange g gen r q) else Ok None) in
    do! w := crokss_ser (vec_codec cF) n p outs in
    clift (Ok (zipmap +%R w (fm_out (masks p)))))
  (fun p => zipmap +%R (dealt p) (fm_out (masks p)))
  (fun p => king_msgs (fun p => enc (vec_codec cF) (dealt p)) p ++ [::]).
  apply: (@king_round_log _ _ _ _ _ _ _ _ _ _ dealt) => //.
  - by lia.
  - by rewrite (ppt ok); lia.
  - by move=> i lt_i; apply/Hdec/sx'.
  - by move=> i lt_i; apply/Hdec/sd.
  - by move=> i lt_i; rewrite !(size_enc_vec cF_ok) !sd //; lia.
  - by move=> d _; rewrite (fft2_kingP dbg rearrange g r d Ho pr Hdeg' Hsum) -Ed.
  - exact: KL_ret.
apply: king_log_ext K => // [|p lt_p|p _]; first by lia.
  by rewrite sx // -/(x' p) sx'.
by rewrite cats0.
Qed.

Lemma fft2_round dbg rearrange g gen (masks : nat -> fft_mask F) (x : nat -> seq F) sec deg r :
  (2 ^ k)%N.-primitive_root gen -> (deg <= 4 * l - 1)%N -> masks_ok rearrange g gen masks ->
  vsharing (T := Fm) pp deg m x sec ->
  exists out : nat -> seq F,
    vsharing (T := Fm) pp (2 * l) m out (slots (T := Fm) pp rearrange b k
      (mkseq (fun q => g ^+ q * kfft gen (fun i => sec (i %/ l)%N (i %% l)%N) q) (2 ^ k))) /\
    forall ord, hash_ok ord -> king_prog n (fun d => d != 0%N)
      (fun p => fft2_with_rearrange dbg pp n p ord cF (x p) (masks p) rearrange g gen r) out.
Proof.
move=> pr Hdeg [v [Hin Hout]] Hx.
have [dealt [Ed Hd]] := share_out_deal dbg rearrange r (size_mkseq _ _ : size (king_values g gen sec v) = _).
have [H K] := fft2_answer pr Hdeg Hin Hout Hx Ed Hd.
by exists (fun p => zipmap +%R (dealt p) (fm_out (masks p))); split=> // ord /K/king_log_prog.
Qed.

(** the parties' stage *)
Lemma fft1_vsharing gen deg (x : nat -> seq F) sec : (2 ^ k)%N.-primitive_root gen ->
  vsharing (T := Fm) pp deg m x sec ->
  exists y : nat -> seq F, (forall p, (p < n)%N -> fft1 pp (x p) gen = Ok (y p)) /\
    vsharing (T := Fm) pp deg m y (fun e j => bsum gen (2 ^ lam) b e (fun i => sec i j)).
Proof.
move=> pr Hx; have sx p : (p < n)%N -> size (x p) = m by case: Hx => H _ /H.
exists (fun p => mkseq (fun e => bsum gen (2 ^ lam) b e (nth 0 (x p))) m); split.
  by move=> p lt_p; apply: fft1P => //; [exact: sx|move=> K EK; apply: half_root; rewrite EK].
by have := vsharing_matrix m (fun e i => gen ^+ (2 ^ lam * e.+1 * bitrev b i)) Hx.
Qed.

Lemma strides_split (c : seq F) i j : (i < m)%N -> strides (T := Fm) b k c i j = c`_(bitrev k (j * m + i)).
Proof. by move=> _; rewrite /strides [(i + _)%N]addnC. Qed.

(** closed form of both stages *)
Lemma kfft_eval gen (c : seq F) q : (2 ^ k)%N.-primitive_root gen -> size c = (2 ^ k)%N ->
  (q < 2 ^ k)%N ->
  kfft gen (fun i => bsum gen (2 ^ lam) b (i %/ l) (fun e => strides (T := Fm) b k c e (i %% l))) q =
  pval (gen ^+ q) (c : seq F^o).
Proof.
move=> pr sc lt_q; have l0 := pp_l_gt0 ok.
pose f i := bsum gen (2 ^ lam) b (i %/ l) (fun e => strides (T := Fm) b k c e (i %% l)).
pose s := mkseq f (2 ^ k).
have ss : size s = (2 ^ k)%N by rewrite size_mkseq.
have E i j : (i < m)%N -> (j < 2 ^ lam)%N -> s`_(i * 2 ^ lam + j) =
    bsum gen (2 ^ lam) b i (fun e => c`_(bitrev k (j * m + e))).
  move=> lt_i lt_j; rewrite nth_mkseq; last first.
    by rewrite expnD; move: lt_i lt_j; generalize m (2 ^ lam)%N => u w; nia.
  rewrite /f El divnMDl ?expn_gt0 // divn_small // addn0 modnMDl modn_small //.
  by apply: eq_bsum => e lt_e; rewrite strides_split.
have := split_fft El pr sc ss E; rewrite fft2_kfft // => H0; have {H0} H := Ok_inj H0.
rewrite (@eq_kfft gen _ (nth 0 s) q) //; last by move=> i lt_i; rewrite nth_mkseq.
by have /(congr1 (nth 0 ^~ q)) /= := H; rewrite !nth_mkseq.
Qed.

(** *** The protocols *)

Variable dom : domain F.
Hypothesis Edom : domain_new F (2 ^ k) = Some dom.

Lemma dom_ok : [/\ domain_ok dom, d_size dom = (2 ^ k)%N & d_offset dom = 1].
Proof. by have [H1 H2 H3 _] := domain_new_ok Edom; rewrite H2 next_pow2_expn. Qed.

Lemma dom_prim : (2 ^ k)%N.-primitive_root (d_gen dom).
Proof. by have [[pr _ _ _ _ _] <- _] := dom_ok. Qed.

Lemma dom_prim_inv : (2 ^ k)%N.-primitive_root (d_gen_inv dom).
Proof.
have [dok Es _] := dom_ok; have pr := dom_prim; rewrite (dok_gen_inv dok).
have N0 : (0 < 2 ^ k)%N by rewrite expn_gt0.
have -> : (d_gen dom)^-1 = d_gen dom ^+ (2 ^ k).-1.
  apply: (mulfI (dok_gen dok)); rewrite divff ?(dok_gen dok) // -exprS prednK //.
  by rewrite prim_expr_order.
by rewrite prim_root_exp_coprime // coprime_sym coprimenP.
Qed.

Lemma px_assert (T U : Type) dbg (s : seq U) (t : cproc T) : size s = m ->
  (do! _ := clift (dassert dbg (size s * l == d_size dom)%N) in t) = t.
Proof.
by have [_ -> _] := dom_ok; move=> ->; rewrite El expnD eqxx /dassert implybT.
Qed.

Lemma d_fft_prog dbg rearrange (masks : nat -> fft_mask F) (x : nat -> seq F) (c : seq F) deg r :
  (deg <= 4 * l - 1)%N -> masks_ok rearrange 1 (d_gen dom) masks -> size c = (2 ^ k)%N ->
  vsharing (T := Fm) pp deg m x (strides (T := Fm) b k c) ->
  exists out : nat -> seq F,
    vsharing (T := Fm) pp (2 * l) m out
      (slots (T := Fm) pp rearrange b k (evals (T := Fm) 1 (d_gen dom) (2 ^ k) c)) /\
    forall ord, hash_ok ord -> king_prog n (fun d => d != 0%N)
      (fun p => d_fft dbg pp n p ord cF (x p) (masks p) rearrange dom r) out.
Proof.
move=> Hdeg Hm sc Hx; have pr := dom_prim.
have [y [Ey Hy]] := fft1_vsharing pr Hx.
have [out [Ho Hp]] := fft2_round dbg r pr Hdeg Hm Hy.
exists out; split.
  apply: vsharing_ext Ho => // e j lt_e lt_j; rewrite !slots_mkseq // expr1n mul1r mul1r.
  by rewrite kfft_eval // slot_ix_lt.
move=> ord Hord; apply: king_prog_ext (Hp ord Hord); first by have := n_gt1 ok; lia.
move=> p lt_p; have sx : size (x p) = m by case: Hx => H _; apply: H.
by rewrite /d_fft px_assert // Ey.
Qed.

Lemma vsharing_scale mm a deg (x : nat -> seq F) sec : vsharing (T := Fm) pp deg mm x sec ->
  vsharing (T := Fm) pp deg mm (fun p => [seq u * a | u <- x p]) (fun e j => sec e j * a).
Proof.
move=> /vsharingP[H1 H2]; apply/vsharingP; split=> [p lt_p|e lt_e]; first by rewrite size_map H1.
apply: shared_ext (shared_lin a (H2 e lt_e) (shared0 Fm pp deg)) => i lt_i.
  by rewrite addr0 (nth_map 0) ?H1 // mulrC.
by rewrite addr0 mulrC.
Qed.

Lemma evals_ifft (c : seq F) q : size c = (2 ^ k)%N -> (q < 2 ^ k)%N ->
  d_size_inv dom * pval (d_gen_inv dom ^+ q) (evals (T := Fm) 1 (d_gen dom) (2 ^ k) c : seq F^o) = c`_q.
Proof.
move=> sc lt_q; have [dok Es Eo] := dom_ok; rewrite -Es in sc lt_q.
rewrite -[in RHS](fftK (T := Fm) dok sc) nth_mkseq // resize_id ?size_fft // heval_pval.
rewrite (dok_offset_inv dok) Eo invr1 expr1n mul1r.
have -> : evals (T := Fm) 1 (d_gen dom) (2 ^ k) c = fft dom (c : seq Fm); last by [].
rewrite -Es fft_mkseq ?sc //; apply: eq_map => i; by rewrite /element Eo.
Qed.

(** the values computed by both stages from scaled values are the coefficients *)
Lemma ifft_slots rearrange g (c : seq F) e j : size c = (2 ^ k)%N -> (e < m)%N -> (j < l)%N ->
  let v := evals (T := Fm) 1 (d_gen dom) (2 ^ k) c in
  slots (T := Fm) pp rearrange b k (mkseq (fun q => g ^+ q * kfft (d_gen_inv dom) (fun i =>
      bsum (d_gen_inv dom) (2 ^ lam) b (i %/ l)
        (fun e' => strides (T := Fm) b k v e' (i %% l) * d_size_inv dom)) q) (2 ^ k)) e j =
  slots (T := Fm) pp rearrange b k (coset_coeffs (T := Fm) g c) e j.
Proof.
move=> sc lt_e lt_j v; have pr := dom_prim_inv.
rewrite !slots_ix !nth_mkseq ?sc ?slot_ix_lt //.
set q := slot_ix _ _ _; have lt_q : (q < 2 ^ k)%N by rewrite slot_ix_lt.
congr (_ * _); rewrite -[RHS](evals_ifft sc) //.
pose w := [seq u * d_size_inv dom | u <- evals (T := Fm) 1 (d_gen dom) (2 ^ k) c].
have sw : size w = (2 ^ k)%N by rewrite size_map size_mkseq.
transitivity (pval (d_gen_inv dom ^+ q) (w : seq F^o)).
  rewrite -(kfft_eval pr sw lt_q); apply: eq_kfft => // i lt_i; apply: eq_bsum => e' lt_e'.
  rewrite /strides; set ix := bitrev _ _; have lt_ix : (ix < 2 ^ k)%N by apply: bitrev_lt.
  by rewrite (nth_map 0) ?size_mkseq.
rewrite /pval sw size_mkseq big_distrr /=; apply: eq_bigr => i _.
rewrite (nth_map 0) ?size_mkseq // mulrCA; congr (_ * _); exact: mulrC.
Qed.

Lemma d_ifft_prog dbg rearrange g (masks : nat -> fft_mask F) (x : nat -> seq F) (c : seq F) deg r :
  (deg <= 4 * l - 1)%N -> masks_ok rearrange g (d_gen_inv dom) masks -> size c = (2 ^ k)%N ->
  vsharing (T := Fm) pp deg m x
    (strides (T := Fm) b k (evals (T := Fm) 1 (d_gen dom) (2 ^ k) c)) ->
  exists out : nat -> seq F,
    vsharing (T := Fm) pp (2 * l) m out
      (slots (T := Fm) pp rearrange b k (coset_coeffs (T := Fm) g c)) /\
    forall ord, hash_ok ord -> king_prog n (fun d => d != 0%N)
      (fun p => d_ifft dbg pp n p ord cF (x p) (masks p) rearrange dom g r) out.
Proof.
move=> Hdeg Hm sc Hx; have pr := dom_prim_inv.
have [y [Ey Hy]] := fft1_vsharing pr (vsharing_scale (d_size_inv dom) Hx).
have [out [Ho Hp]] := fft2_round dbg r pr Hdeg Hm Hy.
exists out; split.
  by apply: vsharing_ext Ho => // e j lt_e lt_j; apply: ifft_slots.
move=> ord Hord; apply: king_prog_ext (Hp ord Hord); first by have := n_gt1 ok; lia.
move=> p lt_p; have sx : size (x p) = m by case: Hx => H _; apply: H.
by rewrite /d_ifft px_assert // Ey.
Qed.

Lemma coset_evals g (c : seq F) : evals (T := Fm) 1 (d_gen dom) (2 ^ k) (coset_coeffs (T := Fm) g c)
  = evals (T := Fm) g (d_gen dom) (2 ^ k) c.
Proof.
apply: eq_map => i; rewrite /pval size_mkseq; apply: eq_bigr => j _.
by rewrite nth_mkseq // mul1r exprMn /GRing.scale /= mulrCA mulrA.
Qed.

End Transform.
