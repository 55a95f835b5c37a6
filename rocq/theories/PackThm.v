(** Statements about packing vectors (C18, C19). *)
From mathcomp Require Import all_ssreflect all_algebra.
From mathcomp Require Import zify.
From Verif Require Import RingTac Base ModelField ModelUtils ModelPss ModelPack Spec.
From Verif Require Import FieldProofs UtilsProofs PssProofs PackProofs ExampleField.
Set Implicit Arguments.
Unset Strict Implicit.
Unset Printing Implicit Defensive.
Import GRing.Theory.
Local Open Scope ring_scope.

(*** theorems ***)

(** C18: indices are swapped, and transposing twice gives the matrix back. *)
Lemma c18_transpose (A : Type) (x0 : A) rows cols (m : seq (seq A)) :
  (0 < rows)%N -> (0 < cols)%N -> size m = rows ->
  (forall i, (i < rows)%N -> size (nth [::] m i) = cols) ->
  exists m', [/\ transpose m = Ok m', size m' = cols,
    (forall c, (c < cols)%N -> size (nth [::] m' c) = rows),
    (forall r c, (r < rows)%N -> (c < cols)%N ->
       nth x0 (nth [::] m' c) r = nth x0 (nth [::] m r) c) &
    transpose m' = Ok m].
Proof.
move=> r0 c0 sm Hm; have R : rect rows cols m by split.
rewrite (transpose_rect x0 r0 c0 R); eexists; split; first by [].
- by rewrite size_mkseq.
- by move=> c lt_c; rewrite nth_mkseq // size_mkseq.
- by move=> r c lt_r lt_c; rewrite nth_mkseq // nth_mkseq.
- rewrite (transpose_rect x0 c0 r0); last exact: rect_mkseq.
  rewrite [in RHS](rect_eq x0 R); congr Ok.
  apply: (@eq_from_nth _ [::]); rewrite !size_mkseq // => r lt_r.
  rewrite !nth_mkseq //; apply: (@eq_from_nth _ x0); rewrite !size_mkseq // => c lt_c.
  by rewrite !nth_mkseq // nth_mkseq.
Qed.

(** C18: it panics on an empty matrix, an empty first row, or a row shorter than the first. *)
Lemma c18_transpose_panic (A : Type) (m : seq (seq A)) :
  m = [::] \/ head [::] m = [::] \/
  (exists2 i, (i < size m)%N & (size (nth [::] m i) < size (head [::] m))%N) ->
  transpose m = Panic.
Proof.
case: m => [//|r0 m] /= [//|[->|[i lt_i lt_r]]] //.
have -> : transpose (r0 :: m) = (let! _ := vget r0 0 in
  mapM (fun c => mapM (fun row => vget row c) (r0 :: m)) (iota 0 (size r0))) by [].
have s0 : (0 < size r0)%N by apply: leq_ltn_trans lt_r.
case E0: (vget r0 0) => [x|e|]; [rewrite {1}/rbind|by case: (vget_nerr E0)|by []].
apply: (@mapM_panic _ _ _ _ (size (nth [::] (r0 :: m) i)) 0%N).
- by move=> c e; apply: mapM_nerr => row e'; apply: vget_nerr.
- by rewrite size_iota.
- rewrite nth_iota // add0n.
  apply: (@mapM_panic _ _ _ _ i [::]) => //; first by move=> row e'; apply: vget_nerr.
  exact: vget_panic.
Qed.

(** C19: after [transpose (pack_vec secrets)] party i holds share i of every chunk in order:
    unpacking column c gives chunk c, and concatenating the chunks gives the vector. *)
Lemma c19_pack_vec_layout (F : fftField) (T : lmodType F) dbg k pp (secrets : seq T) (r : rng T) m :
  pss_new F dbg (2 ^ k) = Ok pp -> (0 < m)%N -> size secrets = (m * p_l pp)%N ->
  exists by_chunk by_party, [/\
    pack_vec dbg pp secrets r = Ok by_chunk, transpose by_chunk = Ok by_party,
    size by_party = p_n pp /\ (forall i, (i < p_n pp)%N -> size (nth [::] by_party i) = m),
    (forall c, (c < m)%N -> sharing pp (p_l pp + p_t pp)
       (mkseq (fun i => (nth [::] by_party i)`_c) (p_n pp))
       (take (p_l pp) (drop (c * p_l pp) secrets))) &
    flatten (mkseq (fun c => unpack pp (mkseq (fun i => (nth [::] by_party i)`_c) (p_n pp))) m)
      = secrets].
Proof.
move=> /pss_new_ok ok m0 ss.
have [sh [E R H]] := pack_vec_sharing ok dbg r ss.
have n0 : (0 < p_n pp)%N by rewrite (ppn ok); have := pp_l_gt0 ok; lia.
pose M := mkseq (fun i => mkseq (fun c => (nth [::] sh c)`_i) m) (p_n pp).
have HM c : (c < m)%N -> mkseq (fun i => (nth [::] M i)`_c) (p_n pp) = nth [::] sh c.
  move=> lt_c; have [_ Hs] := R.
  apply: (@eq_from_nth _ 0); rewrite size_mkseq ?Hs // => i lt_i.
  by rewrite nth_mkseq // nth_mkseq // nth_mkseq.
have Hc c : (c < m)%N -> nth [::] (chunks (p_l pp) secrets) c =
    take (p_l pp) (drop (c * p_l pp) secrets).
  by move=> lt_c; rewrite nth_chunks // ss div_ceil_mul // (pp_l_gt0 ok).
exists sh, M; split=> //.
- exact: transpose_rect.
- by split=> [|i lt_i]; rewrite ?size_mkseq // nth_mkseq // size_mkseq.
- by move=> c lt_c; rewrite HM // -Hc // (ppt ok) addnn -mul2n; apply: H.
- rewrite -[RHS](flatten_chunks ok ss); congr flatten.
  apply: (@eq_from_nth _ [::]) => [|c].
    by rewrite size_mkseq size_chunks ss div_ceil_mul // (pp_l_gt0 ok).
  rewrite size_mkseq => lt_c; rewrite nth_mkseq // HM //.
  exact: (unpack_sharing ok (H c lt_c)).
Qed.

(** C19: debug builds panic when the length is not a multiple of l. *)
Lemma c19_pack_vec_debug (F : fftField) (T : lmodType F) pp (secrets : seq T) (r : rng T) :
  ~~ (p_l pp %| size secrets)%N -> pack_vec true pp secrets r = Panic.
Proof.
rewrite /dvdn /pack_vec => nz; rewrite /rassert; case: ltnP => // _.
by rewrite /dassert /= (negbTE nz).
Qed.

(** C19: in release builds the last, short chunk is completed by random values: unpacking the last
    column returns the remaining secrets followed by the first values the generator delivered. *)
Lemma c19_pack_vec_release (F : fftField) (T : lmodType F) k pp (secrets : seq T) (r : rng T) m q :
  pss_new F false (2 ^ k) = Ok pp -> size secrets = (m * p_l pp + q)%N -> (0 < q < p_l pp)%N ->
  exists2 by_chunk, pack_vec false pp secrets r = Ok by_chunk &
    size by_chunk = m.+1 /\
    unpack pp (nth [::] by_chunk m) =
      drop (m * p_l pp) secrets ++ mkseq (fun i => r (m * p_t pp + i)%N) (p_l pp - q).
Proof.
move=> /pss_new_ok ok ss /andP[q0 lt_q]; have l0 := pp_l_gt0 ok.
rewrite /pack_vec /rassert l0 /dassert implyFb ![rbind (Ok tt) _]/= size_chunks ss.
have -> : div_ceil (m * p_l pp + q) (p_l pp) = m.+1.
  rewrite /div_ceil -addnA divnMDl //.
  have -> : (q + (p_l pp).-1 = 1 * p_l pp + q.-1)%N by lia.
  by rewrite divnMDl // divn_small ?addn0 ?addn1 //; lia.
set cs := chunks _ _.
have scs : size cs = m.+1.
  rewrite size_chunks ss /div_ceil -addnA divnMDl //.
  have -> : (q + (p_l pp).-1 = 1 * p_l pp + q.-1)%N by lia.
  by rewrite divnMDl // divn_small ?addn0 ?addn1 //; lia.
have Hcs i : (i < m.+1)%N -> nth [::] cs i = take (p_l pp) (drop (i * p_l pp) secrets).
  by move=> lt_i; rewrite nth_chunks // -size_chunks -/cs scs.
have lecs i : (i < m.+1)%N -> (size (nth [::] cs i) <= p_l pp)%N.
  by move=> lt_i; rewrite Hcs // size_take; case: ltnP => // /ltnW.
pose sh i := get_ok [::] (pack false pp (nth [::] cs i) (rskip (i * p_t pp) r)).
exists (mkseq sh m.+1).
  apply: mapM_ok => i0 i; rewrite size_iota => lt_i; rewrite nth_iota // add0n.
  rewrite (vget_nth [::]) ?scs //.
split; first by rewrite size_mkseq.
rewrite nth_mkseq // /sh.
have [s [-> _ H]] := pack_short ok (rskip (m * p_t pp) r) (lecs m (ltnSn m)).
rewrite (unpack_sharing ok H) Hcs //.
have sd : size (drop (m * p_l pp) secrets) = q by rewrite size_drop ss; lia.
rewrite (@take_oversize _ (p_l pp) (drop _ _)) ?sd 1?ltnW //.
rewrite take_cat sd ltnNge (ltnW lt_q) /=; congr (_ ++ _).
rewrite /mkseq -map_take take_iota; congr (map _ (iota _ _)).
by apply/minn_idPl; lia.
Qed.
