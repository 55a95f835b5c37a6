(** Proofs about the proving key, the witness shares and the prover. *)
From mathcomp Require Import all_ssreflect all_algebra.
From mathcomp Require Import zify.
From Verif Require Import RingTac Base ModelField ModelUtils ModelPss ModelPack ModelFft ModelNet.
From Verif Require Import ModelProto ModelQap ModelProve Spec SpecNet SpecProto SpecGroth.
From Verif Require Import NetProofs KingProofs NetThm PartyProofs.
From Verif Require Import FieldProofs UtilsProofs PssProofs PackProofs FftProofs ProtoProofs DegProofs.
From Verif Require Import QapProofs.
Set Implicit Arguments.
Unset Strict Implicit.
Unset Printing Implicit Defensive.
Import GRing.Theory.
Local Open Scope ring_scope.

Section Deal.
Variable F : fftField.
Variables (pp : pss F) (ok : pp_ok pp).
  Local Notation l := (p_l pp).
  Local Notation n := (p_n pp).

Lemma div_ceil_le k m x : (0 < k)%N -> (x <= m * k)%N -> (m * k < x + k)%N -> div_ceil x k = m.
Proof.
move=> k0 le lt; rewrite /div_ceil; have -> : (x + k.-1 = m * k + (x + k.-1 - m * k))%N by lia.
by rewrite divnMDl // divn_small; lia.
Qed.

Lemma div_ceil_ge x k : (0 < k)%N -> (x <= div_ceil x k * k)%N.
Proof.
move=> k0; rewrite leqNgt; apply/negP => H; rewrite /div_ceil in H.
by have := ltn_pmod (x + k.-1) k0; have := divn_eq (x + k.-1) k; lia.
Qed.

Section Module.
Variable T : lmodType F.

(** a zero-padded chunk *)
Lemma chunk_slots (q : seq T) e j : (e < div_ceil (size q) l)%N -> (j < l)%N ->
  (nth [::] (chunks l q) e)`_j = blocks pp q e j.
Proof. by move=> lt_e lt_j; rewrite nth_chunks // nth_take // nth_drop. Qed.

Lemma size_chunk_le (q : seq T) e : (e < div_ceil (size q) l)%N ->
  (size (nth [::] (chunks l q) e) <= l)%N.
Proof. by move=> lt_e; rewrite nth_chunks // size_take; case: ltnP => //. Qed.

Lemma resize_short (s : seq T) k : (size s <= k)%N -> s ++ nseq (k - size s) 0 = mkseq (nth 0 s) k.
Proof.
move=> le_s; apply: (@eq_from_nth _ 0); rewrite size_cat size_nseq subnKC ?size_mkseq //.
move=> i lt_i; rewrite nth_cat nth_nseq nth_mkseq //.
by case: ltnP => H //; rewrite nth_default // if_same.
Qed.

(** columns of a matrix of sharings *)
Lemma columns_of (packed : seq (seq T)) m (sec : nat -> nat -> T) :
  size packed = m ->
  (forall e, (e < m)%N -> size (nth [::] packed e) = n /\
     sharing pp (2 * l) (nth [::] packed e) (mkseq (sec e) l)) ->
  exists out, (forall i, (i < n)%N -> column packed i = Ok (out i)) /\
    vsharing pp (2 * l) m out sec.
Proof.
move=> sp H; exists (fun i => [seq row`_i | row <- packed]); split=> [i lt_i|].
  rewrite /column (mapM_ok (g := fun row => row`_i)) // => r0 k; rewrite sp => lt_k.
  rewrite (set_nth_default [::]) ?sp //; apply: vget_nth.
  by have [-> _] := H k lt_k.
split=> [p lt_p|e lt_e]; first by rewrite size_map.
have [sr Hs] := H e lt_e; have E : nth [::] packed e = mkseq (fun p => [seq row`_p | row <- packed]`_e) n.
  rewrite -{1}[nth [::] packed e](mkseq_nth 0) sr; apply: eq_map => p.
  by rewrite (nth_map [::]) ?sp.
by rewrite -E.
Qed.

Lemma det_pack_sharing (dbg : bool) (c : seq T) : (size c <= l)%N -> (dbg -> size c = l) ->
  exists2 sh, det_pack dbg pp c = Ok sh & size sh = n /\ sharing pp (2 * l) sh (mkseq (nth 0 c) l).
Proof.
move=> le_c Hd; pose c' := mkseq (nth 0 c) l.
have sc' : size c' = l by rewrite size_mkseq.
have [sh [E sn H]] := pack_sharing ok dbg (fun=> 0) sc'.
exists sh => //; rewrite -E /pack (ppt ok) -[mkseq _ _]/(mkseq (fun=> 0) l).
have -> : mkseq (fun=> 0 : T) l = nseq l 0.
  by apply: (@eq_from_nth _ 0); rewrite size_mkseq ?size_nseq // => i lt_i;
     rewrite nth_mkseq // nth_nseq lt_i.
case: dbg Hd {E} => Hd; last by rewrite (det_pack_release ok) // resize_short.
rewrite (det_pack_full ok) ?Hd //; congr pack_pts.
by rewrite -[LHS](mkseq_nth 0) Hd.
Qed.

Lemma pack_query_columns (dbg : bool) (q : seq T) : (dbg -> l %| size q)%N ->
  exists packed out, [/\ pack_query dbg pp q = Ok packed,
    forall i, (i < n)%N -> column packed i = Ok (out i) &
    vsharing pp (2 * l) (div_ceil (size q) l) out (blocks pp q)].
Proof.
move=> Hd; have l0 := pp_l_gt0 ok; rewrite /pack_query /rassert l0 [rbind (Ok _) _]/=.
set m := div_ceil (size q) l.
have P e : (e < m)%N -> exists2 sh, det_pack dbg pp (nth [::] (chunks l q) e) = Ok sh &
    size sh = n /\ sharing pp (2 * l) sh (mkseq (blocks pp q e) l).
  move=> lt_e; have [||sh E [sn H]] := @det_pack_sharing dbg (nth [::] (chunks l q) e).
  - exact: size_chunk_le.
  - move=> /Hd/dvdnP[k sq]; apply: (size_nth_chunks ok sq); move: lt_e.
    by rewrite /m sq div_ceil_mul.
  exists sh => //; split=> //; move: H; congr (sharing _ _ _ _).
  by apply: eq_mkseq_in => j lt_j; apply: chunk_slots.
exists [seq get_ok [::] (det_pack dbg pp c) | c <- chunks l q].
have sm : size [seq get_ok [::] (det_pack dbg pp c) | c <- chunks l q] = m.
  by rewrite size_map size_chunks.
have [|out [Hc Hv]] := columns_of (sec := blocks pp q) sm.
  move=> e lt_e; have [sh E H] := P e lt_e.
  by rewrite (nth_map [::]) ?size_chunks // E.
exists out; split=> //.
rewrite (mapM_ok (g := fun c => get_ok [::] (det_pack dbg pp c))) // => c0 k.
rewrite size_chunks => lt_k; rewrite (set_nth_default [::]) ?size_chunks //.
by have [sh -> _] := P k lt_k.
Qed.

Lemma pack_query_panic (q : seq T) : ~~ (l %| size q)%N -> pack_query true pp q = Panic.
Proof.
move=> nd; have l0 := pp_l_gt0 ok; rewrite /pack_query /rassert l0 [rbind (Ok _) _]/=.
set m := div_ceil (size q) l.
have q0 : (0 < size q)%N by rewrite lt0n; apply: contraNN nd => /eqP ->; rewrite dvdn0.
have Hc := div_ceil_ge (size q) l0; rewrite -/m in Hc.
have m0 : (0 < m)%N by rewrite lt0n; apply/eqP => E; rewrite E mul0n in Hc; lia.
apply: (mapM_panic (k := m.-1) (i0 := [::])).
- by move=> i e; rewrite /det_pack /dassert; case: (_ ==> _).
- by rewrite size_chunks prednK.
apply: det_pack_debug_panic; rewrite nth_chunks ?prednK //.
rewrite size_take size_drop; apply: contraNN nd => /eqP.
have lt : (m.-1 * l < size q)%N by apply: (div_ceil_bound l0); rewrite prednK.
case: ltnP => [H|H] E; last first.
  apply/dvdnP; exists m; have : (m * l = m.-1 * l + l)%N by rewrite -{1}(prednK m0) mulSn addnC.
  by move=> ?; lia.
have : (m * l = m.-1 * l + l)%N by rewrite -{1}(prednK m0) mulSn addnC.
by move=> ?; lia.
Qed.

End Module.

Lemma witness_columns dbg (z : seq F) (r : rng F) :
  exists out, pack_from_witness dbg pp z r = Ok (mkseq out n) /\
    vsharing (T := [lmodType F of F^o]) pp (2 * l) (div_ceil (size z) l) out
      (blocks (T := [lmodType F of F^o]) pp z).
Proof.
have l0 := pp_l_gt0 ok; rewrite /pack_from_witness /rassert l0 [rbind (Ok _) _]/=.
set m := div_ceil (size z) l; rewrite size_chunks -/m.
set f := (X in mapM X (iota 0 m)).
have P e : (e < m)%N -> exists2 sh, f e = Ok sh &
    size sh = n /\ sharing (T := [lmodType F of F^o]) pp (2 * l) sh
      (mkseq (blocks (T := [lmodType F of F^o]) pp z e) l).
  move=> lt_e; rewrite /f (vget_nth [::]) ?size_chunks // [rbind (Ok _) _]/=.
  set c := nth [::] (chunks l z) e.
  have le_c : (size c <= l)%N by apply: (size_chunk_le (T := [lmodType F of F^o])).
  set s := (if _ then _ else _).
  have Es : s = mkseq (blocks (T := [lmodType F of F^o]) pp z e) l.
    have -> : s = mkseq (nth 0 c) l.
      rewrite /s; case: ltnP => H; first by rewrite /resize take_oversize //; apply: (resize_short (T := [lmodType F of F^o])).
      by rewrite -[LHS](mkseq_nth 0); congr mkseq; apply/eqP; rewrite eqn_leq le_c.
    apply: eq_mkseq_in => j lt_j; exact: (chunk_slots (T := [lmodType F of F^o])).
  have ss : size s = l by rewrite Es size_mkseq.
  have [sh [E sn H]] := pack_sharing (T := [lmodType F of F^o]) ok dbg (rskip (e * p_t pp) r) ss.
  by exists sh => //; rewrite -Es.
have E : mapM f (iota 0 m) = Ok (mkseq (fun e => get_ok [::] (f e)) m).
  apply: mapM_ok => e0 k; rewrite size_iota => lt_k; rewrite nth_iota // add0n.
  by have [sh -> _] := P k lt_k.
rewrite E [rbind (Ok _) _]/=.
have [|out [Hc Hv]] := columns_of (T := [lmodType F of F^o])
    (sec := blocks (T := [lmodType F of F^o]) pp z) (size_mkseq (fun e => get_ok [::] (f e)) m).
  by move=> e lt_e; have [sh E' H] := P e lt_e; rewrite nth_mkseq // E'.
exists out; split=> //; apply: mapM_ok => i0 k; rewrite size_iota => lt_k.
by rewrite nth_iota // add0n Hc.
Qed.

End Deal.
