(** Proofs about the distributed partial products. *)
From mathcomp Require Import all_ssreflect all_algebra.
From mathcomp Require Import zify.
From Verif Require Import RingTac Base ModelField ModelUtils ModelPss ModelPack ModelFft ModelNet.
From Verif Require Import ModelProto Spec SpecNet NetProofs KingProofs RoundProofs.
From Verif Require Import FieldProofs UtilsProofs PssProofs PackProofs FftProofs ProtoProofs DegProofs.
Set Implicit Arguments.
Unset Strict Implicit.
Unset Printing Implicit Defensive.
Import GRing.Theory.
Local Open Scope ring_scope.

Section Loops.
Variable F : fieldType.

Lemma quotients_loop half (s : nat -> F) k : (k <= half)%N ->
  foldM (fun numden i =>
      let! d := vget numden (i + half) in
      let! den := unwrap (if d == 0 then None else Some d^-1) in
      let! x := vget numden i in
      vset numden i (x * den)) (mkseq s (half + half)) (iota 0 k) =
  if all (fun i => s (i + half)%N != 0) (iota 0 k)
  then Ok (mkseq (fun q => if (q < k)%N then s q / s (q + half)%N else s q) (half + half))
  else Panic.
Proof.
set f := (X in foldM X _ _); elim: k => [|k IH] le_k //.
rewrite -addn1 iotaD foldM_cat IH ?(ltnW le_k) // all_cat add0n; case: ifP => // _ /=.
rewrite /f (vget_nth 0) ?size_mkseq ?ltn_add2r // [rbind (Ok _) _]/=.
rewrite nth_mkseq ?ltn_add2r //.
have -> : (k + half < k = false)%N by lia.
case: eqP => //= _.
rewrite (vget_nth 0) ?size_mkseq; last by lia.
rewrite [rbind (Ok _) _]/= (vset_nth 0) ?size_mkseq; last by lia.
rewrite /=; congr Ok; apply: (@eq_from_nth _ 0); rewrite size_set_nth !size_mkseq; first by lia.
move=> q lt_q; have lt_q' : (q < half + half)%N by move: lt_q; lia.
rewrite nth_set_nth /= !nth_mkseq //; last by lia.
case: eqP => [->|/eqP neq]; first by rewrite ltnn addn1 ltnSn.
by have -> : (q < k + 1 = (q < k))%N by lia.
Qed.

Lemma products_loop N (u : nat -> F) :
  foldM (fun numden i =>
      let! last := vget numden (i - 1) in
      let! x := vget numden i in
      vset numden i (x * last)) (mkseq u N) (iota 1 (N - 1)) =
  Ok (mkseq (fun q => \prod_(j < q.+1) u j) N).
Proof.
set f := (X in foldM X _ _).
suff H k : (k < N)%N -> foldM f (mkseq u N) (iota 1 k) =
    Ok (mkseq (fun q => if (q <= k)%N then \prod_(j < q.+1) u j else u q) N).
  case: N @f H => [|N] f H //; rewrite H; last by lia.
  by congr Ok; apply: eq_mkseq_in => q lt_q; case: ifP => //; lia.
elim: k => [|k IH] lt_k.
  by congr Ok; apply: eq_mkseq_in => -[|q] // _; rewrite leqnn big_ord1.
have -> : iota 1 k.+1 = iota 1 k ++ [:: k.+1] by rewrite -cat1s -[k.+1 in LHS]addn1 iotaD add1n.
rewrite foldM_cat IH ?(ltnW lt_k) // [rbind (Ok _) _]/=.
rewrite /f subSS subn0 (vget_nth 0) ?size_mkseq; last by lia.
rewrite [rbind (Ok _) _]/= (vget_nth 0) ?size_mkseq // [rbind (Ok _) _]/= (vset_nth 0) ?size_mkseq //.
rewrite /=; congr Ok; apply: (@eq_from_nth _ 0); rewrite size_set_nth !size_mkseq; first by lia.
move=> q lt_q; have lt_q' : (q < N)%N by move: lt_q; lia.
rewrite nth_set_nth /= !nth_mkseq //; last by lia.
case: eqP => [->|/eqP neq].
  by rewrite leqnn ltnn ltnSn [RHS]big_ord_recr /= mulrC.
by have -> : (q <= k.+1 = (q <= k))%N by lia.
Qed.

Lemma flatten_mkseq_blocks A (x0 : A) l N (sec : nat -> nat -> A) : (0 < l)%N ->
  flatten (mkseq (fun e => mkseq (sec e) l) N) = mkseq (fun q => sec (q %/ l)%N (q %% l)%N) (N * l).
Proof.
move=> l0; elim: N => [|N IH] //.
rewrite {1}/mkseq -addn1 iotaD map_cat flatten_cat -/(mkseq _ _) IH /= cats0 add0n.
rewrite /mkseq mulnDl mul1n iotaD map_cat; congr (_ ++ _).
rewrite -[(0 + N * l)%N]addn0 iotaDl -map_comp; apply/eq_in_map => j; rewrite mem_iota => /andP[_ lt_j] /=.
by rewrite add0n divnMDl // divn_small // addn0 modnMDl modn_small.
Qed.

End Loops.

Section Pp.
Variable F : fftField.
Variables (pp : pss F) (ok : pp_ok pp) (cF : codec F) (mb : nat).
Hypothesis cF_ok : codec_ok cF mb.
Local Notation l := (p_l pp).
Local Notation n := (p_n pp).
Local Notation Fm := [lmodType F of F^o].

Definition running (num den : seq F) : seq F :=
  mkseq (fun i => \prod_(j < i.+1) (num`_j / den`_j)) (size num).

Variables (dbg : bool) (m deg : nat) (num den : seq F) (xn xd : nat -> seq F).
Hypotheses (m_ok : (0 < m /\ 2 * m < 256 ^ 8)%N) (Hdeg : (deg <= 4 * l - 1)%N).
Hypotheses (sn : size num = (m * l)%N) (sd : size den = (m * l)%N).
Hypotheses (Hn : vsharing (T := Fm) pp deg m xn (blocks (T := Fm) pp num)).
Hypotheses (Hd : vsharing (T := Fm) pp deg m xd (blocks (T := Fm) pp den)).

Local Notation numden := (num ++ den).
Let x p := [seq u * 1 | u <- xn p] ++ [seq u * 1 | u <- xd p].

Lemma numden_vsharing : vsharing (T := Fm) pp deg (m + m) x (blocks (T := Fm) pp numden).
Proof.
have /vsharingP[H1 H2] := Hn; have /vsharingP[H3 H4] := Hd; have l0 := pp_l_gt0 ok.
have Em (s : seq F) : [seq u * 1 | u <- s] = s.
  by rewrite -[RHS]map_id; apply: eq_map => u; rewrite mulr1.
apply/vsharingP; split=> [p lt_p|e lt_e]; first by rewrite size_cat !size_map H1 // H3.
case: (ltnP e m) => He.
  apply: shared_ext (H2 e He) => i lt_i; rewrite /x /blocks ?Em nth_cat.
    by rewrite H1 // He.
  by rewrite sn; case: ifP => //; nia.
have He' : (e - m < m)%N by lia.
apply: shared_ext (H4 _ He') => i lt_i; rewrite /x /blocks ?Em nth_cat.
  by rewrite H1 // ltnNge He.
rewrite sn (_ : (e * l + i < m * l)%N = false); last by nia.
by congr nth; nia.
Qed.

Lemma d_pp_kingE (r : rng F) d ord : hash_ok ord -> d_pp_king dbg pp r (received_from x n d ord) =
  let! _ := dassert dbg (size (who pp d ord) == n) in
  if all (fun z => z != 0) den then
    rbind (pack_vec dbg pp (running num den : seq F^o) r) (@transpose _)
  else Panic.
Proof.
move=> Ho; have /vsharingP[H1 H2] := numden_vsharing; have l0 := pp_l_gt0 ok; have [m0 _] := m_ok.
have mm0 : (0 < m + m)%N by lia.
rewrite /d_pp_king shares_who size_map -shares_who; case: (dassert _ _) => //= -[].
rewrite (transpose_who (T := Fm) ok d Ho mm0 H1) [rbind (Ok _) _]/= parties_who.
pose sec e := mkseq (blocks (T := Fm) pp numden e) l.
have -> : mapM (fun c => unpack_missing_shares dbg pp (c : seq F^o) (who pp d ord))
    (mkseq (fun e => [seq (x i)`_e | i <- who pp d ord]) (m + m)) = Ok (mkseq sec (m + m)).
  rewrite (@mapM_ok _ _ _ (fun c => get_ok [::] (unpack_missing_shares dbg pp (c : seq F^o) (who pp d ord)))).
    rewrite -map_comp; congr Ok; apply: eq_mkseq_in => e lt_e /=.
    by rewrite (unpack_who (T := Fm) ok dbg d Ho Hdeg (H2 e lt_e)).
  move=> s0 e; rewrite size_mkseq => lt_e; rewrite nth_mkseq //.
  by rewrite (unpack_who (T := Fm) ok dbg d Ho Hdeg (H2 e lt_e)).
rewrite [rbind (Ok _) _]/= (flatten_mkseq_blocks 0 _ _ l0).
have Ef : mkseq (fun q => blocks (T := Fm) pp numden (q %/ l) (q %% l)) ((m + m) * l) =
          mkseq (fun q => numden`_q) (m * l + m * l).
  rewrite mulnDl; apply: eq_map => q; by rewrite /blocks -divn_eq.
rewrite Ef size_mkseq; have Eh : ((m * l + m * l) %/ 2 = m * l)%N by rewrite addnn divn2 doubleK.
rewrite Eh quotients_loop //.
have Eden i : (i < m * l)%N -> numden`_(i + m * l) = den`_i.
  by move=> lt_i; rewrite nth_cat sn ltnNge leq_addl addnK.
have -> : all (fun i => numden`_(i + m * l) != 0) (iota 0 (m * l)) = all (fun z => z != 0) den.
  rewrite -[in RHS](mkseq_nth 0 den) sd all_map; apply: eq_in_all => i.
  by rewrite mem_iota => /andP[_ lt_i] /=; rewrite Eden.
case: ifP => // _; rewrite [rbind (Ok _) _]/= size_mkseq Eh.
have -> : take (m * l) (mkseq (fun q => if (q < m * l)%N then numden`_q / numden`_(q + m * l) else numden`_q)
     (m * l + m * l)) = mkseq (fun q => num`_q / den`_q) (m * l).
  rewrite /mkseq -map_take take_iota (minn_idPl (leq_addr _ _)).
  apply/eq_in_map => i; rewrite mem_iota => /andP[_ lt_i]; rewrite lt_i Eden //.
  by rewrite nth_cat sn lt_i.
by rewrite size_mkseq products_loop /running sn.
Qed.

Lemma d_pp_prog (masks : nat -> degred_mask Fm) (r r' : rng F) :
  all (fun z => z != 0) den -> degred_ok pp m masks ->
  exists out : nat -> seq F,
    vsharing (T := Fm) pp (2 * l) m out (blocks (T := Fm) pp (running num den)) /\
    forall ord ord', hash_ok ord -> hash_ok ord' ->
      king_prog n (fun d => (d != 0%N) && (dbg ==> (n <= d)%N))
      (fun p => d_pp dbg pp n p ord ord' cF (xn p) (xd p) (masks p) r r') out.
Proof.
move=> nz Hm; have l0 := pp_l_gt0 ok; have En := ppn ok; have [m0 ms] := m_ok; have n1 := n_gt1 ok.
have sr : size (running num den) = (m * l)%N by rewrite size_mkseq.
have [dealt [Ed Hdeal]] := pack_vec_deal (T := Fm) ok dbg r m0 sr.
have Hd' : (2 * l <= 4 * l - 1)%N by lia.
have m_ok' : (0 < m < 256 ^ 8)%N by lia.
pose y p := [seq u * 1^-1 | u <- dealt p].
have Hy : vsharing (T := Fm) pp (2 * l) m y (blocks (T := Fm) pp (running num den)).
  apply: vsharing_ext (vsharing_scale 1^-1 Hdeal) => // e j lt_e lt_j; by rewrite invr1 mulr1.
have [out [Hout Hp]] := deg_red_prog (T := Fm) ok cF_ok dbg r' m_ok' Hd' Hm Hy.
exists out; split=> // ord ord' Ho Ho'.
have Hx := numden_vsharing.
have sx p : (p < n)%N -> size (x p) = (m + m)%N by case: Hx => H _ /H.
have sl p : (p < n)%N -> size (dealt p) = m by case: Hdeal => H _ /H.
have mms : (m + m < 256 ^ 8)%N by rewrite addnn -mul2n.
have K : king_prog n (fun d => (d != 0%N) && (dbg ==> (n <= d)%N)) (fun p =>
    do! rs := csokr_ser (vec_codec cF) n p ord (x p) (p_t pp) in
    do! outs := clift (if rs is Some q then rmap Some (d_pp_king dbg pp r q) else Ok None) in
    do! w := crokss_ser (vec_codec cF) n p outs in
    deg_red dbg pp n p ord' (T := Fm) cF [seq u * 1^-1 | u <- w] (masks p) r') out.
  apply: (@king_round _ _ _ _ _ _ _ _ _ _ dealt) => //.
  - by lia.
  - by move=> d /andP[].
  - by rewrite (ppt ok); lia.
  - by move=> i lt_i; apply: (vec_dec (T := Fm) cF_ok mms); apply: sx.
  - by move=> i lt_i; apply: (vec_dec (T := Fm) (m := m) cF_ok); [lia|apply: sl].
  - by move=> i lt_i; rewrite !(size_enc_vec cF_ok) !sl //; lia.
  - move=> d /andP[_ Hdbg]; rewrite d_pp_kingE // nz Ed.
    rewrite (_ : dassert dbg _ = Ok tt) //.
    rewrite /dassert; case: dbg Hdbg => //= dn.
    by rewrite /who /received_from ltnNge dn /= size_iota eqxx.
  - by apply: king_prog_dok (Hp ord' Ho') => d /andP[].
apply: king_prog_ext K; first by lia.
by move=> p lt_p; rewrite /d_pp /d_pp_with oner_eq0.
Qed.

End Pp.
