(** Proofs about partial products of vectors that need not be sharings. *)
From mathcomp Require Import all_ssreflect all_algebra.
From mathcomp Require Import zify.
From Verif Require Import RingTac Base ModelField ModelUtils ModelPss ModelPack ModelFft ModelNet.
From Verif Require Import ModelProto Spec SpecNet SpecTamper NetProofs KingProofs RoundProofs.
From Verif Require Import FieldProofs UtilsProofs PssProofs PackProofs FftProofs ProtoProofs DegProofs.
From Verif Require Import KingFail TamperProofs PpProofs.
Set Implicit Arguments.
Unset Strict Implicit.
Unset Printing Implicit Defensive.
Import GRing.Theory.
Local Open Scope ring_scope.

Lemma mapM_panic_in I B (f : I -> res B) (js : seq I) k i0 :
  (forall i e, (i < size js)%N -> f (nth i0 js i) <> Err e) -> (k < size js)%N ->
  f (nth i0 js k) = Panic -> mapM f js = Panic.
Proof.
elim: js k => [|j js IH] k nE //; case: k => [|k] lt_k /= E; first by rewrite E.
case Ej: (f j) => [b|e|] //=; last by case: (nE 0%N e).
by rewrite (IH k) // => i e li; apply: (nE i.+1).
Qed.

Section PpAny.
Variable F : fftField.
Variables (pp : pss F) (ok : pp_ok pp) (cF : codec F) (mb : nat).
Hypothesis cF_ok : codec_ok cF mb.
Local Notation l := (p_l pp).
Local Notation n := (p_n pp).
Local Notation Fm := [lmodType F of F^o].

Definition guessed (m : nat) (x : nat -> seq F) : seq F :=
  mkseq (fun q => interpolated pp (T := Fm) (entry (T := Fm) x (q %/ l)) (q %% l)) (m * l).

Lemma blocks_guessed m x e j : (e < m)%N -> (j < l)%N ->
  blocks (T := Fm) pp (guessed m x) e j = interpolated pp (T := Fm) (entry (T := Fm) x e) j.
Proof.
move=> le lj; have l0 := pp_l_gt0 ok; rewrite /blocks /guessed nth_mkseq; last by nia.
by rewrite divnMDl // divn_small // addn0 modnMDl modn_small.
Qed.

Variables (dbg : bool) (m : nat) (xn xd : nat -> seq F).
Hypotheses (m_ok : (0 < m /\ 2 * m < 256 ^ 8)%N).
Hypotheses (sn : forall p, (p < n)%N -> size (xn p) = m) (sd : forall p, (p < n)%N -> size (xd p) = m).

Let x p := [seq u * 1 | u <- xn p] ++ [seq u * 1 | u <- xd p].
Local Notation num := (guessed m xn).
Local Notation den := (guessed m xd).

Lemma size_x p : (p < n)%N -> size (x p) = (m + m)%N.
Proof. by move=> lp; rewrite size_cat !size_map sn ?sd. Qed.

Lemma entry_x e p : (p < n)%N -> (e < m + m)%N ->
  entry (T := Fm) x e p =
  if (e < m)%N then entry (T := Fm) xn e p else entry (T := Fm) xd (e - m) p.
Proof.
move=> lp le.
have Em (s : seq F) : [seq u * 1 | u <- s] = s.
  by rewrite -[RHS]map_id; apply: eq_map => u; rewrite mulr1.
by rewrite /entry /x !Em nth_cat sn //; case: ifP.
Qed.

Lemma unbalanced_x : unbalanced (T := Fm) pp x (m + m) =
  unbalanced (T := Fm) pp xn m || unbalanced (T := Fm) pp xd m.
Proof.
rewrite /unbalanced iotaD has_cat; congr (_ || _).
  apply: eq_in_has => e; rewrite mem_iota add0n => /= le; congr (_ != _).
  apply: eq_imbalance => p lp; rewrite entry_x ?le //; by lia.
rewrite -[(0 + m)%N]addn0 iotaDl has_map add0n; apply: eq_in_has => e; rewrite mem_iota add0n => /= le.
congr (_ != _); apply: eq_imbalance => p lp; rewrite entry_x //; last by lia.
by rewrite ltnNge leq_addr addKn.
Qed.

Lemma d_pp_king_any (r : rng F) d ord : (n <= d)%N -> hash_ok ord ->
  d_pp_king dbg pp r (received_from x n d ord) =
  if dbg && (unbalanced (T := Fm) pp xn m || unbalanced (T := Fm) pp xd m) then Panic
  else if all (fun z => z != 0) den then
    rbind (pack_vec dbg pp (running num den : seq F^o) r) (@transpose _)
  else Panic.
Proof.
move=> nd Ho; have l0 := pp_l_gt0 ok; have [m0 _] := m_ok; have mm0 : (0 < m + m)%N by lia.
have Ew : who pp d ord = iota 0 n by rewrite /who /received_from [(d < n)%N]ltnNge nd.
rewrite /d_pp_king shares_who size_map Ew size_iota eqxx /dassert implybT [rbind (Ok _) _]/= -Ew -shares_who.
rewrite (transpose_who (T := Fm) ok d Ho mm0 size_x) [rbind (Ok _) _]/= parties_who -unbalanced_x.
pose sec e := mkseq (interpolated pp (T := Fm) (entry (T := Fm) x e)) l.
have E e : (e < m + m)%N ->
    unpack_missing_shares dbg pp
      ([seq (x i)`_e | i <- who pp d ord] : seq F^o) (who pp d ord) =
    if dbg && (imbalance pp (T := Fm) (entry (T := Fm) x e) != 0) then Panic else Ok (sec e).
  by move=> le; rewrite (unpack_missing_any (T := Fm) ok dbg (entry (T := Fm) x e) ord nd).
case: ifP => [/andP[dbgT /hasP[e]]|H].
  rewrite mem_iota add0n => /= le ne.
  rewrite (@mapM_panic_in _ _ _ _ e ([::] : seq F)) ?size_mkseq //.
    by move=> i er li; rewrite nth_mkseq // E //; case: ifP.
  by rewrite nth_mkseq // E // dbgT ne.
have {}E e : (e < m + m)%N ->
    unpack_missing_shares dbg pp
      ([seq (x i)`_e | i <- who pp d ord] : seq F^o) (who pp d ord) = Ok (sec e).
  move=> le; rewrite E //; case: ifP => // /andP[dbgT ne].
  by case/negP: H; rewrite dbgT; apply/hasP; exists e; rewrite ?mem_iota.
have -> : mapM (fun c => unpack_missing_shares dbg pp (c : seq F^o) (who pp d ord))
    (mkseq (fun e => [seq (x i)`_e | i <- who pp d ord]) (m + m)) = Ok (mkseq sec (m + m)).
  rewrite (@mapM_ok _ _ _ (fun c => get_ok [::] (unpack_missing_shares dbg pp (c : seq F^o) (who pp d ord)))).
    by rewrite -map_comp; congr Ok; apply: eq_mkseq_in => e lt_e /=; rewrite E.
  by move=> s0 e; rewrite size_mkseq => lt_e; rewrite nth_mkseq // E.
rewrite [rbind (Ok _) _]/= (flatten_mkseq_blocks 0 _ _ l0).
pose numden q := if (q < m * l)%N then num`_q else den`_(q - m * l).
have Ef : mkseq (fun q => interpolated pp (T := Fm) (entry (T := Fm) x (q %/ l)) (q %% l)) ((m + m) * l) =
          mkseq numden (m * l + m * l).
  rewrite mulnDl; apply: eq_mkseq_in => q lq; rewrite /numden; case: ltnP => lt_q.
    rewrite nth_mkseq //; apply: eq_interpolated => p lp.
    have lq' : (q %/ l < m)%N by rewrite ltn_divLR.
    by rewrite entry_x ?lq' //; lia.
  have lq1 : (q - m * l < m * l)%N by lia.
  rewrite nth_mkseq //.
  have Eq : q = (m * l + (q - m * l))%N by lia.
  have Ed : (q %/ l = m + (q - m * l) %/ l)%N by rewrite {1}Eq divnMDl.
  have Er : (q %% l = (q - m * l) %% l)%N by rewrite {1}Eq modnMDl.
  have lq2 : ((q - m * l) %/ l < m)%N by rewrite ltn_divLR.
  rewrite Ed Er; apply: eq_interpolated => p lp; rewrite entry_x //; last by lia.
  by rewrite ltnNge leq_addr addKn.
rewrite Ef size_mkseq; have Eh : ((m * l + m * l) %/ 2 = m * l)%N by rewrite addnn divn2 doubleK.
rewrite Eh quotients_loop //.
have Eden i : (i < m * l)%N -> numden (i + m * l)%N = den`_i.
  by move=> lt_i; rewrite /numden ltnNge leq_addl addnK.
have -> : all (fun i => numden (i + m * l)%N != 0) (iota 0 (m * l)) = all (fun z => z != 0) den.
  rewrite -[in RHS](mkseq_nth 0 den) size_mkseq all_map; apply: eq_in_all => i.
  by rewrite mem_iota => /andP[_ lt_i] /=; rewrite Eden.
case: ifP => // _; rewrite [rbind (Ok _) _]/= size_mkseq Eh.
have -> : take (m * l) (mkseq (fun q => if (q < m * l)%N then numden q / numden (q + m * l)%N else numden q)
     (m * l + m * l)) = mkseq (fun q => num`_q / den`_q) (m * l).
  rewrite /mkseq -map_take take_iota (minn_idPl (leq_addr _ _)).
  apply/eq_in_map => i; rewrite mem_iota => /andP[_ lt_i]; rewrite lt_i Eden //.
  by rewrite /numden lt_i.
by rewrite size_mkseq products_loop /running size_mkseq.
Qed.

Lemma d_pp_any (masks : nat -> degred_mask Fm) (r r' : rng F) :
  all (fun z => z != 0) den -> degred_ok pp m masks ->
  ~~ (dbg && (unbalanced (T := Fm) pp xn m || unbalanced (T := Fm) pp xd m)) ->
  exists out : nat -> seq F,
    vsharing (T := Fm) pp (2 * l) m out (blocks (T := Fm) pp (running num den)) /\
    forall ord ord', hash_ok ord -> hash_ok ord' ->
      king_prog n (fun d => (d != 0%N) && (n <= d)%N)
      (fun p => d_pp dbg pp n p ord ord' cF (xn p) (xd p) (masks p) r r') out.
Proof.
move=> nz Hm bal; have l0 := pp_l_gt0 ok; have En := ppn ok; have [m0 ms] := m_ok; have n1 := n_gt1 ok.
have sr : size (running num den) = (m * l)%N by rewrite !size_mkseq.
have [dealt [Ed Hdeal]] := pack_vec_deal (T := Fm) ok dbg r m0 sr.
have Hd' : (2 * l <= 4 * l - 1)%N by lia.
have m_ok' : (0 < m < 256 ^ 8)%N by lia.
pose y p := [seq u * 1^-1 | u <- dealt p].
have Hy : vsharing (T := Fm) pp (2 * l) m y (blocks (T := Fm) pp (running num den)).
  apply: vsharing_ext (vsharing_scale 1^-1 Hdeal) => // e j lt_e lt_j; by rewrite invr1 mulr1.
have [out [Hout Hp]] := deg_red_prog (T := Fm) ok cF_ok dbg r' m_ok' Hd' Hm Hy.
exists out; split=> // ord ord' Ho Ho'.
have sl p : (p < n)%N -> size (dealt p) = m by case: Hdeal => H _ /H.
have mms : (m + m < 256 ^ 8)%N by rewrite addnn -mul2n.
have K : king_prog n (fun d => (d != 0%N) && (n <= d)%N) (fun p =>
    do! rs := csokr_ser (vec_codec cF) n p ord (x p) (p_t pp) in
    do! outs := clift (if rs is Some q then rmap Some (d_pp_king dbg pp r q) else Ok None) in
    do! w := crokss_ser (vec_codec cF) n p outs in
    deg_red dbg pp n p ord' (T := Fm) cF [seq u * 1^-1 | u <- w] (masks p) r') out.
  apply: (@king_round _ _ _ _ _ _ _ _ _ _ dealt) => //.
  - by lia.
  - by move=> d /andP[].
  - by rewrite (ppt ok); lia.
  - by move=> i lt_i; apply: (vec_dec (T := Fm) cF_ok mms); apply: size_x.
  - by move=> i lt_i; apply: (vec_dec (T := Fm) (m := m) cF_ok); [lia|apply: sl].
  - by move=> i lt_i; rewrite !(size_enc_vec cF_ok) !sl //; lia.
  - by move=> d /andP[_ Hdbg]; rewrite d_pp_king_any // (negPf bal) nz Ed.
  - by apply: king_prog_dok (Hp ord' Ho') => d /andP[].
apply: king_prog_ext K; first by lia.
by move=> p lt_p; rewrite /d_pp /d_pp_with oner_eq0.
Qed.

Lemma d_pp_caught (masks : nat -> degred_mask Fm) (r r' : rng F) sid ord ord' : hash_ok ord ->
  (dbg && (unbalanced (T := Fm) pp xn m || unbalanced (T := Fm) pp xd m)) || (0 \in den) ->
  king_dies (mkseq (fun p => pthread sid
    (d_pp dbg pp n p ord ord' cF (xn p) (xd p) (masks p) r r')) n).
Proof.
move=> Ho bad; have l0 := pp_l_gt0 ok; have En := ppn ok; have n1 := n_gt1 ok.
have [m0 ms] := m_ok.
have Ek : d_pp_king dbg pp r (received_from x n n ord) = Panic.
  rewrite d_pp_king_any //; case: ifP bad => //= _ z0.
  by have /negbTE -> : ~~ all (fun z => z != 0) den by apply/allPn; exists 0; rewrite ?negbK.
have mms : (m + m < 256 ^ 8)%N by rewrite addnn -mul2n.
have E : mkseq (fun p => pthread sid
    (d_pp dbg pp n p ord ord' cF (xn p) (xd p) (masks p) r r')) n =
  mkseq (fun p => pthread sid
    (do! rs := csokr_ser (vec_codec cF) n p ord (x p) (p_t pp) in
     do! outs := clift (king_map (d_pp_king dbg pp r) rs) in
     do! w := crokss_ser (vec_codec cF) n p outs in
     deg_red dbg pp n p ord' (T := Fm) cF [seq u * 1^-1 | u <- w] (masks p) r')) n.
  by apply: eq_mkseq_in => p lp; rewrite /d_pp /d_pp_with oner_eq0.
rewrite E; apply: (@round_panics _ _ _ (vec_codec cF) (vec_codec cF) n sid ord x (p_t pp)
  (d_pp_king dbg pp r)
  (fun p w => deg_red dbg pp n p ord' (T := Fm) cF [seq u * 1^-1 | u <- w] (masks p) r')) => //.
- by lia.
- by rewrite (ppt ok); lia.
by move=> i lt_i; apply: (vec_dec (T := Fm) cF_ok mms); apply: size_x.
Qed.

End PpAny.
