(** The factor by which [d_pp] multiplies its inputs: what another value than 1 would do. *)
From mathcomp Require Import all_ssreflect all_algebra.
From mathcomp Require Import zify.
From Verif Require Import RingTac Base ModelField ModelUtils ModelPss ModelPack ModelFft ModelNet.
From Verif Require Import ModelProto.
From Verif Require Import Spec SpecNet SpecProto.
From Verif Require Import NetProofs KingProofs RoundProofs.
From Verif Require Import FieldProofs UtilsProofs PssProofs PackProofs FftProofs ProtoProofs DegProofs PpProofs.
From Verif Require Import PssThm ProtoThm HideThm.
Set Implicit Arguments.
Unset Strict Implicit.
Unset Printing Implicit Defensive.
Import GRing.Theory.
Local Open Scope ring_scope.
Local Notation Fm F := [lmodType F of F^o].

Lemma map_mulr1 (F : ringType) (v : seq F) : [seq u * 1 | u <- v] = v.
Proof. by rewrite -[RHS]map_id; apply: eq_map => u; rewrite mulr1. Qed.

Lemma running_scale (F : fieldType) (s : F) (num den : seq F) : s != 0 -> size den = size num ->
  running_products [seq u * s | u <- num] [seq u * s | u <- den] = running_products num den.
Proof.
move=> s0 E; rewrite /running_products size_map; apply: eq_mkseq_in => i lt_i.
apply: eq_bigr => k _; have lt_k := leq_trans (ltn_ord k) lt_i.
by rewrite !(nth_map 0) ?E // -mulf_div divff // mulr1.
Qed.

Lemma vsharing_mulr (F : fftField) (pp : pss F) (s : F) deg m (x : nat -> seq F) (v : seq F) :
  vsharing (T := Fm F) pp deg m x (blocks (T := Fm F) pp v) ->
  vsharing (T := Fm F) pp deg m (fun p => [seq u * s | u <- x p]) (blocks (T := Fm F) pp [seq u * s | u <- v]).
Proof.
move=> H; apply: vsharing_ext (vsharing_scale s H) => // e j lt_e lt_j.
rewrite /blocks; case: (ltnP (e * p_l pp + j) (size v)) => Hs.
  by rewrite (nth_map 0).
by rewrite !nth_default ?size_map // mul0r.
Qed.

Lemma every_schedule_unique A (ps : seq (pproc A)) (live : pred nat) (v v' : nat -> A) p :
  every_schedule ps live v -> every_schedule ps live v' -> (p < size ps)%N -> live p -> v p = v' p.
Proof.
move=> [N [d [E f H]]] [N' [d' [E' f' H']]] lt_p lp.
have [[s [cs Es _]] _] := H [::] (init ps) isT erefl.
have [[s' [cs' Es' _]] _] := H' s d cs Es.
have Edd : d = d'.
  case: s' cs' Es' => [_ [//]|e s' /= /andP[ce _]]; by rewrite f.
by have := E p lt_p lp; rewrite Edd E' // => -[].
Qed.

Lemma yields_unique A n nobody prog (out out' : nat -> A) p :
  yields n nobody prog out -> yields n nobody prog out' -> (p < n)%N -> out p = out' p.
Proof.
move=> Y Y' lt_p; have n0 : n != 0%N by rewrite -lt0n; apply: leq_ltn_trans lt_p.
have Ho (i : nat) : hash_ok (fun s => s) by [].
have H := Y (fun _ s => s) 0%N n 0%N (fun=> 0%N) Ho n0 (fun _ => leqnn n).
have H' := Y' (fun _ s => s) 0%N n 0%N (fun=> 0%N) Ho n0 (fun _ => leqnn n).
by apply: (every_schedule_unique H H'); rewrite ?size_mkseq ?neq_ltn ?lt_p.
Qed.

(*** theorems ***)

(** C70: with any factor but zero the parties end with sharings of the running products times its
    inverse: the factor has cancelled in the quotients, and is then divided out once more. *)
Lemma c70_factor (F : fftField) dbg lam pp (cF : codec F) mb m gen masks (s : F)
    (xn xd : nat -> seq F) (num den : seq F) deg (r r' : rng F) :
  pss_new F dbg (2 ^ lam) = Ok pp -> codec_ok cF mb -> (0 < m)%N -> (2 * m < 256 ^ 8)%N ->
  (deg <= 4 * 2 ^ lam - 1)%N -> degred_masks (T := Fm F) dbg pp gen m masks ->
  size num = (m * 2 ^ lam)%N -> size den = (m * 2 ^ lam)%N -> all (fun z => z != 0) den ->
  vsharing (T := Fm F) pp deg m xn (blocks (T := Fm F) pp num) ->
  vsharing (T := Fm F) pp deg m xd (blocks (T := Fm F) pp den) -> s != 0 ->
  exists out : nat -> seq F,
    vsharing (T := Fm F) pp (2 * 2 ^ lam) m out
      (blocks (T := Fm F) pp [seq u / s | u <- running_products num den]) /\
    yields (p_n pp) dbg (fun ords p =>
      d_pp_with s dbg pp (p_n pp) p (ords 0%N) (ords 1%N) cF (xn p) (xd p) (masks p) r r') out.
Proof.
move=> new cok m0 m8 Hdeg Hm sn sd nz Hn Hd s0.
have ok := pss_new_ok new; have El := pss_new_l new; rewrite -El in Hdeg sn sd *.
have Hm' := degred_masks_ok new m0 Hm; have n1 := n_gt1 ok; have En := ppn ok; have l0 := pp_l_gt0 ok.
have sns : size [seq u * s | u <- num] = (m * p_l pp)%N by rewrite size_map.
have sds : size [seq u * s | u <- den] = (m * p_l pp)%N by rewrite size_map.
have nzs : all (fun z => z != 0) [seq u * s | u <- den].
  by rewrite all_map; apply: sub_all nz => z /= z0; rewrite mulf_neq0.
have Hns := vsharing_mulr s Hn; have Hds := vsharing_mulr s Hd.
set R := running_products num den.
have ER : running [seq u * s | u <- num] [seq u * s | u <- den] = R.
  by rewrite -[LHS]/(running_products _ _) running_scale // sn.
have sr : size R = (m * p_l pp)%N by rewrite size_mkseq.
have [dealt [Ed Hdeal]] := pack_vec_deal (T := Fm F) ok dbg r m0 sr.
have Hd' : (2 * p_l pp <= 4 * p_l pp - 1)%N by lia.
have m_ok' : (0 < m < 256 ^ 8)%N by lia.
pose y p := [seq u * s^-1 | u <- dealt p].
have Hy : vsharing (T := Fm F) pp (2 * p_l pp) m y (blocks (T := Fm F) pp [seq u / s | u <- R]).
  exact: vsharing_mulr Hdeal.
have [out [Hout Hp]] := deg_red_prog (T := Fm F) ok cok dbg r' m_ok' Hd' Hm' Hy.
exists out; split=> //.
apply: yields_prog => [|ords Hords]; first exact: n_gt0 new.
have Hx := numden_vsharing ok (conj m0 m8) Hdeg sns sds Hns Hds.
have KE := d_pp_kingE ok dbg (conj m0 m8) Hdeg sns sds Hns Hds r.
pose x p := [seq u * 1 | u <- [seq u * s | u <- xn p]] ++ [seq u * 1 | u <- [seq u * s | u <- xd p]].
have sx p : (p < p_n pp)%N -> size (x p) = (m + m)%N by case: Hx => H _ /H.
have sl p : (p < p_n pp)%N -> size (dealt p) = m by case: Hdeal => H _ /H.
have mms : (m + m < 256 ^ 8)%N by rewrite addnn -mul2n.
have K : king_prog (p_n pp) (fun d => (d != 0%N) && (dbg ==> (p_n pp <= d)%N)) (fun p =>
    do! rs := csokr_ser (vec_codec cF) (p_n pp) p (ords 0%N) (x p) (p_t pp) in
    do! outs := clift (if rs is Some q then rmap Some (d_pp_king dbg pp r q) else Ok None) in
    do! w := crokss_ser (vec_codec cF) (p_n pp) p outs in
    deg_red dbg pp (p_n pp) p (ords 1%N) (T := Fm F) cF [seq u * s^-1 | u <- w] (masks p) r') out.
  apply: (@king_round _ _ _ _ _ _ _ _ _ _ dealt) => //.
  - by lia.
  - by move=> d /andP[].
  - by rewrite (ppt ok); lia.
  - by move=> i lt_i; apply: (vec_dec (T := Fm F) cok mms); apply: sx.
  - by move=> i lt_i; apply: (vec_dec (T := Fm F) (m := m) cok); [lia|apply: sl].
  - by move=> i lt_i; rewrite !(size_enc_vec cok) !sl //; lia.
  - move=> d /andP[_ Hdbg]; rewrite KE // nzs ER Ed.
    rewrite (_ : dassert dbg _ = Ok tt) //.
    rewrite /dassert; case: (dbg) Hdbg => //= dn.
    by rewrite /who /received_from ltnNge dn /= size_iota eqxx.
  - by apply: king_prog_dok (Hp (ords 1%N) (Hords 1%N)) => d /andP[].
apply: king_prog_ext K; first by lia.
by move=> p lt_p; rewrite /d_pp_with (negbTE s0) /x !map_mulr1.
Qed.

(** C70: with any other factor than 1, nobody can mistake the result for the running products. *)
Lemma c70_only_one (F : fftField) dbg lam pp (cF : codec F) mb m gen masks (s : F)
    (xn xd : nat -> seq F) (num den : seq F) deg (r r' : rng F) :
  pss_new F dbg (2 ^ lam) = Ok pp -> codec_ok cF mb -> (0 < m)%N -> (2 * m < 256 ^ 8)%N ->
  (deg <= 4 * 2 ^ lam - 1)%N -> degred_masks (T := Fm F) dbg pp gen m masks ->
  size num = (m * 2 ^ lam)%N -> size den = (m * 2 ^ lam)%N -> all (fun z => z != 0) den ->
  vsharing (T := Fm F) pp deg m xn (blocks (T := Fm F) pp num) ->
  vsharing (T := Fm F) pp deg m xd (blocks (T := Fm F) pp den) -> s != 0 -> s != 1 -> num`_0 != 0 ->
  ~ (exists out : nat -> seq F,
    vsharing (T := Fm F) pp (2 * 2 ^ lam) m out (blocks (T := Fm F) pp (running_products num den)) /\
    yields (p_n pp) dbg (fun ords p =>
      d_pp_with s dbg pp (p_n pp) p (ords 0%N) (ords 1%N) cF (xn p) (xd p) (masks p) r r') out).
Proof.
move=> new cok m0 m8 Hdeg Hm sn sd nz Hn Hd s0 s1 n0 [out' [Ho' Y']].
have [out [Ho Y]] := c70_factor r r' new cok m0 m8 Hdeg Hm sn sd nz Hn Hd s0.
have ok := pss_new_ok new; have El := pss_new_l new; have l0 := pp_l_gt0 ok; have n1 := n_gt1 ok.
rewrite -El in sn Ho Ho'.
have Hd2 : (2 * p_l pp <= 4 * p_l pp - 1)%N by lia.
have /vsharingP[_ V] := Ho; have /vsharingP[_ V'] := Ho'.
have id_ok : hash_ok (fun q => q) by [].
have U := unpack_who ok false 0 id_ok Hd2 (V 0%N m0).
have U' := unpack_who ok false 0 id_ok Hd2 (V' 0%N m0).
have Ew : [seq (out i)`_0 | i <- who pp 0 (fun q => q)] = [seq (out' i)`_0 | i <- who pp 0 (fun q => q)].
  apply/eq_in_map => i iw; rewrite (yields_unique Y Y') //.
  by move: iw; rewrite /who /received_from (ltnW n1) /= mem_filter mem_iota; lia.
rewrite Ew U' in U; have := mkseq_inj_in (Ok_inj U) l0.
have sz : (0 < size num)%N by rewrite sn muln_gt0 m0.
rewrite /blocks mul0n add0n (nth_map 0) ?size_mkseq // nth_mkseq // big_ord_recl big_ord0 mulr1 /=.
have d0 : den`_0 != 0 by apply: (allP nz); rewrite mem_nth // sd -El -sn.
have q0 : num`_0 / den`_0 != 0 by rewrite mulf_neq0 // invr_eq0.
by move=> E; case/eqP: s1; apply: invr_inj; rewrite invr1; apply: (mulfI q0); rewrite mulr1.
Qed.

(** C70: and the messages which the king receives still determine all the quotients, and so the
    running products, whatever the factors were. *)
Lemma c70_king_sees (F : fftField) dbg lam pp (cF : codec F) mb m ord ord' masks masks' (s s' : F)
    (xn xd xn' xd' : nat -> seq F) (num den num' den' : seq F) deg (r1 r2 r1' r2' : rng F) :
  pss_new F dbg (2 ^ lam) = Ok pp -> codec_ok cF mb -> (0 < m)%N -> (2 * m < 256 ^ 8)%N ->
  (deg <= 4 * 2 ^ lam - 1)%N ->
  size num = (m * 2 ^ lam)%N -> size den = (m * 2 ^ lam)%N ->
  size num' = (m * 2 ^ lam)%N -> size den' = (m * 2 ^ lam)%N ->
  vsharing (T := Fm F) pp deg m xn (blocks (T := Fm F) pp num) ->
  vsharing (T := Fm F) pp deg m xd (blocks (T := Fm F) pp den) ->
  vsharing (T := Fm F) pp deg m xn' (blocks (T := Fm F) pp num') ->
  vsharing (T := Fm F) pp deg m xd' (blocks (T := Fm F) pp den') -> s != 0 -> s' != 0 ->
  (forall p, (0 < p < p_n pp)%N -> exists msg,
     first_message (d_pp_with s dbg pp (p_n pp) p ord ord' cF (xn p) (xd p) (masks p) r1 r2) msg /\
     first_message (d_pp_with s' dbg pp (p_n pp) p ord ord' cF (xn' p) (xd' p) (masks' p) r1' r2') msg) ->
  (forall i, num`_i / den`_i = num'`_i / den'`_i) /\
  running_products num den = running_products num' den'.
Proof.
move=> new cok m0 m8 Hdeg sn sd sn' sd' Hn Hd Hn' Hd' s0 s0' H.
have [|||||||||En Ed] := @c33_hiding_refuted F dbg lam pp cF mb m ord ord' masks masks'
  (fun p => [seq u * s | u <- xn p]) (fun p => [seq u * s | u <- xd p])
  (fun p => [seq u * s' | u <- xn' p]) (fun p => [seq u * s' | u <- xd' p])
  [seq u * s | u <- num] [seq u * s | u <- den] [seq u * s' | u <- num'] [seq u * s' | u <- den']
  deg r1 r2 r1' r2' new cok m0 m8 Hdeg; rewrite ?size_map //; try exact: vsharing_mulr.
  move=> p pI; have [msg [[k1 E1] [k2 E2]]] := H p pI; exists msg.
  move: E1 E2; rewrite /first_message /d_pp /d_pp_with oner_eq0 (negbTE s0) (negbTE s0') !map_mulr1 /=.
  by case: p pI => // p _ /= [-> _] [-> _]; split; eexists.
split=> [i|]; last by rewrite -(running_scale s0) ?sn // En Ed running_scale // sn'.
have Q (a : F) u v : a != 0 -> u`_i / v`_i = [seq z * a | z <- u]`_i / [seq z * a | z <- v]`_i.
  have E w : [seq z * a | z <- w]`_i = w`_i * a.
    case: (ltnP i (size w)) => Hw; first by rewrite (nth_map 0).
    by rewrite !nth_default ?size_map // mul0r.
  by move=> a0; rewrite !E -mulf_div divff // mulr1.
by rewrite (Q s) // En Ed -Q.
Qed.
