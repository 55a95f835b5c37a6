(** Facts about evaluation and the radix-2 transforms. *)
From mathcomp Require Import all_ssreflect all_algebra.
From mathcomp Require Import zify.
From Verif Require Import RingTac Base ModelField ModelPss Spec.
Set Implicit Arguments.
Unset Strict Implicit.
Unset Printing Implicit Defensive.
Import GRing.Theory.
Local Open Scope ring_scope.

Section Pval.
Variable F : fftField.
Variable T : lmodType F.
Implicit Types (c : seq T) (x : F).

Lemma heval_pval x c : heval x c = pval x c.
Proof.
rewrite /pval; elim: c => [|a c IH] /=; first by rewrite big_ord0.
rewrite big_ord_recl expr0 scale1r IH scaler_sumr; congr (_ + _).
by apply: eq_bigr => i _; rewrite scalerA -exprS.
Qed.

Lemma pval_widen x c m : (size c <= m)%N -> pval x c = \sum_(j < m) x ^+ j *: c`_j.
Proof.
move=> le_m; rewrite /pval (big_ord_widen m (fun j => x ^+ j *: c`_j) le_m).
rewrite big_mkcond; apply: eq_bigr => i _.
by case: ltnP => // le_i; rewrite nth_default // scaler0.
Qed.

Lemma pval_resize x c m : (size c <= m)%N -> pval x (resize 0 m c) = pval x c.
Proof.
move=> le_m; rewrite (pval_widen x le_m) /pval size_resize.
by apply: eq_bigr => i _; rewrite nth_resize ltn_ord.
Qed.

Lemma eq_pval x c1 c2 : (forall i, c1`_i = c2`_i) -> pval x c1 = pval x c2.
Proof.
move=> E; rewrite (pval_widen x (leq_maxl (size c1) (size c2))).
rewrite (pval_widen x (leq_maxr (size c1) (size c2))).
by apply: eq_bigr => i _; rewrite E.
Qed.

Lemma pval_nseq0 x m : pval x (nseq m (0 : T)) = 0.
Proof. by apply: big1 => i _; rewrite nth_nseq if_same scaler0. Qed.

Lemma pval_cat0 x c m : pval x (c ++ nseq m 0) = pval x c.
Proof.
apply: eq_pval => i; rewrite nth_cat nth_nseq if_same.
by case: ltnP => // le_i; rewrite nth_default.
Qed.

End Pval.

Section Roots.
Variable F : fieldType.

(** a primitive root of order [2^k] only exists if [2^k] is invertible *)
Lemma prim2_natf_neq0 k (z : F) : (2 ^ k)%N.-primitive_root z -> (2 ^ k)%N%:R != 0 :> F.
Proof.
case: k => [|k] zP; first by rewrite expn0 oner_neq0.
rewrite natrX expf_neq0 //.
have w_neq1 : z ^+ (2 ^ k) != 1.
  rewrite -(prim_order_dvd zP); apply/negP => /dvdn_leq.
  by rewrite expn_gt0 /= leq_exp2l // ltnn => /(_ isT).
have : (z ^+ (2 ^ k)) ^+ 2 == 1 by rewrite -exprM mulnC -expnS prim_expr_order.
rewrite sqrf_eq1 (negPf w_neq1) /= => /eqP w_m1.
apply/negP => /eqP two0; move: w_neq1; rewrite w_m1.
by rewrite -subr_eq0 -opprD oppr_eq0 -(natrD _ 1 1) two0 eqxx.
Qed.

(** how to recognise a primitive root of order [2^(k+1)] *)
Lemma prim2_root k (z : F) : z ^+ (2 ^ k.+1) = 1 -> z ^+ (2 ^ k) != 1 ->
  (2 ^ k.+1)%N.-primitive_root z.
Proof.
move=> z1 zn1; have [|m zP m_dvd] := prim_order_exists _ z1; first by rewrite expn_gt0.
suff -> : (2 ^ k.+1)%N = m by [].
move: m_dvd => /(dvdn_pfactor _ _ (isT : prime 2)) [e le_e Em]; rewrite Em.
congr (2 ^ _)%N; apply/eqP; rewrite eqn_leq le_e andbT ltnNge; apply/negP => le_ek.
by move/negP: zn1; apply; rewrite -(prim_order_dvd zP) Em dvdn_exp2l.
Qed.

Lemma sum_prim_root n (z : F) k : n.-primitive_root z ->
  \sum_(i < n) (z ^+ k) ^+ i = if (n %| k)%N then n%:R else 0.
Proof.
move=> zP; case: ifP => Hk.
  rewrite (eq_bigr (fun _ => 1)) ?sumr_const ?card_ord // => i _.
  by move: Hk; rewrite (prim_order_dvd zP) => /eqP ->; rewrite expr1n.
have neq1 : z ^+ k - 1 != 0 by rewrite subr_eq0 -(prim_order_dvd zP) Hk.
apply: (mulfI neq1); rewrite mulr0 -subrX1 -exprM mulnC exprM (prim_expr_order zP).
by rewrite expr1n subrr.
Qed.

End Roots.

(** The data of a domain are consistent. *)
Section Domain.
Variable F : fftField.

Record domain_ok (d : domain F) : Prop := DomainOk {
  dok_prim : (d_size d).-primitive_root (d_gen d);
  dok_size : (d_size d)%:R != 0 :> F;
  dok_size_inv : d_size_inv d = (d_size d)%:R^-1;
  dok_gen_inv : d_gen_inv d = (d_gen d)^-1;
  dok_offset : d_offset d != 0;
  dok_offset_inv : d_offset_inv d = (d_offset d)^-1
}.

Lemma dok_gt0 d : domain_ok d -> (0 < d_size d)%N.
Proof. by move=> ok; apply: prim_order_gt0 (dok_prim ok). Qed.

Lemma dok_gen d : domain_ok d -> d_gen d != 0.
Proof.
move=> ok; apply/eqP => g0; have := prim_expr_order (dok_prim ok).
by move/eqP; rewrite g0 expr0n eqn0Ngt dok_gt0 // eq_sym oner_eq0.
Qed.

Lemma root_pow_prim k : (k <= ff_two_adicity F)%N ->
  (2 ^ k)%N.-primitive_root (ff_root F ^+ (2 ^ (ff_two_adicity F - k))).
Proof.
move=> le_k; have /dvdn_prim_root : (2 ^ k %| 2 ^ ff_two_adicity F)%N by rewrite dvdn_exp2l.
move/(_ _ _ (ff_rootP F)); congr (_.-primitive_root (_ ^+ _)).
by rewrite -{1}(subnK le_k) expnD mulnK // expn_gt0.
Qed.

Lemma domain_new_ok num d : domain_new F num = Some d ->
  [/\ domain_ok d, d_size d = next_pow2 num, d_offset d = 1 &
      (up_log 2 num <= ff_two_adicity F)%N].
Proof.
rewrite /domain_new /get_root_of_unity; case: ifP => // le_k [<-]; split=> //.
have pr := root_pow_prim le_k.
split=> //=; rewrite ?oner_neq0 ?invr1 //.
exact: prim2_natf_neq0 pr.
Qed.

Lemma domain_new_gen num d : domain_new F num = Some d ->
  d_gen d = ff_root F ^+ (2 ^ (ff_two_adicity F - up_log 2 num)).
Proof. by rewrite /domain_new /get_root_of_unity; case: ifP => // _ [<-]. Qed.

Lemma get_coset_ok d g d' : domain_ok d -> get_coset d g = Some d' ->
  [/\ domain_ok d', d_size d' = d_size d, d_gen d' = d_gen d & d_offset d' = g].
Proof.
rewrite /get_coset; case: eqP => // /eqP g0 ok [<-]; split=> //=.
by case: ok => *; split.
Qed.

Section Module.
Variable T : lmodType F.
Add Field FF : (stdlib_field F).
Variable d : domain F.
Hypothesis ok : domain_ok d.
Local Notation n := (d_size d).

Lemma size_fft (c : seq T) : size (fft d c) = n.
Proof. by rewrite size_mkseq. Qed.

Lemma size_ifft (c : seq T) : size (ifft d c) = n.
Proof. by rewrite size_mkseq. Qed.

(** entries of the transforms *)
Lemma nth_fft (c : seq T) i : (size c <= n)%N -> (i < n)%N ->
  (fft d c)`_i = pval (element d i) c.
Proof. by move=> le_c lt_i; rewrite nth_mkseq // heval_pval pval_resize. Qed.

Lemma fft_mkseq (c : seq T) : (size c <= n)%N ->
  fft d c = mkseq (fun i => pval (element d i) c) n.
Proof. by move=> le_c; apply: eq_map => i; rewrite heval_pval pval_resize. Qed.

Lemma fft_resize (c : seq T) : fft d (resize 0 n c) = fft d c.
Proof. by rewrite /fft resize_id // size_resize. Qed.

Lemma ifft_resize (c : seq T) : ifft d (resize 0 n c) = ifft d c.
Proof. by rewrite /ifft resize_id // size_resize. Qed.

Lemma gen_orth j k : (j < n)%N -> (k < n)%N ->
  \sum_(i < n) (d_gen_inv d ^+ j) ^+ i * (d_gen d ^+ i) ^+ k =
  if j == k then n%:R else 0 :> F.
Proof.
move=> lt_j lt_k; have n0 := dok_gt0 ok; have zP := dok_prim ok.
have gi : d_gen_inv d = d_gen d ^+ n.-1.
  rewrite (dok_gen_inv ok); apply: (mulfI (dok_gen ok)).
  by rewrite -exprS prednK // (prim_expr_order zP) divff // (dok_gen ok).
rewrite (eq_bigr (fun i : 'I_n => (d_gen d ^+ (n.-1 * j + k)) ^+ i)); last first.
  by move=> i _; rewrite gi -!exprM -!exprD [in RHS]mulnDl (mulnC i k) mulnA.
rewrite (sum_prim_root _ zP); congr (if _ then _ else _).
have -> : (n %| n.-1 * j + k)%N = (n.-1 * j + k == 0 %[mod n])%N by rewrite mod0n.
rewrite -(eqn_modDr j) add0n addnAC -mulSnr prednK // mulnC modnMDl.
by rewrite !modn_small // eq_sym.
Qed.

Lemma fftK (c : seq T) : size c = n -> ifft d (fft d c) = c.
Proof.
move=> sc; apply: (@eq_from_nth _ 0) => [|j]; rewrite size_ifft // => lt_j.
rewrite nth_mkseq // heval_pval resize_id ?size_fft //.
rewrite (@pval_widen _ _ _ _ n) ?size_fft //.
rewrite (eq_bigr (fun i : 'I_n => \sum_(k < n)
   (d_offset d ^+ k * ((d_gen_inv d ^+ j) ^+ i * (d_gen d ^+ i) ^+ k)) *: c`_k)); last first.
  move=> i _; rewrite nth_fft ?sc // (@pval_widen _ _ _ _ n) ?sc // scaler_sumr.
  apply: eq_bigr => k _; rewrite scalerA /element exprMn; congr (_ *: _).
  by rewrite mulrCA.
rewrite exchange_big /=.
rewrite (eq_bigr (fun k : 'I_n => (if j == k :> nat then (d_offset d ^+ k * n%:R) *: c`_k else 0))).
  rewrite -big_mkcond (big_pred1 (Ordinal lt_j)) //=; last first.
    by move=> i; rewrite /= -val_eqE eq_sym.
  rewrite scalerA (dok_offset_inv ok) (dok_size_inv ok).
  rewrite mulrACA -exprMn mulVf ?(dok_offset ok) // expr1n mul1r mulVf ?(dok_size ok) //.
  by rewrite scale1r.
move=> k _; rewrite -scaler_suml -mulr_sumr gen_orth //.
by case: eqP => // _; rewrite mulr0 scale0r.
Qed.

Lemma ifftK (v : seq T) : size v = n -> fft d (ifft d v) = v.
Proof.
move=> sv; apply: (@eq_from_nth _ 0) => [|i]; rewrite size_fft // => lt_i.
rewrite nth_fft ?size_ifft // (@pval_widen _ _ _ _ n) ?size_ifft //.
rewrite (eq_bigr (fun j : 'I_n => \sum_(k < n)
   (d_size_inv d * ((d_gen_inv d ^+ k) ^+ j * (d_gen d ^+ j) ^+ i)) *: v`_k)); last first.
  move=> j _; rewrite nth_mkseq // heval_pval resize_id // (@pval_widen _ _ _ _ n) ?sv //.
  rewrite !scaler_sumr; apply: eq_bigr => k _; rewrite !scalerA; congr (_ *: _).
  have ->: (element d i) ^+ j = d_offset d ^+ j * (d_gen d ^+ j) ^+ i.
    by rewrite exprMn -!exprM mulnC.
  have ->: (d_gen_inv d ^+ j) ^+ k = (d_gen_inv d ^+ k) ^+ j by rewrite -!exprM mulnC.
  rewrite (dok_offset_inv ok) exprVn.
  have : d_offset d ^+ j != 0 by rewrite expf_neq0 // (dok_offset ok).
  move: (d_offset d ^+ j) => u /eqP u0; ffield F; exact: u0.
rewrite exchange_big /=.
rewrite (eq_bigr (fun k : 'I_n => (if k == i :> nat then (d_size_inv d * n%:R) *: v`_k else 0))).
  rewrite -big_mkcond (big_pred1 (Ordinal lt_i)) //=.
  by rewrite (dok_size_inv ok) mulVf ?(dok_size ok) // scale1r.
move=> k _; rewrite -scaler_suml -mulr_sumr gen_orth //.
by case: eqP => // _; rewrite mulr0 scale0r.
Qed.

End Module.
End Domain.
