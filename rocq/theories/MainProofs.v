(** Proofs about the setup and the verification equation. *)
From mathcomp Require Import all_ssreflect all_algebra.
From mathcomp Require Import zify.
From Verif Require Import RingTac Base ModelField ModelUtils ModelPss ModelPack ModelFft ModelNet.
From Verif Require Import ModelProto ModelQap ModelProve ModelMain Spec SpecNet SpecProto SpecGroth.
From Verif Require Import SpecVerify FieldProofs UtilsProofs PssProofs QapProofs ExtProofs.
Set Implicit Arguments.
Unset Strict Implicit.
Unset Printing Implicit Defensive.
Import GRing.Theory.
Local Open Scope ring_scope.

Local Notation Fm F := [lmodType F of F^o].

Section Dual.
Variable F : fftField.
Variables (d : domain F).
Hypothesis ok : domain_ok d.
Add Field FF : (stdlib_field F).
  Local Notation n := (d_size d).

Lemma coef_dft (P : {poly F}) i : (size P <= n)%N -> (i < n)%N ->
  d_size_inv d * (\sum_(j < n) P.[d_gen d ^+ j] * (d_gen_inv d ^+ j) ^+ i) = P`_i.
Proof.
move=> sP lt_i.
have -> : \sum_(j < n) P.[d_gen d ^+ j] * (d_gen_inv d ^+ j) ^+ i =
    \sum_(k < n) P`_k * (\sum_(j < n) (d_gen_inv d ^+ i) ^+ j * (d_gen d ^+ j) ^+ k).
  under [RHS]eq_bigr => k _ do rewrite mulr_sumr.
  rewrite [RHS]exchange_big /=; apply: eq_bigr => j _.
  rewrite (horner_coef_wide _ sP) mulr_suml; apply: eq_bigr => k _.
  by rewrite -!exprM (mulnC i j) -mulrA (mulrC (d_gen_inv d ^+ _)).
rewrite (bigD1 (Ordinal lt_i)) //= [X in _ + X]big1 ?addr0; last first.
  move=> k /eqP ne; rewrite (gen_orth ok) //; case: eqP => [E|_]; last by rewrite mulr0.
  by case: ne; apply: val_inj.
rewrite (gen_orth ok) // eqxx (dok_size_inv ok) mulrCA.
by rewrite mulVf ?mulr1 // (dok_size ok).
Qed.

(** a weighted sum of values is the same weighted sum of coefficients *)
Lemma dual_dft (P : {poly F}) (c : nat -> F) k : (size P <= n)%N -> (k <= n)%N ->
  \sum_(j < n) P.[d_gen d ^+ j] * (d_size_inv d * (\sum_(i < k) c i * (d_gen_inv d ^+ j) ^+ i)) =
  \sum_(i < k) c i * P`_i.
Proof.
move=> sP le_k; transitivity (\sum_(i < k) c i *
    (d_size_inv d * (\sum_(j < n) P.[d_gen d ^+ j] * (d_gen_inv d ^+ j) ^+ i))); last first.
  by apply: eq_bigr => i _; rewrite coef_dft // (leq_trans (ltn_ord i)).
under [RHS]eq_bigr => i _ do rewrite mulr_sumr mulr_sumr.
rewrite [RHS]exchange_big /=; apply: eq_bigr => j _.
rewrite mulr_sumr mulr_sumr; apply: eq_bigr => i _; fring F.
Qed.

Lemma lagrange_sum (P : {poly F}) t : (size P <= n)%N ->
  \sum_(j < n) P.[d_gen d ^+ j] * (lagrange_coeffs d t)`_j = P.[t].
Proof.
move=> sP; rewrite (horner_coef_wide _ sP).
under [RHS]eq_bigr => i _ do rewrite mulrC.
rewrite -(dual_dft (fun i => t ^+ i) sP (leqnn _)); apply: eq_bigr => j _.
rewrite nth_mkseq //; congr (_ * (_ * _)).
under eq_bigr => i _ do rewrite -exprMn.
move: (t * _ ^+ j) => y; elim: (n) => [|k IH]; first by rewrite big_ord0.
rewrite big_ord_recl expr0 /= IH; congr (_ + _).
by rewrite mulr_sumr; apply: eq_bigr => i _; rewrite exprS.
Qed.

End Dual.

(** ** The polynomials of the variables at the secret point *)
Section Instance.
Variable F : fftField.
Add Field FF : (stdlib_field F).

(** the combination of [v] with the weights [z] *)
Definition combine nv (z v : seq F) : F := \sum_(i < nv) z`_i * v`_i.

Lemma combine_set nv z v k x : (k < nv)%N -> size v = nv ->
  combine nv z (set_nth 0 v k x) = combine nv z v + z`_k * (x - v`_k).
Proof.
move=> lt_k sv; rewrite /combine (bigD1 (Ordinal lt_k)) //= [in RHS](bigD1 (Ordinal lt_k)) //=.
rewrite nth_set_nth /= eqxx (eq_bigr (fun i : 'I_nv => z`_i * v`_i)); last first.
  move=> i /eqP ne; rewrite nth_set_nth /=; case: eqP => // E.
  by case: ne; apply: val_inj.
move: (\sum_(_ < _ | _) _) => S; fring F.
Qed.

Lemma add_rowP nv u v (row : seq (F * nat)) : size v = nv -> row_below nv row ->
  exists v', [/\ add_row u v row = Ok v', size v' = nv &
    forall z, combine nv z v' = combine nv z v + u * row_value row z].
Proof.
rewrite /add_row /row_value; elim: row v => [|t row IH] v sv /=.
  by exists v; split=> // z; rewrite big_nil mulr0 addr0.
case/andP=> lt_t Hr; rewrite (vget_nth 0) ?sv //= (vset_nth 0) ?sv //=.
have sv' : size (set_nth 0 v t.2 (v`_t.2 + u * t.1)) = nv.
  by rewrite size_set_nth sv; apply/maxn_idPr.
have [v' [E s' H]] := IH _ sv' Hr; exists v'; split=> // z.
rewrite H combine_set // big_cons; move: (\sum_(_ <- _) _) (combine _ _ _) (z`_t.2) (v`_t.2) (t.1 : F) => S K x y c.
by fring F.
Qed.

Variables (r : r1cs F) (nv : nat).
Hypothesis wf : well_formed r nv.
  Local Notation m := (r1_matrices r).
  Local Notation ni := (num_instance_variables (r1_matrices r)).
  Local Notation nc := (cm_num_constraints (r1_matrices r)).
Variable dom : domain F.
Hypothesis Edom : domain_new F (nc + ni) = Some dom.

Definition cz (z : seq F) : seq F := mkseq (fun i =>
  if (i < nc)%N then row_value (nth [::] (r1_c r) i) z else 0) (d_size dom).

Lemma instance_mapP t : exists a b c, [/\ instance_map r nv t = Ok (a, b, c, dom),
  [/\ size a = nv, size b = nv & size c = nv] &
  forall z, [/\ combine nv z a = \sum_(j < d_size dom) (qap_a m z (d_size dom))`_j * (lagrange_coeffs dom t)`_j,
    combine nv z b = \sum_(j < d_size dom) (qap_b m z (d_size dom))`_j * (lagrange_coeffs dom t)`_j &
    combine nv z c = \sum_(j < d_size dom) (cz z)`_j * (lagrange_coeffs dom t)`_j]].
Proof.
have [[sa sb sc] /andP[i0 le_i] Ha Hb Hc] := wf.
have [_ Es _ _] := domain_new_ok Edom.
have le_N : (nc + ni <= d_size dom)%N by rewrite Es; have [k [_]] := least_pow2P (nc + ni).
rewrite /instance_map Edom [rbind (Ok _) _]/=; set u := lagrange_coeffs dom t.
have su : size u = d_size dom by rewrite size_mkseq.
set f := (X in foldM X (nseq _ _) _).
have loop1 k : (k <= ni)%N -> exists a, [/\ foldM f (nseq nv 0) (iota 0 k) = Ok a, size a = nv,
    forall i, (k <= i)%N -> a`_i = 0 &
    forall z, combine nv z a = \sum_(i < k) z`_i * u`_(nc + i)].
  elim: k => [|k IH] le_k.
    exists (nseq nv 0); split=> //; first by rewrite size_nseq.
      by move=> i _; rewrite nth_nseq if_same.
    by move=> z; rewrite big_ord0 /combine big1 // => i _; rewrite nth_nseq if_same mulr0.
  have [|a [E s1 H0 H]] := IH; first by lia.
  rewrite -addn1 iotaD foldM_cat E [rbind (Ok _) _]/= add0n /= /f (vget_nth 0) ?su; last by lia.
  rewrite [rbind (Ok _) _]/= (vset_nth 0) ?s1 /=; last by lia.
  eexists; split; first by [].
  - by rewrite size_set_nth s1; apply/maxn_idPr; lia.
  - move=> i lt_i; rewrite nth_set_nth /=; case: eqP => [E'|_]; first by lia.
    by apply: H0; lia.
  move=> z; rewrite combine_set ?s1 //; last by lia.
  by rewrite H addn1 big_ord_recr /= (H0 k) // subr0.
have [a [Ea s_a _ H_a]] := loop1 ni (leqnn _); rewrite Ea [rbind (Ok _) _]/=.
set g := (X in foldM X (a, _, _) _).
have loop2 k : (k <= nc)%N -> exists a' b' c', [/\ foldM g (a, nseq nv 0, nseq nv 0) (iota 0 k) = Ok (a', b', c'),
    [/\ size a' = nv, size b' = nv & size c' = nv] &
    forall z, [/\ combine nv z a' = combine nv z a + \sum_(i < k) u`_i * row_value (nth [::] (cm_a m) i) z,
      combine nv z b' = \sum_(i < k) u`_i * row_value (nth [::] (cm_b m) i) z &
      combine nv z c' = \sum_(i < k) u`_i * row_value (nth [::] (r1_c r) i) z]].
  elim: k => [|k IH] le_k.
    exists a, (nseq nv 0), (nseq nv 0); split=> //; first by rewrite size_nseq.
    have c0 z : combine nv z (nseq nv 0) = 0.
      by rewrite /combine big1 // => i _; rewrite nth_nseq if_same mulr0.
    by move=> z; rewrite !big_ord0 addr0 c0.
  have [|a1 [b1 [c1 [E [s1 s2 s3] H]]]] := IH; first by lia.
  rewrite -addn1 iotaD foldM_cat E [rbind (Ok _) _]/= add0n /= /g.
  have row (q : seq (seq (F * nat))) : size q = nc -> all (row_below nv) q -> row_below nv (nth [::] q k).
    by move=> sq /allP; apply; rewrite mem_nth ?sq.
  have [a2 [Ea2 sa2 Ha2]] := add_rowP u`_k s1 (row _ sa Ha).
  have [b2 [Eb2 sb2 Hb2]] := add_rowP u`_k s2 (row _ sb Hb).
  have [c2 [Ec2 sc2 Hc2]] := add_rowP u`_k s3 (row _ sc Hc).
  exists a2, b2, c2; split=> //.
    rewrite (vget_nth 0) ?su /=; last by lia.
    rewrite (vget_nth [::]) ?sa //= Ea2 /= (vget_nth [::]) ?sb //= Eb2 /= (vget_nth [::]) ?sc //=.
    by rewrite Ec2.
  move=> z; have [h1 h2 h3] := H z.
  by rewrite Ha2 Hb2 Hc2 h1 h2 h3 addn1 !big_ord_recr /= addrA.
have [a1 [b1 [c1 [-> s3 H3]]]] := loop2 nc (leqnn _); exists a1, b1, c1; split=> // z.
have [-> -> ->] := H3 z; rewrite H_a.
have cut (h : nat -> F) : (forall i, (nc + ni <= i)%N -> h i = 0) ->
    \sum_(j < d_size dom) (mkseq h (d_size dom))`_j * u`_j =
    \sum_(i < nc) u`_i * h i + \sum_(i < ni) h (nc + i)%N * u`_(nc + i).
  move=> H0; rewrite (eq_bigr (fun j : 'I_(d_size dom) => h j * u`_j)); last first.
    by move=> j _; rewrite nth_mkseq.
  rewrite -(big_mkord predT (fun j => h j * u`_j)) -(subnKC le_N) big_mkord.
  rewrite !big_split_ord /= -[RHS]addr0; congr (_ + _ + _).
    by apply: eq_bigr => i _; rewrite mulrC.
  by apply: big1 => i _; rewrite H0 ?mul0r ?leq_addr.
have lt i : (nc + i < nc)%N = false by lia.
have ge i : (nc + ni <= i)%N -> (i < nc)%N = false by lia.
split; rewrite cut; try by move=> i Hi; rewrite ge // ?ltnNge ?Hi.
- rewrite addrC; congr (_ + _); apply: eq_bigr => i _; first by rewrite ltn_ord.
  by rewrite lt ltn_add2l ltn_ord addKn.
- rewrite [X in _ + X]big1 ?addr0; last by move=> i _; rewrite lt mul0r.
  by apply: eq_bigr => i _; rewrite ltn_ord.
rewrite [X in _ + X]big1 ?addr0; last by move=> i _; rewrite lt mul0r.
by apply: eq_bigr => i _; rewrite ltn_ord.
Qed.

End Instance.

(** ** Domains and the query for the quotient *)
Section Query.
Variable F : fftField.
Add Field FF : (stdlib_field F).

Lemma up_log_least x k : least_pow2 x (2 ^ k) -> up_log 2 x = k.
Proof.
case=> k' [E le_x min_k]; have /eqP := E; rewrite eqn_exp2l // => /eqP Ek; subst k'.
apply/eqP; rewrite eqn_leq; apply/andP; split; first exact: up_log_min.
by apply: min_k; apply: up_logP.
Qed.

Lemma domain_new_least x k : least_pow2 x (2 ^ k) -> domain_new F x = domain_new F (2 ^ k).
Proof. by move=> H; rewrite /domain_new (up_log_least H) up_expnK. Qed.

Lemma least_pow2_double k : (0 < k)%N -> least_pow2 (2 * (2 ^ k - 1) + 1) (2 ^ k.+1).
Proof.
move=> k0; exists k.+1; split=> //; first by rewrite expnS; have := expn_gt0 2 k; lia.
case: k k0 => // k _ k'; rewrite !expnS; have := expn_gt0 2 k; set x := (2 ^ k)%N => x0 H.
rewrite ltnNge; apply/negP => le_k.
by have : (2 ^ k' <= 2 ^ k.+1)%N; [rewrite leq_exp2l //|rewrite expnS -/x; lia].
Qed.

Lemma step_odd (s : seq F) n : size s = (2 * n)%N ->
  step_by 2 (drop 1 s) = mkseq (fun i => s`_(2 * i + 1)) n.
Proof.
move=> ss; rewrite (step_by_spec 0) // size_drop ss.
have -> : div_ceil (2 * n - 1) 2 = n by rewrite /div_ceil; lia.
by apply: eq_map => i; rewrite nth_drop addnC mulnC.
Qed.

Lemma sum_even_odd (f : nat -> F) n :
  \sum_(i < 2 * n) f i = \sum_(i < n) f (2 * i)%N + \sum_(i < n) f (2 * i + 1)%N.
Proof.
elim: n => [|n IH]; first by rewrite !big_ord0 addr0.
rewrite mulnS addnC addn2 !big_ord_recr /= IH addn1.
move: (\sum_(_ < _) _) (\sum_(_ < _) _) => S1 S2; fring F.
Qed.

Lemma h_scalarsP k (d2 : domain F) t dinv : (0 < k)%N -> domain_new F (2 * 2 ^ k) = Some d2 ->
  exists h, [/\ h_query_scalars (2 ^ k - 1) t dinv = Ok h, size h = (2 ^ k)%N &
    forall P : {poly F}, (size P <= 2 * 2 ^ k - 1)%N ->
      (forall i, (i < 2 ^ k)%N -> P.[d_gen d2 ^+ (2 * i)] = 0) ->
      \sum_(i < 2 ^ k) P.[d_gen d2 ^+ (2 * i + 1)] * h`_i = dinv * P.[t]].
Proof.
move=> k0 Ed2; have [ok Es Eo _] := domain_new_ok Ed2.
rewrite -expnS next_pow2_expn in Es.
have Eo' : d_offset_inv d2 = 1 by rewrite (dok_offset_inv ok) Eo invr1.
rewrite /h_query_scalars size_mkseq (domain_new_least (least_pow2_double k0)) expnS Ed2 [rbind (Ok _) _]/=.
set c := mkseq _ _; have sc : size c = (2 * (2 ^ k - 1) + 1)%N by rewrite size_mkseq.
have le_c : (2 * (2 ^ k - 1) + 1 <= d_size d2)%N.
  by rewrite Es expnS; have := expn_gt0 2 k; lia.
rewrite (@step_odd _ (2 ^ k)); last by rewrite (size_ifft (T := Fm F)) Es expnS.
eexists; split; [by []|by rewrite size_mkseq|] => P sP P0.
pose v j : F := d_size_inv d2 * \sum_(i < 2 * (2 ^ k - 1) + 1) dinv * t ^+ i * (d_gen_inv d2 ^+ j) ^+ i.
have nth_v j : (j < 2 * 2 ^ k)%N -> (ifft (T := Fm F) d2 c)`_j = v j.
  move=> lt_j; rewrite /ifft nth_mkseq; last by rewrite Es expnS.
  rewrite Eo' expr1n mul1r heval_pval pval_resize ?sc //.
  rewrite /pval sc; congr (_ * _); apply: eq_bigr => i _.
  by rewrite nth_mkseq // -[_ *: _]/(_ * _) mulrC.
transitivity (\sum_(j < d_size d2) P.[d_gen d2 ^+ j] * v j).
  rewrite Es expnS (sum_even_odd (fun j => P.[d_gen d2 ^+ j] * v j)) [X in X + _]big1 ?add0r; last first.
    by move=> i _; rewrite P0 ?mul0r.
  apply: eq_bigr => i _; rewrite nth_mkseq // nth_v //.
  by have := ltn_ord i; lia.
rewrite (dual_dft ok (fun i => dinv * t ^+ i)) //; last by rewrite Es expnS; have := expn_gt0 2 k; lia.
have sP' : (size P <= 2 * (2 ^ k - 1) + 1)%N by have := expn_gt0 2 k; lia.
rewrite (horner_coef_wide _ sP') mulr_sumr; apply: eq_bigr => i _.
by rewrite -mulrA [t ^+ i * _]mulrC.
Qed.

End Query.

(** ** The setup *)
Section Setup.
Variables (F : fftField) (T1 T2 : lmodType F).
Add Field FF : (stdlib_field F).
Variables (r : r1cs F) (nv k : nat).
Hypothesis wf : well_formed r nv.
  Local Notation m := (r1_matrices r).
  Local Notation ni := (num_instance_variables (r1_matrices r)).
  Local Notation nc := (cm_num_constraints (r1_matrices r)).
Hypothesis least : least_pow2 (nc + ni) (2 ^ k).
Hypothesis k0 : (0 < k)%N.
Variables (dom d2 : domain F).
Hypothesis Edom : domain_new F (2 ^ k) = Some dom.
Hypothesis Ed2 : domain_new F (2 * 2 ^ k) = Some d2.
Variables (alpha beta gamma delta t : F) (g1 : T1) (g2 : T2).
Hypotheses (gamma0 : gamma != 0) (delta0 : delta != 0).

Lemma nth_scale (T : lmodType F) (v : seq F) (g : T) i : [seq x *: g | x <- v]`_i = v`_i *: g.
Proof.
by case: (ltnP i (size v)) => H; [rewrite (nth_map 0)|rewrite !nth_default ?size_map ?scale0r].
Qed.

Lemma setupP : exists a b c h,
  let sums := mkseq (fun i => beta * a`_i + alpha * b`_i + c`_i) nv in
  [/\ setup r nv alpha beta gamma delta t g1 g2 = Ok
        (ProvingKey [seq x *: g1 | x <- a] [seq x *: g1 | x <- b] [seq x *: g2 | x <- b]
                 [seq x *: g1 | x <- h] [seq x * delta^-1 *: g1 | x <- drop ni sums]
                 (delta *: g1) (delta *: g2) (alpha *: g1) (beta *: g1) (beta *: g2),
         VerifyingKey (alpha *: g1) (beta *: g2) (gamma *: g2) (delta *: g2)
                   [seq x * gamma^-1 *: g1 | x <- take ni sums]),
    [/\ size a = nv, size b = nv, size c = nv & size h = (2 ^ k)%N],
    forall z (QA QB QC : {poly F}),
      interpolates (d_gen dom) (2 ^ k) (qap_a m z (2 ^ k)) QA ->
      interpolates (d_gen dom) (2 ^ k) (qap_b m z (2 ^ k)) QB ->
      interpolates (d_gen dom) (2 ^ k) (cz r dom z) QC ->
      [/\ combine nv z a = QA.[t], combine nv z b = QB.[t] & combine nv z c = QC.[t]] &
    forall P : {poly F}, (size P <= 2 * 2 ^ k - 1)%N ->
      (forall i, (i < 2 ^ k)%N -> P.[d_gen d2 ^+ (2 * i)] = 0) ->
      \sum_(i < 2 ^ k) P.[d_gen d2 ^+ (2 * i + 1)] * h`_i = delta^-1 * P.[t]].
Proof.
have Edom' : domain_new F (nc + ni) = Some dom by rewrite (domain_new_least F least).
have [ok Es _ _] := domain_new_ok Edom; rewrite next_pow2_expn in Es.
have [a [b [c [Ei [sa sb sc] H]]]] := instance_mapP wf Edom' t.
have [h [Eh sh Hh]] := h_scalarsP t delta^-1 k0 Ed2.
exists a, b, c, h => sums; split=> //.
- rewrite /setup Ei [rbind (Ok _) _]/= /inverse (negbTE gamma0) [rbind (Ok _) _]/= (negbTE delta0).
  rewrite [rbind (Ok _) _]/= Es Eh [rbind (Ok _) _]/=.
  have -> : zipmap (fun ab c => beta * ab.1 + alpha * ab.2 + c) (zip a b) c = sums.
    apply: (@eq_from_nth _ 0); first by rewrite size_zipmap size_zip sa sb sc !minnn size_mkseq.
    move=> i; rewrite size_zipmap size_zip sa sb sc !minnn => lt_i.
    by rewrite (nth_zipmap _ (0, 0) 0) ?size_zip ?sa ?sb ?sc ?minnn // nth_zip ?sa ?sb //= nth_mkseq.
  by rewrite -!map_comp.
move=> z QA QB QC [s1 H1] [s2 H2] [s3 H3]; have [-> -> ->] := H z.
have lag (v : seq F) (P : {poly F}) : (size P <= 2 ^ k)%N ->
    (forall i, (i < 2 ^ k)%N -> P.[d_gen dom ^+ i] = v`_i) ->
    \sum_(j < d_size dom) v`_j * (lagrange_coeffs dom t)`_j = P.[t].
  move=> sP HP; rewrite -(lagrange_sum ok) ?Es //; apply: eq_bigr => j _.
  by rewrite -HP.
by rewrite Es; split; rewrite -?Es; apply: lag; rewrite ?Es.
Qed.

End Setup.
