(** Proofs about secret-sharing/src/gao.rs. *)
From mathcomp Require Import all_ssreflect all_algebra.
From mathcomp Require Import zify.
From Verif Require Import RingTac Base ModelField ModelUtils ModelPss ModelGao Spec.
From Verif Require Import FieldProofs UtilsProofs PssProofs.
Set Implicit Arguments.
Unset Strict Implicit.
Unset Printing Implicit Defensive.
Import GRing.Theory.
Local Open Scope ring_scope.

Lemma arith1 n k e y : (k <= n -> e <= (n - k) %/ 2 ->
  y <= maxn ((k + n) %/ 2) (n - (k + n) %/ 2 + k) -> (e.+1 + y).-1 <= n)%N.
Proof. by rewrite /maxn; case: ifP => _; lia. Qed.

Lemma arith2 n k c1 c2 x y : (k <= n -> c1 <= (n - k) %/ 2 -> x <= (k + n) %/ 2 -> y <= k ->
  c2 + c1 = n -> maxn x y <= c2)%N.
Proof. by rewrite geq_max => *; apply/andP; split; lia. Qed.

Section DensePoly.
Variable F : fftField.
Implicit Types (p q r a b s : {poly F}).
Let PF := poly_comRingType F.
Add Ring FP : (stdlib_cring PF).

(** [lia] on polynomial sizes: the coercions inside [size] are made uniform first *)
Definition psz p := size p.
Ltac szlia := repeat match goal with
  | |- context [@size ?A (@polyseq ?R ?x)] => change (@size A (@polyseq R x)) with (psz x)
  | H : context [@size ?A (@polyseq ?R ?x)] |- _ =>
      change (@size A (@polyseq R x)) with (psz x) in H
  end; lia.

Lemma nilE p : (polyseq p == [::]) = (p == 0).
Proof. by rewrite -size_eq0 size_poly_eq0. Qed.

Lemma dp_normE (c : seq F) : dp_norm c = Poly c :> seq F.
Proof.
elim: c => [|x c IH] /=; first by rewrite polyseq0.
rewrite IH polyseq_cons; case: (altP (polyseq (Poly c) =P [::])) => [E|nE].
  rewrite E /nilp /= andbT; case: eqP => [->|/eqP x0]; first by rewrite polyseqC eqxx.
  by rewrite polyseqC x0.
by rewrite andbF; case: (polyseq (Poly c)) nE.
Qed.

Lemma dp_subE p q : dp_sub p q = (p - q) :> seq F.
Proof.
rewrite /dp_sub dp_normE; congr polyseq; apply/polyP => i.
rewrite coef_Poly coefB; case: (ltnP i (maxn (size p) (size q))) => lt_i.
  by rewrite nth_mkseq.
rewrite nth_default ?size_mkseq //; move: lt_i; rewrite geq_max => /andP[h1 h2].
by rewrite !nth_default // subr0.
Qed.

Lemma foldr_sum (f : nat -> F) js :
  foldr (fun j acc => f j + acc) 0 js = \sum_(j <- js) f j.
Proof. by elim: js => [|j js IH]; rewrite ?big_nil ?big_cons //= IH. Qed.

Lemma dp_mulE p q (e : domain F) : domain_new F (size p + size q).-1 = Some e ->
  dp_mul p q = Ok (polyseq (p * q)).
Proof.
rewrite /dp_mul !nilE.
case: eqP => [->|/eqP p0]; first by rewrite mul0r polyseq0.
case: eqP => [->|/eqP q0]; first by rewrite mulr0 polyseq0.
move=> ->; rewrite [rbind _ _]/=; congr Ok; rewrite dp_normE; congr polyseq.
apply/polyP => i; rewrite coef_Poly.
case: (ltnP i (size p + size q).-1) => lt_i.
  rewrite nth_mkseq // coefM.
  transitivity (\sum_(j <- iota 0 i.+1) p`_j * q`_(i - j)).
    exact: (foldr_sum (fun j => p`_j * q`_(i - j)) (iota 0 i.+1)).
  by rewrite -[RHS](big_mkord xpredT (fun j => p`_j * q`_(i - j))) /index_iota subn0.
rewrite nth_default ?size_mkseq // nth_default //; apply: leq_trans lt_i; exact: size_mul_leq.
Qed.

Lemma dp_mul0 q : dp_mul (polyseq 0 : seq F) q = Ok (polyseq 0).
Proof. by rewrite /dp_mul polyseq0. Qed.

Lemma dp_mul_panic p q : p != 0 -> q != 0 -> domain_new F (size p + size q).-1 = None ->
  dp_mul p q = Panic.
Proof. by rewrite /dp_mul !nilE => /negbTE -> /negbTE -> /= ->. Qed.

Lemma dp_degreeE p : dp_degree p = (size p).-1. Proof. by []. Qed.

(** ** Long division *)

Lemma last_lead p : last 0 p = lead_coef p.
Proof. by rewrite /lead_coef nth_last. Qed.

Lemma div_step p b : b != 0 -> (size b <= size p)%N -> p != 0 ->
  (size (p - (lead_coef p / lead_coef b) *: 'X^(size p - size b) * b)%R < size p)%N.
Proof.
move=> b0 le_b p0; set c := _ / _; set k := (_ - _)%N.
have sp : (0 < size p)%N by rewrite size_poly_gt0.
have sb : (0 < size b)%N by rewrite size_poly_gt0.
rewrite -[X in (_ < X)%N]prednK // ltnS; apply/leq_sizeP => j le_j.
rewrite coefB -scalerAl coefZ coefXnM /k.
case: (leqP (size p) j) => lt_j.
  rewrite [p`_j]nth_default // ltnNge (leq_trans (leq_subr _ _) lt_j) /=.
  by rewrite nth_default ?mulr0 ?subr0 //; szlia.
have -> : j = (size p).-1 by szlia.
have -> : ((size p).-1 < size p - size b)%N = false by szlia.
have -> : ((size p).-1 - (size p - size b) = (size b).-1)%N by szlia.
by rewrite -/(lead_coef p) -/(lead_coef b) /c divfK ?subrr // lead_coef_eq0.
Qed.

Lemma Poly_set_nth (quot : seq F) k c : quot`_k = 0 ->
  Poly (set_nth 0 quot k c) = Poly quot + c *: 'X^k.
Proof.
move=> q0; apply/polyP => i; rewrite coefD !coef_Poly coefZ coefXn nth_set_nth /=.
by case: eqP => [->|_]; rewrite ?q0 ?mulr1 ?add0r ?mulr0 ?addr0.
Qed.

Lemma div_loopP fuel b (quot : seq F) p : b != 0 -> (size p < fuel + size b)%N ->
  (forall i, (i + size b <= size p)%N -> quot`_i = 0) ->
  exists quot' r, [/\ dp_div_loop fuel b quot p = (quot', polyseq r),
    Poly quot' * b + r = Poly quot * b + p & (size r < size b)%N].
Proof.
move=> b0; have sb : (0 < size b)%N by rewrite size_poly_gt0.
elim: fuel quot p => [|fuel IH] quot p lt_f Hq /=.
  by exists quot, p.
rewrite !dp_degreeE nilE.
case: eqP => [->|/eqP p0] /=.
  by exists quot, 0; split=> //; rewrite size_poly0.
have sp : (0 < size p)%N by rewrite size_poly_gt0.
case: leqP => le_b; last by exists quot, p; split=> //; szlia.
rewrite !last_lead dp_normE.
set c := _ / _; set k := (_ - _)%N.
have Ek : k = (size p - size b)%N by rewrite /k; szlia.
have -> : Poly (mkseq (fun i => if (k <= i)%N then p`_i - c * b`_(i - k) else p`_i) (size p)) =
   p - c *: 'X^k * b.
  apply/polyP => i; rewrite coef_Poly coefB -scalerAl coefZ coefXnM.
  case: (ltnP i (size p)) => lt_i.
    by rewrite nth_mkseq //; case: ltnP => // _; rewrite mulr0 subr0.
  rewrite nth_default ?size_mkseq // [p`_i]nth_default //.
  have -> : (i < k)%N = false by szlia.
  by rewrite [b`_ _]nth_default ?mulr0 ?subr0 //; szlia.
have := @div_step p b b0; rewrite -Ek -/c => /(_ _ p0) lt_s.
have {}lt_s : (size (p - c *: 'X^k * b)%R < size p)%N by apply: lt_s; szlia.
have [||quot' [r [E1 E2 E3]]] := IH (set_nth 0 quot k c) (p - c *: 'X^k * b).
- szlia.
- move=> i le_i; rewrite nth_set_nth /=; case: eqP => [Ei|_]; first by szlia.
  by apply: Hq; szlia.
exists quot', r; split=> //; rewrite E2 Poly_set_nth; last by apply: Hq; szlia.
by move: (c *: 'X^k) => w; cring PF.
Qed.

Lemma dp_divmodP a b : b != 0 ->
  exists q r, [/\ dp_divmod a b = Ok (polyseq q, polyseq r), a = q * b + r, (size r < size b)%N &
    (a != 0 -> (size b <= size a)%N -> (size q + size b = (size a).+1)%N)].
Proof.
move=> b0; have sb : (0 < size b)%N by rewrite size_poly_gt0.
rewrite /dp_divmod !nilE (negbTE b0).
case: eqP => [->|/eqP a0].
  by exists 0, 0; rewrite !polyseq0 mul0r addr0; split=> //; rewrite eqxx.
have sa : (0 < size a)%N by rewrite size_poly_gt0.
rewrite !dp_degreeE; case: ltnP => lt_b.
  exists 0, a; rewrite !polyseq0 mul0r add0r; split=> //; szlia.
have [||quot [r [E1 E2 E3]]] := @div_loopP (size a) b (nseq ((size a).-1 - (size b).-1).+1 0) a b0.
- szlia.
- by move=> i _; rewrite nth_nseq if_same.
rewrite E1 dp_normE; exists (Poly quot), r.
have Ea : a = Poly quot * b + r.
  rewrite E2; suff -> : Poly (nseq ((size a).-1 - (size b).-1).+1 (0 : F)) = 0 by cring PF.
  by apply/polyP => i; rewrite coef_Poly nth_nseq if_same coef0.
split=> // _ le_b.
have q0 : Poly quot != 0.
  by apply/eqP => q0; move: Ea; rewrite q0 mul0r add0r => Ea; rewrite Ea in le_b *; szlia.
have sq : (0 < size (Poly quot))%N by rewrite size_poly_gt0.
have sm : size (Poly quot * b) = (size (Poly quot) + size b).-1 by rewrite size_mul.
by rewrite Ea size_addl sm ?prednK //; szlia.
Qed.

Lemma dp_divmod0 : dp_divmod (polyseq 0 : seq F) (polyseq 0 : seq F) = Ok ([::], [::]).
Proof. by rewrite polyseq0. Qed.

(** ** Partial extended Euclid *)

Lemma domain_newE num : (num <= 2 ^ ff_two_adicity F)%N -> exists e, domain_new F num = Some e.
Proof.
move=> le_n; rewrite /domain_new /get_root_of_unity ifT; first by eexists.
by apply: up_log_min.
Qed.

Lemma xgcd_loopP a b D stop fuel r (pr : {poly F}) s (ps : {poly F}) : (0 < stop)%N ->
  (D <= 2 ^ ff_two_adicity F)%N ->
  (size pr <= D)%N -> (size s + size pr <= D.+1)%N -> (size ps + size r <= D.+1)%N ->
  (size r < fuel)%N -> (size r < size pr)%N ->
  (exists u, r = u * a + s * b) -> (exists u, pr = u * a + ps * b) ->
  exists (r' s' pr' ps' : {poly F}), [/\ xgcd_loop fuel stop r pr s ps = Ok (polyseq r', polyseq s'),
    (dp_degree r' < stop)%N, (exists u, r' = u * a + s' * b),
    (r' = r /\ s' = s /\ pr' = pr /\ ps' = ps) \/ ((stop < size pr')%N) &
    (forall N, (size s + size pr = N.+1 -> size ps < size s ->
                size s' + size pr' = N.+1 /\ size ps' < size s')%N)].
Proof.
move=> stop0 le_D; elim: fuel r pr s ps => // fuel IH r pr s ps s1 s2 s3 lt_f lt_r [u Er] [v Ep].
rewrite /= dp_degreeE; case: (leqP stop (size r).-1) => lt_s; last first.
  exists r, s, pr, ps; split=> //; [by exists u|by left].
have r0 : r != 0.
  by apply/eqP => r0; move: lt_s; rewrite r0 size_poly0 /= leqNgt stop0.
have sr : (0 < size r)%N by rewrite size_poly_gt0.
have p0 : pr != 0 by rewrite -size_poly_gt0; apply: leq_trans lt_r.
have [q [r1 [-> Eq lt_r1 sq]]] := dp_divmodP pr r0.
have {}sq : (size q + size r = (size pr).+1)%N by apply: sq => //; exact: ltnW.
rewrite [rbind _ _]/=.
have [e1 E1] : exists e, domain_new F (size q + size r).-1 = Some e.
  by apply: domain_newE; rewrite sq /=; apply: leq_trans le_D.
rewrite (dp_mulE E1) [rbind _ _]/= dp_subE.
have [e2 E2] : exists e, domain_new F (size q + size s).-1 = Some e.
  by apply: domain_newE; apply: leq_trans le_D; szlia.
rewrite (dp_mulE E2) [rbind _ _]/= dp_subE.
have -> : pr - q * r = r1 by rewrite Eq addrAC subrr add0r.
have sqs : (size (q * s)%R <= (size q + size s).-1)%N by exact: size_mul_leq.
have [|||||||r' [s' [pr' [ps' [H1 H2 H3 H4 H5]]]]] := IH r1 r (ps - q * s) s.
- by szlia.
- have := size_add ps (- (q * s)); rewrite size_opp; szlia.
- szlia.
- szlia.
- by [].
- exists (v - q * u); have -> : r1 = pr - q * r by rewrite Eq addrAC subrr add0r.
  rewrite {1}Ep {1}Er; cring PF.
- by exists u.
exists r', s', pr', ps'; split=> //.
- by right; case: H4 => [[_ [_ [-> _]]]|//]; szlia.
- move=> N EN lt_ss; apply: H5.
    have q0 : q != 0.
      by apply/eqP => q0; move: sq lt_r; rewrite q0 size_poly0; szlia.
    have s0 : s != 0 by rewrite -size_poly_gt0; apply: leq_trans lt_ss.
    have sm : size (q * s) = (size q + size s).-1 by rewrite size_mul.
    have sq0 : (1 < size q)%N by szlia.
    rewrite addrC size_addl size_opp sm; szlia.
  have q0 : q != 0.
    by apply/eqP => q0; move: sq lt_r; rewrite q0 size_poly0; szlia.
  have s0 : s != 0 by rewrite -size_poly_gt0; apply: leq_trans lt_ss.
  have sm : size (q * s) = (size q + size s).-1 by rewrite size_mul.
  have sq0 : (1 < size q)%N by szlia.
  rewrite addrC size_addl size_opp sm; szlia.
Qed.


Lemma partial_xgcdP a b n k : (0 < (k + n) %/ 2)%N ->
  (maxn (size a) (size b) <= 2 ^ ff_two_adicity F)%N ->
  exists r s, [/\ partial_xgcd a b n k = Ok (polyseq r, polyseq s),
    (dp_degree r < (k + n) %/ 2)%N & exists u, r = u * a + s * b].
Proof.
rewrite geq_max => stop0 /andP[le_a le_b]; rewrite /partial_xgcd.
have -> : [:: 1] = polyseq (1 : {poly F}) by rewrite polyseq1.
have -> : [::] = polyseq (0 : {poly F}) by rewrite polyseq0.
move: ((_ %/ 2)%N) stop0 => stop stop0.
case: (ltnP (size b) (size a)) => lt_ab.
  have [|||||||r [s [pr [ps [H1 H2 H3 _ _]]]]] :=
      @xgcd_loopP a b (size a) stop (size b).+2 b a 1 0 stop0 le_a.
  - by [].
  - by rewrite size_poly1.
  - by rewrite size_poly0; szlia.
  - by [].
  - by [].
  - by exists 0; rewrite mul0r mul1r add0r.
  - by exists 1; rewrite mul0r mul1r addr0.
  by exists r, s.
rewrite [xgcd_loop _ _ _ _ _ _]/= -/(xgcd_loop) dp_degreeE.
case: (leqP stop (size b).-1) => lt_s; last first.
  by exists b, 1; split=> //; exists 0; rewrite mul0r mul1r add0r.
have b0 : b != 0.
  by apply/eqP => b0; move: lt_s; rewrite b0 size_poly0 /= leqNgt stop0.
have [q [r1 [-> Ea lt_r1 sq]]] := dp_divmodP a b0.
rewrite [rbind _ _]/=.
have [q0|q0] := eqVneq q 0.
  rewrite q0 !dp_mul0 ![rbind _ _]/= !dp_subE !subr0.
  have E1 : r1 = a by rewrite Ea q0 mul0r add0r.
  rewrite E1 in lt_r1.
  have [|||||||r [s [pr [ps [H1 H2 H3 _ _]]]]] :=
      @xgcd_loopP a b (size b) stop (size b).+1 a b 0 1 stop0 le_b.
  - by [].
  - by rewrite size_poly0 add0n.
  - by rewrite size_poly1; szlia.
  - by szlia.
  - by [].
  - by exists 1; rewrite mul0r mul1r addr0.
  - by exists 0; rewrite mul0r mul1r add0r.
  by exists r, s.
have a0 : a != 0.
  apply/eqP => a0; move: Ea; rewrite a0 => Ea.
  have : size (q * b) = size r1.
    by have -> : q * b = - r1; [apply/eqP; rewrite -addr_eq0 -Ea|rewrite size_opp].
  rewrite size_mul // => E; have : (0 < size q)%N by rewrite size_poly_gt0.
  by szlia.
have sqb : (size q + size b <= (size a).+1)%N.
  case: (leqP (size b) (size a)) => h; first by rewrite sq.
  have sm : size (q * b) = (size q + size b).-1 by rewrite size_mul.
  have q1 : (0 < size q)%N by rewrite size_poly_gt0.
  have : size a = (size q + size b).-1 by rewrite Ea size_addl sm //; szlia.
  by szlia.
have [e1 E1] : exists e, domain_new F (size q + size b).-1 = Some e.
  by apply: domain_newE; apply: leq_trans le_a; szlia.
have s1 : size (1 : {poly F}) = 1%N by rewrite size_poly1.
have [e2 E2] : exists e, domain_new F (size q + size (1 : {poly F})).-1 = Some e.
  apply: domain_newE; apply: leq_trans le_a.
  by have : (0 < size b)%N by [rewrite size_poly_gt0]; rewrite s1; szlia.
rewrite (dp_mulE E1) [rbind _ _]/= dp_subE (dp_mulE E2) [rbind _ _]/= dp_subE mulr1 sub0r.
have Er : a - q * b = r1 by rewrite Ea addrAC subrr add0r.
rewrite Er.
have [||||||||r [s [pr [ps [H1 H2 H3 _ _]]]]] :=
    @xgcd_loopP a b (maxn (size a) (size b)) stop (size b).+1 r1 b (- q) 1 stop0.
- by rewrite geq_max le_a.
- by rewrite leq_maxr.
- by rewrite size_opp; apply: leq_trans sqb _; rewrite ltnS leq_maxl.
- by rewrite s1 add1n ltnS; apply: leq_trans (ltnW lt_r1) _; rewrite leq_maxr.
- by szlia.
- by [].
- by exists 1; rewrite mul1r mulNr.
- by exists 0; rewrite mul0r mul1r add0r.
by exists r, s.
Qed.

(** ** Decoding *)

Variables (pp : pss F) (ok : pp_ok pp).
Local Notation n := (p_n pp).
Local Notation x_ i := (share_pt pp i).
Local Notation FO := [lmodType F of F^o].

Lemma pval_horner (c : seq F) x : pval (T := FO) x c = (Poly c).[x].
Proof.
rewrite /pval (horner_coef_wide _ (size_Poly c)); apply: eq_bigr => i _.
by rewrite coef_Poly mulrC.
Qed.

Lemma share_inj i j : (i < n)%N -> (j < n)%N -> x_ i = x_ j -> i = j.
Proof.
move=> lt_i lt_j /eqP; rewrite /share_pt.
have P := dok_prim (pp_share_ok ok).
rewrite (eq_prim_root_expr P) (pp_share_size ok) -(ppn ok).
by rewrite !modn_small // => /eqP.
Qed.

Lemma uniq_share_pts : uniq (mkseq (fun i => x_ i) n).
Proof.
rewrite map_inj_in_uniq ?iota_uniq // => i j.
by rewrite !mem_iota !add0n => /= Hi Hj; apply: share_inj.
Qed.

Lemma share_root i : x_ i ^+ n = 1.
Proof.
have P := dok_prim (pp_share_ok ok).
by rewrite /share_pt exprAC (ppn ok) -(pp_share_size ok) (prim_expr_order P) expr1n.
Qed.

Lemma n_gt0 : (0 < n)%N.
Proof. by rewrite (ppn ok); have := pp_l_gt0 ok; lia. Qed.

Lemma vanishingE : vanishing_poly (p_share pp) = ('X^n - 1 : {poly F}) :> seq F.
Proof.
rewrite /vanishing_poly dp_normE; congr polyseq.
rewrite (pp_share_off ok) expr1n (pp_share_size ok) -(ppn ok).
have n0 := n_gt0; case: n n0 => // m _; apply/polyP => i.
rewrite coef_Poly coefB coefXn coef1 /=.
case: i => [|i] /=; first by rewrite sub0r.
rewrite eqSS subr0 nth_cat nth_nseq size_nseq; case: ltnP => h.
  by rewrite (ltn_eqF h).
case: eqP => [->|ne]; first by rewrite subnn.
by rewrite nth_default //=; lia.
Qed.

Lemma size_Z : size ('X^n - 1 : {poly F}) = n.+1.
Proof. by rewrite size_Xn_sub_1 ?n_gt0. Qed.

Lemma size_interp (received : seq F) :
  (size (Poly (ifft (T := FO) (p_share pp) received)) <= n)%N.
Proof.
have H : size (ifft (T := FO) (p_share pp) received) = n.
  by rewrite size_ifft (pp_share_size ok) (ppn ok).
by apply: leq_trans (size_Poly _) _; apply: eq_leq; exact: H.
Qed.

Lemma interpE (received : seq F) i : size received = n -> (i < n)%N ->
  (Poly (ifft (T := FO) (p_share pp) received)).[x_ i] = received`_i.
Proof.
move=> sr lt_i; have okS := pp_share_ok ok.
have sS : d_size (p_share pp) = n by rewrite (pp_share_size ok) (ppn ok).
have sr' : size (received : seq FO) = d_size (p_share pp) by rewrite sr sS.
rewrite -[in RHS](ifftK okS sr') fft_mkseq ?size_ifft // sS nth_mkseq // pval_horner.
by rewrite /element (pp_share_off ok) mul1r.
Qed.

Lemma poly_many_roots (p : {poly F}) (js : seq nat) : uniq js -> all (fun j => j < n)%N js ->
  (forall j, j \in js -> p.[x_ j] = 0) -> (size p <= size js)%N -> p = 0.
Proof.
move=> u_j lt_j root_j le_p; apply: (@roots_geq_poly_eq0 _ p [seq x_ j | j <- js]).
- by rewrite all_map; apply/allP => j Hj /=; apply/rootP; apply: root_j.
- rewrite map_inj_in_uniq // => i j Hi Hj; apply: share_inj;
    [exact: (allP lt_j _ Hi)|exact: (allP lt_j _ Hj)].
- by rewrite size_map.
Qed.

(** what the Euclidean stage delivers *)
Lemma decode_xgcd (received : seq F) k : size received = n -> (k <= n)%N ->
  (n < 2 ^ ff_two_adicity F)%N ->
  exists r s, [/\ partial_xgcd (vanishing_poly (p_share pp))
       (dp_norm (ifft (T := FO) (p_share pp) received)) n k = Ok (polyseq r, polyseq s),
    (size r <= (k + n) %/ 2)%N, (0 < size s <= (n - (k + n) %/ 2).+1)%N &
    forall i, (i < n)%N -> r.[x_ i] = s.[x_ i] * received`_i].
Proof.
move=> sr le_k lt_n; have n0 := n_gt0.
rewrite dp_normE vanishingE; set R := Poly _; set Z := 'X^n - 1.
have sZ : size Z = n.+1 by exact: size_Z.
have sR : (size R <= n)%N.
  exact: size_interp.
have n4 : (4 <= n)%N by rewrite (ppn ok); have := pp_l_gt0 ok; lia.
have stop0 : (0 < (k + n) %/ 2)%N by lia.
rewrite /partial_xgcd.
have -> : [:: 1] = polyseq (1 : {poly F}) by rewrite polyseq1.
have -> : [::] = polyseq (0 : {poly F}) by rewrite polyseq0.
have [||||||||r [s [pr [ps [H1 H2 [u H3] H4 H5]]]]] :=
    @xgcd_loopP Z R n.+1 ((k + n) %/ 2) (size R).+2 R Z 1 0 stop0.
- exact: lt_n.
- by rewrite sZ.
- by rewrite size_poly1 sZ.
- by rewrite size_poly0 add0n; szlia.
- by [].
- by rewrite sZ ltnS.
- by exists 0; rewrite mul0r mul1r add0r.
- by exists 1; rewrite mul0r mul1r addr0.
have [||Hs lt_ps] := H5 n.+1; first by rewrite size_poly1 sZ.
  by rewrite size_poly0 size_poly1.
exists r, s; split=> //.
- by move: H2; rewrite dp_degreeE; szlia.
- apply/andP; split; first by szlia.
  case: H4 => [[_ [-> _]]|lt_p]; first by rewrite size_poly1.
  by szlia.
- move=> i lt_i; rewrite H3 hornerD !hornerM interpE //.
  by rewrite /Z hornerD hornerN hornerXn hornerC share_root subrr mulr0 add0r.
Qed.

Lemma div_exact r s (h : {poly F}) : s != 0 -> r = s * h ->
  dp_divmod r s = Ok (polyseq h, polyseq 0).
Proof.
move=> s0 E; have [q [r1 [-> Eq lt_r _]]] := dp_divmodP r s0.
have E1 : (h - q) * s = r1.
  have -> : r1 = r - q * s by rewrite {1}Eq addrAC subrr add0r.
  by rewrite E; cring PF.
have Eh : h = q.
  apply/eqP; rewrite -subr_eq0; apply/negP => /negP nz.
  move: lt_r; rewrite -E1 size_mul //.
  have : (0 < size (h - q)%R)%N by rewrite size_poly_gt0.
  by szlia.
by rewrite -E1 Eh subrr mul0r.
Qed.

Lemma decode_correct (m received : seq F) k : (size m <= k)%N -> (k <= n)%N ->
  (n < 2 ^ ff_two_adicity F)%N -> size received = n ->
  (count (fun i => received`_i != (Poly m).[x_ i])%R (iota 0 n) <= (n - k) %/ 2)%N ->
  decode_to_message pp received n k = Ok (polyseq (Poly m)).
Proof.
move=> le_m le_k lt_n sr le_e; rewrite /decode_to_message.
have [r [s [-> le_r /andP[s0 le_s] Hr]]] := decode_xgcd sr le_k lt_n.
rewrite [rbind _ _]/=.
pose bad := [seq i <- iota 0 n | received`_i != (Poly m).[x_ i]].
pose L := \prod_(i <- bad) ('X - (x_ i)%:P).
have sL : size L = (size bad).+1 by rewrite /L size_prod_XsubC.
have le_b : (size bad <= (n - k) %/ 2)%N by rewrite /bad size_filter.
have L0 : L != 0 by rewrite -size_poly_gt0 sL.
have Erm : r = s * Poly m.
  apply/eqP; rewrite -subr_eq0; apply/eqP.
  apply: (mulfI L0); rewrite mulr0.
  apply: (@poly_many_roots _ (iota 0 n)); rewrite ?iota_uniq ?size_iota //.
  - by apply/allP => j; rewrite mem_iota add0n.
  - move=> j; rewrite mem_iota add0n => /= lt_j; rewrite hornerM.
    case: (boolP (received`_j == (Poly m).[x_ j])) => [/eqP e|ne].
      by rewrite hornerD hornerN hornerM Hr // e subrr mulr0.
    suff /rootP -> : root L (x_ j) by rewrite mul0r.
    rewrite /L -(big_map (fun i => x_ i) xpredT (fun z => 'X - z%:P)) root_prod_XsubC.
    by apply/map_f; rewrite mem_filter ne mem_iota.
  - have le1 : (size (r - s * Poly m)%R <= maxn ((k + n) %/ 2) ((n - (k + n) %/ 2) + k))%N.
      apply: leq_trans (size_add _ _) _; rewrite size_opp geq_max; apply/andP; split.
        by apply: leq_trans le_r _; rewrite leq_maxl.
      apply: leq_trans (size_mul_leq _ _) _; apply: leq_trans _ (leq_maxr _ _).
      by have := leq_trans (size_Poly m) le_m; szlia.
    apply: leq_trans (size_mul_leq _ _) _; rewrite sL.
    exact: arith1 le_k le_b le1.
have s0' : s != 0 by rewrite -size_poly_gt0.
rewrite (div_exact s0' Erm) [rbind _ _]/= /rassert.
by rewrite [polyseq 0 == _]nilE eqxx.
Qed.

(** whatever is returned agrees with the received word in at least [(k+n)/2] positions *)
Lemma decode_sound (received h : seq F) k : (k <= n)%N ->
  (n < 2 ^ ff_two_adicity F)%N -> size received = n ->
  decode_to_message pp received n k = Ok h ->
  (count (fun i => received`_i != (Poly h).[x_ i])%R (iota 0 n) <= n - (k + n) %/ 2)%N.
Proof.
move=> le_k lt_n sr; rewrite /decode_to_message.
have [r [s [-> le_r /andP[s0 le_s] Hr]]] := decode_xgcd sr le_k lt_n.
rewrite [rbind _ _]/=; have s0' : s != 0 by rewrite -size_poly_gt0.
have [q [r1 [-> Eq _ _]]] := dp_divmodP r s0'.
rewrite [rbind _ _]/= /rassert nilE; case: eqP => // r10 [<-].
rewrite polyseqK -size_filter; set bad := [seq i <- _ | _].
rewrite leqNgt; apply/negP => lt_b; move/negP: s0'; apply; apply/eqP.
apply: (@poly_many_roots _ bad); first by rewrite filter_uniq // iota_uniq.
- by apply/allP => j; rewrite mem_filter mem_iota => /andP[].
- move=> j; rewrite mem_filter mem_iota add0n /= => /andP[ne lt_j].
  have := Hr j lt_j; rewrite Eq r10 addr0 hornerM mulrC => /eqP.
  rewrite -subr_eq0 -mulrBr mulf_eq0 => /orP[/eqP //|].
  by rewrite subr_eq0 eq_sym => E; case/negP: ne.
- by apply: leq_trans le_s _.
Qed.

(** the field has no domain for the first product: any word with a correctable error panics *)
Lemma decode_no_room (m received : seq F) k : (size m <= k)%N -> (k <= n)%N ->
  n = (2 ^ ff_two_adicity F)%N -> size received = n ->
  (0 < count (fun i => received`_i != (Poly m).[x_ i])%R (iota 0 n) <= (n - k) %/ 2)%N ->
  decode_to_message pp received n k = Panic.
Proof.
move=> le_m le_k En sr /andP[ne0 le_e]; rewrite /decode_to_message.
rewrite dp_normE vanishingE; set R := Poly _; set Z := 'X^n - 1.
have sZ : size Z = n.+1 by exact: size_Z.
have sR : (size R <= n)%N.
  exact: size_interp.
have n4 : (4 <= n)%N by rewrite (ppn ok); have := pp_l_gt0 ok; lia.
have lt_R : ((k + n) %/ 2 < size R)%N.
  rewrite ltnNge; apply/negP => le_R.
  have ER : R = Poly m.
    apply/eqP; rewrite -subr_eq0; apply/eqP.
    apply: (@poly_many_roots _ [seq i <- iota 0 n | received`_i == (Poly m).[x_ i]]).
    - by rewrite filter_uniq // iota_uniq.
    - by apply/allP => j; rewrite mem_filter mem_iota => /andP[].
    - move=> j; rewrite mem_filter mem_iota add0n /= => /andP[/eqP e lt_j].
      by rewrite hornerD hornerN interpE // e subrr.
    - apply: leq_trans (size_add _ _) _; rewrite size_opp size_filter.
      have := count_predC (fun i => received`_i == (Poly m).[x_ i]) (iota 0 n).
      rewrite size_iota.
      have -> : count (predC (fun i => received`_i == (Poly m).[x_ i])) (iota 0 n) =
                count (fun i => received`_i != (Poly m).[x_ i])%R (iota 0 n) by [].
      move: le_e; move: (count _ _) => c1; move: (count _ _) => c2 le_e Ec.
      exact: arith2 le_k le_e le_R (leq_trans (size_Poly m) le_m) Ec.
  move: ne0; rewrite -has_count => /hasP[i]; rewrite mem_iota add0n /= => lt_i.
  by rewrite -ER interpE // eqxx.
rewrite /partial_xgcd [xgcd_loop _ _ _ _ _ _]/= dp_degreeE ifT; last by szlia.
have R0 : R != 0 by rewrite -size_poly_gt0; szlia.
have Z0 : Z != 0 by rewrite -size_poly_gt0 sZ.
have [q [r1 [-> Eq _ sq]]] := dp_divmodP Z R0.
have {}sq : (size q + size R = n.+2)%N by rewrite -sZ sq // sZ ltnW.
rewrite [rbind _ _]/= dp_mul_panic //.
- by rewrite -size_poly_gt0; szlia.
- rewrite sq /domain_new /get_root_of_unity ifF //=.
  apply/negP => le_u; have : (2 ^ up_log 2 n.+1 <= 2 ^ ff_two_adicity F)%N by rewrite leq_exp2l.
  by rewrite -En leqNgt => /negP; apply; apply: up_logP.
Qed.

End DensePoly.
