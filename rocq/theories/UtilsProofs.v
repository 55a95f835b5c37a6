(** Proofs about secret-sharing/src/utils.rs. *)
From mathcomp Require Import all_ssreflect all_algebra.
From mathcomp Require Import zify.
From Verif Require Import RingTac Base ModelField ModelUtils ModelPss Spec FieldProofs.
Set Implicit Arguments.
Unset Strict Implicit.
Unset Printing Implicit Defensive.
Import GRing.Theory.
Local Open Scope ring_scope.

(** In-place upward loop: iteration [j] overwrites entry [j] and only looks at entries
    that have not been overwritten yet. *)
Lemma foldM_up A (x0 : A) (f : seq A -> nat -> res (seq A)) (h : nat -> A) (s : seq A) a k :
  (forall r j, (a <= j < a + k)%N -> size r = size s ->
     (forall i, (j <= i)%N -> nth x0 r i = nth x0 s i) ->
     f r j = Ok (set_nth x0 r j (h j))) ->
  (a + k <= size s)%N ->
  exists r, [/\ foldM f s (iota a k) = Ok r, size r = size s &
    forall i, nth x0 r i = if (a <= i < a + k)%N then h i else nth x0 s i].
Proof.
elim: k => [|k IH] Hf le_s.
  by exists s; split=> // i; rewrite addn0; case: ifP => //; lia.
have [||r [E sr Hr]] := IH.
- by move=> r j Hj; apply: Hf; lia.
- by lia.
exists (set_nth x0 r (a + k) (h (a + k)%N)); split.
- rewrite -addn1 iotaD foldM_cat E /= Hf //; first by lia.
  by move=> i le_i; rewrite Hr; case: ifP => //; lia.
- by rewrite size_set_nth sr; apply/maxn_idPr; lia.
- move=> i; rewrite nth_set_nth /= Hr.
  case: (i =P (a + k)%N) => [->|ne_i]; first by case: ifP => //; lia.
  by case: ifP => H1; case: ifP => H2 //; lia.
Qed.

Section Utils.
Variable F : fftField.
Add Field FF : (stdlib_field F).
Let PF := poly_comRingType F.
Add Ring FP : (stdlib_cring PF).
Implicit Types (p xs : seq F).

Lemma eval_horner p x : eval p x = (Poly p).[x].
Proof. by rewrite /eval foldl_rev horner_Poly; elim: p => //= a p <-. Qed.

Lemma Poly_cons a p : Poly (a :: p) = a%:P + 'X * Poly p.
Proof. by rewrite /= cons_poly_def addrC mulrC. Qed.

(** ** Synthetic division *)

Lemma syn_div1P p b : exists c,
  Poly p = Poly (syn_div1 p b) * ('X - b%:P) + c%:P.
Proof.
rewrite /syn_div1; set st := foldr _ _ p.
suff: Poly p = Poly st.2 * ('X - b%:P) + st.1%:P by move=> E; exists st.1.
rewrite {}/st; elim: p => [|a p IH]; first by rewrite /= mul0r addr0.
rewrite [LHS]Poly_cons IH.
set st := foldr _ _ p.
rewrite [foldr _ _ (a :: p)]/= -/st [_.2]/= [_.1]/= Poly_cons.
rewrite polyCD polyCM.
cring PF.
Qed.

Lemma size_syn_div1 p b : size (syn_div1 p b) = size p.
Proof. by rewrite /syn_div1; elim: p => //= a p <-. Qed.

Lemma syn_div_genP p a b : (0 < a < size p)%N ->
  exists q r, [/\ syn_div_gen p a b = Ok q, size q = size p, (size r <= a)%N &
    Poly p = Poly q * ('X^a - b%:P) + Poly r].
Proof.
move=> /andP[a0 lt_a]; rewrite /syn_div_gen.
set f := (X in foldM X _ _).
set off := (size p - a)%N.
have loop k : (k <= off)%N -> exists s, [/\ foldM f p (rev (iota (off - k) k)) = Ok s,
    size s = size p &
    forall i, s`_i = if (off - k <= i < off)%N then p`_i + b * s`_(i + a) else p`_i].
  elim: k => [|k IH] le_k.
    by exists p; split=> // i; case: ifP => //; lia.
  have [|s [E ss Hs]] := IH; first by lia.
  have -> : iota (off - k.+1) k.+1 = (off - k.+1)%N :: iota (off - k) k.
    by rewrite /=; congr (_ :: iota _ _); lia.
  rewrite rev_cons -cats1 foldM_cat E /=.
  set j := (off - k.+1)%N.
  have lt_j : (j < size s)%N by rewrite ss /j /off; lia.
  have lt_ja : (j + a < size s)%N by rewrite ss /j /off; lia.
  rewrite {1}/f (vget_nth 0 lt_j) (vget_nth 0 lt_ja) /= (vset_nth 0 _ lt_j) /=.
  exists (set_nth 0 s j (s`_j + b * s`_(j + a))); split.
  - congr (Ok (set_nth _ _ _ _)); case: eqP => [->|_]; first by rewrite mul1r.
    by rewrite mulrC.
  - by rewrite size_set_nth ss; apply/maxn_idPr; rewrite -ss.
  - move=> i; rewrite !nth_set_nth /=.
    case: (i =P j) => [->|ne_i].
      have -> : (j + a == j)%N = false by lia.
      have -> : (j <= j < off)%N by rewrite /j; lia.
      congr (_ + _); rewrite Hs; case: ifP => //; rewrite /j; lia.
    rewrite Hs; case: (i + a =P j)%N => [Ei|_].
      have -> : (off - k <= i < off)%N = false by rewrite /j in Ei *; lia.
      by have -> : (j <= i < off)%N = false by lia.
    have -> : (j <= i < off)%N = (off - k <= i < off)%N by rewrite /j in ne_i *; lia.
    by [].
have [s [E ss Hs]] := loop _ (leqnn off).
rewrite subnn in E Hs; rewrite E /=.
set q := take _ _ ++ _.
have sq : size q = size p.
  rewrite /q size_cat size_take size_nseq size_cat !size_drop ss /off; case: ltnP; lia.
have nq i : q`_i = if (i < off)%N then s`_(i + a) else 0.
  rewrite /q nth_cat size_take size_cat !size_drop ss.
  have -> : (off < size p - a + (size p - (size p - a)))%N by rewrite /off; lia.
  case: ltnP => lt_i; last by rewrite nth_nseq if_same.
  rewrite nth_take // nth_cat size_drop ss lt_i nth_drop addnC //.
exists q, (take a s); split=> //; first by rewrite size_take; case: ltnP; lia.
apply/polyP => i; rewrite coefD mulrBr coefB coefMXn coefMC !coef_Poly !nq.
case: ltnP => lt_ia.
  rewrite nth_take // sub0r addrC.
  case: ltnP => lt_i; first by rewrite Hs lt_i /=; fring F.
  by rewrite Hs ltnNge lt_i /=; fring F.
rewrite [(take a s)`_i]nth_default ?addr0; last by rewrite size_take; case: ltnP; lia.
have -> : (i - a < off)%N = (i < size p)%N by rewrite /off; lia.
rewrite subnK //.
case: (ltnP i (size p)) => lt_ip.
  case: ltnP => lt_i; first by rewrite Hs lt_i /=; fring F.
  by rewrite Hs ltnNge lt_i /=; fring F.
rewrite nth_default //; case: ltnP => lt_i; first by rewrite /off in lt_i; lia.
by fring F.
Qed.

Lemma size_Poly_le p : (size (Poly p) <= size p)%N.
Proof. exact: size_Poly. Qed.

Lemma syn_div_correct p a b : (0 < a < size p)%N -> b != 0 ->
  exists q, [/\ syn_div p a b = Ok q, size q = size p & Poly q = Poly p %/ ('X^a - b%:P)].
Proof.
move=> Ha b0; have /andP[a0 lt_a] := Ha.
rewrite /syn_div /rassert -lt0n a0 b0 lt_a /=.
have sd : size ('X^a - b%:P : {poly F}) = a.+1.
  rewrite size_addl size_polyXn // size_opp size_polyC b0; lia.
case: eqP => [a1|_].
  subst a; exists (syn_div1 p b); split=> //; first exact: size_syn_div1.
  have [c E] := syn_div1P p b.
  rewrite E expr1 divp_addl_mul_small // sd size_polyC.
  by case: (c != 0).
have [q [r [-> sq sr E]]] := syn_div_genP b Ha.
exists q; split=> //.
rewrite E divp_addl_mul_small // sd ltnS.
exact: leq_trans (size_Poly_le _) sr.
Qed.

Lemma syn_div_panic p a b :
  (a == 0%N) || (b == 0) || (size p <= a)%N -> syn_div p a b = Panic.
Proof.
rewrite /syn_div /rassert -orbA; case: eqP => //= _; case: eqP => //= _ H.
by rewrite ltnNge H.
Qed.

(** ** Vanishing polynomial *)

Definition vanish xs : {poly F} := \prod_(x <- xs) ('X - x%:P).

Lemma vanish_cons x xs : vanish (x :: xs) = ('X - x%:P) * vanish xs.
Proof. by rewrite /vanish big_cons. Qed.

Lemma vanish_rcons xs x : vanish (rcons xs x) = vanish xs * ('X - x%:P).
Proof. by rewrite /vanish -cats1 big_cat /= big_seq1. Qed.

Lemma size_vanish xs : size (vanish xs) = (size xs).+1.
Proof. by rewrite /vanish size_prod_XsubC. Qed.

Lemma get_zero_rootsP xs : exists r, [/\ get_zero_roots xs = Ok r,
  size r = (size xs).+1 & forall i, r`_i = (vanish xs)`_i].
Proof.
rewrite /get_zero_roots; set m := size xs.
have s0 : size (nseq m.+1 (0 : F)) = m.+1 by rewrite size_nseq.
rewrite (vset_nth 0); last by rewrite s0.
rewrite [rbind _ _]/=.
set r0 := set_nth _ _ _ _; set f := (X in foldM X _ _).
suff loop k : (k <= m)%N -> exists r, [/\ foldM f r0 (iota 0 k) = Ok r, size r = m.+1 &
    forall i, (i <= k)%N -> r`_(m - k + i) = (vanish (take k xs))`_i].
  have [r [E sr Hr]] := loop m (leqnn _).
  exists r; split=> // i.
  case: (leqP i m) => le_i; first by move: (Hr i le_i); rewrite subnn add0n take_size.
  by rewrite !nth_default // ?sr ?size_vanish.
elim: k => [|k IH] lt_k.
  exists r0; split=> //.
  - by rewrite /r0 size_set_nth s0; apply/maxn_idPr.
  - move=> i; rewrite leqn0 => /eqP ->; rewrite subn0 addn0 take0 /vanish big_nil.
    by rewrite nth_set_nth /= eqxx coef1.
have [|r [E sr Hr]] := IH; first by lia.
rewrite -addn1 iotaD foldM_cat E /=.
have x_k : vget xs k = Ok xs`_k by rewrite (vget_nth 0).
rewrite /f; set n := (m - k.+1)%N.
have lt_n : (n < size r)%N by rewrite sr /n; lia.
rewrite (vset_nth 0 _ lt_n) /=.
set r1 := set_nth 0 r n 0.
have sr1 : size r1 = m.+1 by rewrite /r1 size_set_nth sr; apply/maxn_idPr; rewrite -sr.
set g := (X in foldM X r1 _).
have [||r2 [-> sr2 Hr2]] :=
  @foldM_up _ 0 g (fun j => r1`_j - r1`_j.+1 * xs`_k) r1 n (m - n)%N.
- move=> r' j Hj sr' Hr'; rewrite /g.
  rewrite (vget_nth 0) ?sr' ?sr1 /=; last by lia.
  rewrite (vget_nth 0) ?sr' ?sr1 /=; last by lia.
  rewrite x_k /= (vset_nth 0) ?sr' ?sr1; last by lia.
  by rewrite !Hr'.
- by rewrite sr1 /n; lia.
exists r2; split; rewrite /= ?sr2 // => i; rewrite addn1 => le_i.
have nr1 j : r1`_j = if j == n then 0 else r`_j by rewrite /r1 nth_set_nth.
rewrite -/n Hr2 !nr1 (take_nth 0) //.
rewrite vanish_rcons mulrBr coefB coefMX coefMC.
have -> : (n <= n + i < n + (m - n))%N = (i <= k)%N by rewrite /n; lia.
have -> : ((n + i).+1 == n)%N = false by lia.
have -> : (n + i == n)%N = (i == 0)%N by lia.
case: (posnP i) => [->|i0].
  have En : (m - k + 0)%N = n.+1 by rewrite /n; lia.
  by rewrite !addn0 leq0n -En Hr.
case: (leqP i k) => le_ik.
- have -> : (n + i).+1 = (m - k + i)%N by rewrite /n; lia.
  have -> : (n + i)%N = (m - k + i.-1)%N by rewrite /n; lia.
  by rewrite !Hr //; lia.
- have -> : (n + i)%N = (m - k + i.-1)%N by rewrite /n; lia.
  have Ei : i = k.+1 by lia.
  rewrite Hr; last by lia.
  by rewrite [(vanish _)`_i]nth_default ?mul0r ?subr0 // size_vanish size_takel; rewrite -/m; lia.
Qed.

(** ** Lagrange interpolation *)

Lemma vanish_perm xs ys : perm_eq xs ys -> vanish xs = vanish ys.
Proof. exact: perm_big. Qed.

Lemma vanish_rem xs x : x \in xs -> vanish xs = vanish (rem x xs) * ('X - x%:P).
Proof. by move=> /perm_to_rem /vanish_perm ->; rewrite vanish_cons mulrC. Qed.

Lemma vanish_root xs x : (vanish xs).[x] = \prod_(y <- xs) (x - y).
Proof. by rewrite horner_prod; apply: eq_bigr => y _; rewrite !hornerE. Qed.

Lemma vanish_rem_neq0 xs x : uniq xs -> x \in xs -> (vanish (rem x xs)).[x] != 0.
Proof.
move=> u_xs x_xs; rewrite vanish_root prodf_seq_neq0; apply/allP => y.
rewrite (mem_rem_uniq _ u_xs) inE /= => /andP[ne_y _].
by rewrite subr_eq0 eq_sym.
Qed.

Lemma vanish_rem_eq0 xs x y : uniq xs -> y \in xs -> y != x -> (vanish (rem x xs)).[y] = 0.
Proof.
move=> u_xs y_xs ne_yx; apply/eqP; rewrite vanish_root prodf_seq_eq0; apply/hasP.
by exists y; rewrite ?subrr ?eqxx // (mem_rem_uniq _ u_xs) inE ne_yx.
Qed.

Lemma lagrange_poly xs (p : {poly F}) : uniq xs -> (size p <= size xs)%N ->
  p = \sum_(x <- xs) (p.[x] / (vanish (rem x xs)).[x]) *: vanish (rem x xs).
Proof.
move=> u_xs le_p; apply/eqP; rewrite -subr_eq0; apply/eqP.
apply: (roots_geq_poly_eq0 (rs := xs)) => //.
  apply/allP => y y_xs; rewrite rootE hornerD hornerN horner_sum.
  rewrite (bigD1_seq y) //= hornerZ divfK ?vanish_rem_neq0 //.
  rewrite big1 ?addr0 ?subrr // => x ne_x.
  by rewrite hornerZ (@vanish_rem_eq0 _ _ y) ?mulr0 // eq_sym.
apply: leq_trans (size_add _ _) _; rewrite size_opp geq_max le_p /=.
apply: leq_trans (size_sum _ _ _) _.
rewrite big_seq; elim/big_rec: _ => // x k x_xs Hk; rewrite geq_max Hk andbT.
apply: leq_trans (size_scale_leq _ _) _.
rewrite size_vanish size_rem // prednK //.
by case: (xs) x_xs.
Qed.

Lemma lagrange_basis xs k j : uniq xs -> (k < size xs)%N ->
  \sum_(i < size xs) (xs`_i ^+ k / (vanish (rem xs`_i xs)).[xs`_i]) *
     (vanish (rem xs`_i xs))`_j = (j == k)%:R.
Proof.
move=> u_xs lt_k; rewrite -coefXn (lagrange_poly (p := 'X^k) u_xs) ?size_polyXn //.
rewrite coef_sum (big_nth 0) big_mkord; apply: eq_bigr => i _.
by rewrite coefZ hornerXn.
Qed.

Section Module.
Variable T : lmodType F.
Implicit Types (c ys : seq T).

Lemma truncate_zerosP c : exists k, [/\ truncate_zeros c ++ nseq k 0 = c &
  (all (fun x => x == 0) c /\ k = 0%N) \/
  (exists c' x, truncate_zeros c = rcons c' x /\ x != 0)].
Proof.
rewrite /truncate_zeros.
elim/last_ind: c => [|c x IH]; first by exists 0%N; split=> //; left.
rewrite size_rcons -addn1 iotaD rev_cat /= add0n.
rewrite nth_rcons ltnn eqxx.
case: (x =P 0) => [->|/eqP x0] /=; last first.
  exists 0%N; rewrite take_oversize ?size_rcons ?addn1 // cats0; split=> //.
  by right; exists c, x.
have E : [seq i.+1 | i <- rev (iota 0 (size c)) & (rcons c 0)`_i != 0] =
         [seq i.+1 | i <- rev (iota 0 (size c)) & c`_i != 0].
  congr map; apply: eq_in_filter => i.
  by rewrite mem_rev mem_iota /= add0n nth_rcons => ->.
rewrite {}E; move: IH; set s := [seq i.+1 | i <- _ & _].
have Es : s = [seq i.+1 | i <- rev (iota 0 (size c)) & c`_i != 0] by [].
case: s Es => [|k s] Es /= [k' [E H]].
  exists 0%N; rewrite take_oversize ?size_rcons ?addn1 // cats0; split=> //; left.
  split=> //; rewrite all_rcons eqxx /=.
  case: H => [[] //|[c' [x' [Ec x0]]]].
  rewrite take_size in Ec.
  have : (size c) \in ([::] : seq nat).
    rewrite Es; apply/mapP; exists (size c').
      by rewrite mem_filter mem_rev mem_iota Ec nth_rcons ltnn eqxx x0 size_rcons /=.
    by rewrite Ec size_rcons.
  by [].
have le_k : (k <= size c)%N.
  have : k \in k :: s by rewrite inE eqxx.
  rewrite Es => /mapP[i]; rewrite mem_filter mem_rev mem_iota => /and3P[_ _ /= H1] -> //.
rewrite -cats1 takel_cat //.
exists k'.+1; split; first by rewrite -[k'.+1]addn1 nseqD catA E.
case: H => [[H0 _]|H]; last by right.
exfalso; have : k \in k :: s by rewrite inE eqxx.
rewrite Es => /mapP[i]; rewrite mem_filter mem_rev mem_iota => /andP[/negP ne_i H1] _.
apply: ne_i; exact: (allP H0 _ (mem_nth _ H1)).
Qed.

Lemma nth_truncate_zeros c i : (truncate_zeros c)`_i = c`_i.
Proof.
have [k [E _]] := truncate_zerosP c.
rewrite -{2}E nth_cat nth_nseq if_same; case: ltnP => // H.
by rewrite nth_default.
Qed.

Lemma size_truncate_zeros c : (size (truncate_zeros c) <= size c)%N.
Proof.
have [k [E _]] := truncate_zerosP c.
by rewrite -{2}E size_cat leq_addr.
Qed.

(** the interpolation loop in closed form *)
Definition lag_coef xs ys (j : nat) : T :=
  \sum_(i < size ys) ((vanish (rem xs`_i xs))`_j / (vanish (rem xs`_i xs)).[xs`_i]) *: ys`_i.

Lemma lagrange_closed xs ys : uniq xs -> 0 \notin xs -> (size ys <= size xs)%N ->
  lagrange_interpolate xs ys = Ok (truncate_zeros (mkseq (lag_coef xs ys) (size xs))).
Proof.
move=> u_xs n0_xs le_ys; rewrite /lagrange_interpolate.
have [r [-> sr Hr]] := get_zero_rootsP xs; rewrite [rbind _ _]/=.
have Pr : Poly r = vanish xs by apply/polyP => i; rewrite coef_Poly Hr.
pose num x := if syn_div r 1 x is Ok q then q else [::].
have num_ok x : x \in xs -> [/\ syn_div r 1 x = Ok (num x), size (num x) = size r &
    Poly (num x) = vanish (rem x xs)].
  move=> x_xs; have x0 : x != 0 by apply: contraNneq n0_xs => <-.
  have [|q [E sq Pq]] := @syn_div_correct r 1 x _ x0.
    by rewrite sr /=; case: (xs) x_xs.
  rewrite /num E; split=> //; rewrite Pq Pr expr1 (vanish_rem x_xs).
  by rewrite mulpK // polyXsubC_eq0.
have E : mapM (fun x => syn_div r 1 x) xs = Ok (map num xs).
  by apply: mapM_ok => x0 i lt_i; case: (num_ok _ (mem_nth x0 lt_i)).
rewrite {}E [rbind _ _]/=.
set dens := batch_inversion _; set f := (X in foldM X _ _).
have s_num : size (map num xs) = size xs by rewrite size_map.
have num_i i : (i < size xs)%N -> vget (map num xs) i = Ok (num xs`_i).
  by move=> lt_i; rewrite (vget_nth [::]) ?s_num // (nth_map 0).
have coef_i i j : (i < size xs)%N -> (num xs`_i)`_j = (vanish (rem xs`_i xs))`_j.
  by move=> lt_i; have [_ _ <-] := num_ok _ (mem_nth 0 lt_i); rewrite coef_Poly.
have den_i i : (i < size xs)%N -> vget dens i = Ok ((vanish (rem xs`_i xs)).[xs`_i])^-1.
  move=> lt_i; have s_dens : size dens = size xs.
    by rewrite /dens size_map size_zipmap s_num minnn.
  rewrite (vget_nth 0) ?s_dens // /dens (nth_map 0) ?size_zipmap ?s_num ?minnn //.
  rewrite (nth_zipmap _ [::] 0) ?s_num // (nth_map 0) // eval_horner.
  by have [_ _ ->] := num_ok _ (mem_nth 0 lt_i).
suff loop k : (k <= size ys)%N -> foldM f (nseq (size (map num xs)) 0) (iota 0 k) =
    Ok (mkseq (lag_coef xs (take k ys)) (size xs)).
  by rewrite loop // take_size.
elim: k => [|k IH] le_k.
  congr Ok; apply: (@eq_from_nth _ 0); rewrite size_nseq ?size_mkseq s_num // => i lt_i.
  by rewrite nth_nseq lt_i nth_mkseq // /lag_coef take0 big_ord0.
rewrite -addn1 iotaD foldM_cat IH; last by lia.
rewrite [rbind _ _]/= /f (vget_nth 0) // [rbind _ _]/= den_i; last by lia.
rewrite [rbind _ _]/= num_i; last by lia.
rewrite [rbind _ _]/= size_mkseq.
set g := (X in mapM X _).
rewrite (@mapM_ok _ _ g (fun j => lag_coef xs (take (k + 1) ys) j)) //.
move=> i0 j; rewrite size_iota => lt_j; rewrite nth_iota // add0n /g.
have lt_k : (k < size xs)%N by lia.
rewrite (vget_nth 0) ?size_mkseq // [rbind _ _]/= nth_mkseq //.
rewrite (vget_nth 0) //; last by have [_ -> _] := num_ok _ (mem_nth 0 lt_k); rewrite sr; lia.
rewrite [rbind _ _]/= coef_i //; congr Ok.
rewrite /lag_coef !size_takel; [|by lia|by lia].
rewrite addn1 big_ord_recr /= scalerA; congr (_ + _ *: _); last by rewrite nth_take.
by apply: eq_bigr => i _; rewrite !nth_take // ltnS ltnW.
Qed.

(** interpolating values of a polynomial returns its coefficients *)
Lemma lagrange_unique xs c : uniq xs -> 0 \notin xs -> (size c <= size xs)%N ->
  lagrange_interpolate xs [seq pval x c | x <- xs] =
  Ok (truncate_zeros (resize 0 (size xs) c)).
Proof.
move=> u_xs n0_xs le_c; rewrite lagrange_closed ?size_map //; congr (Ok (truncate_zeros _)).
apply: (@eq_from_nth _ 0) => [|j]; rewrite size_mkseq ?size_resize // => lt_j.
rewrite nth_mkseq // nth_resize lt_j /lag_coef size_map.
rewrite (eq_bigr (fun i : 'I_(size xs) => \sum_(k < size xs)
  ((xs`_i ^+ k / (vanish (rem xs`_i xs)).[xs`_i]) * (vanish (rem xs`_i xs))`_j) *: c`_k)).
  rewrite exchange_big /= (bigD1 (Ordinal lt_j)) //= [X in _ + X]big1 ?addr0; last first.
    move=> k; rewrite -val_eqE /= eq_sym => /negPf ne_k.
    by rewrite -scaler_suml lagrange_basis // ne_k scale0r.
  by rewrite -scaler_suml lagrange_basis // eqxx scale1r.
move=> i _; rewrite (nth_map 0) // (pval_widen _ le_c) scaler_sumr.
by apply: eq_bigr => k _; rewrite scalerA; congr (_ *: _); fring F.
Qed.

(** the result interpolates arbitrary data *)
Lemma lagrange_values xs ys i : uniq xs -> 0 \notin xs -> size ys = size xs ->
  (i < size xs)%N -> pval xs`_i (mkseq (lag_coef xs ys) (size xs)) = ys`_i.
Proof.
move=> u_xs n0_xs s_ys lt_i.
rewrite (@pval_widen _ _ _ _ (size xs)) ?size_mkseq //.
rewrite (eq_bigr (fun j : 'I_(size xs) => \sum_(k < size xs) ((vanish (rem xs`_k xs))`_j *
  xs`_i ^+ j / (vanish (rem xs`_k xs)).[xs`_k]) *: ys`_k)); last first.
  move=> j _; rewrite nth_mkseq // /lag_coef s_ys scaler_sumr.
  by apply: eq_bigr => k _; rewrite scalerA; congr (_ *: _); fring F.
rewrite exchange_big /= (eq_bigr (fun k : 'I_(size xs) => ((vanish (rem xs`_k xs)).[xs`_i] /
  (vanish (rem xs`_k xs)).[xs`_k]) *: ys`_k)); last first.
  move=> k _; rewrite -scaler_suml -mulr_suml; congr ((_ / _) *: _).
  rewrite [in RHS](@horner_coef_wide _ (size xs)) // size_vanish size_rem ?mem_nth //.
  by rewrite prednK //; apply: leq_ltn_trans (ltn_ord k).
rewrite (bigD1 (Ordinal lt_i)) //= divff ?scale1r ?vanish_rem_neq0 ?mem_nth //.
rewrite big1 ?addr0 // => k ne_k.
rewrite (@vanish_rem_eq0 _ _ xs`_i) ?mem_nth ?mul0r ?scale0r // nth_uniq // eq_sym.
by rewrite -val_eqE in ne_k.
Qed.

Lemma lagrange_panic xs ys : 0 \in xs -> lagrange_interpolate xs ys = Panic.
Proof.
move=> z_xs; rewrite /lagrange_interpolate.
have [r [-> _ _]] := get_zero_rootsP xs; rewrite [rbind _ _]/=.
suff -> : mapM (fun x => syn_div r 1 x) xs = Panic by [].
elim: xs z_xs => //= x xs IH; rewrite inE => /predU1P[<-|/IH {IH} IH].
  by rewrite syn_div_panic // eqxx.
case E: (syn_div r 1 x) => [q|e|] //=; first by rewrite IH.
move: E; rewrite /syn_div /rassert; do !case: ifP => //=.
Qed.

End Module.
End Utils.
