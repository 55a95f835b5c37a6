(** Statements about the polynomial helpers (C11-C14). *)
From mathcomp Require Import all_ssreflect all_algebra.
From mathcomp Require Import zify.
From Verif Require Import RingTac Base ModelField ModelUtils ModelPss Spec.
From Verif Require Import FieldProofs UtilsProofs PssProofs.
Set Implicit Arguments.
Unset Strict Implicit.
Unset Printing Implicit Defensive.
Import GRing.Theory.
Local Open Scope ring_scope.

(*** theorems ***)

(** C11: evaluation in coefficient form, increasing degree. *)
Lemma c11_eval (F : fftField) (p : seq F) (x : F) :
  eval p x = \sum_(i < size p) p`_i * x ^+ i.
Proof.
rewrite eval_horner; elim: p => [|a p IH]; first by rewrite /= horner0 big_ord0.
rewrite Poly_cons !hornerE IH big_ord_recl expr0 mulr1 mulr_sumr; congr (_ + _).
by apply: eq_bigr => i _; rewrite exprS mulrCA.
Qed.

(** C11: pointwise evaluation keeps order and length. *)
Lemma c11_eval_many (F : fftField) (p xs : seq F) :
  size (eval_many p xs) = size xs /\
  forall i, (i < size xs)%N -> (eval_many p xs)`_i = \sum_(j < size p) p`_j * xs`_i ^+ j.
Proof.
by rewrite /eval_many size_map; split=> // i lt_i; rewrite (nth_map 0) // c11_eval.
Qed.

(** C12: synthetic division computes the quotient, padded with zeros to the input length. *)
Lemma c12_syn_div (F : fftField) (p : seq F) a (b : F) :
  (0 < a)%N -> (a < size p)%N -> b != 0 ->
  exists q, [/\ syn_div p a b = Ok q, size q = size p & Poly q = Poly p %/ ('X^a - b%:P)].
Proof. by move=> a0 lt_a b0; apply: syn_div_correct; rewrite ?a0. Qed.

(** C12: in all other cases it panics. *)
Lemma c12_syn_div_panic (F : fftField) (p : seq F) a (b : F) :
  (a = 0%N) \/ (b = 0) \/ (size p <= a)%N -> syn_div p a b = Panic.
Proof.
move=> H; apply: syn_div_panic; case: H => [->|[->|->]]; rewrite ?eqxx ?orbT //.
Qed.

(** C13: the coefficients of the product of (x - xs[i]). *)
Lemma c13_get_zero_roots (F : fftField) (xs : seq F) :
  exists r, [/\ get_zero_roots xs = Ok r, size r = (size xs).+1 &
                Poly r = \prod_(x <- xs) ('X - x%:P)].
Proof.
have [r [E sr Hr]] := get_zero_rootsP xs; exists r; split=> //.
by apply/polyP => i; rewrite coef_Poly Hr.
Qed.

(** C14: interpolation through arbitrary data at distinct non-zero points; the result has no
    trailing zero coefficient unless it is the all-zero vector (which is not shortened). *)
Lemma c14_interpolates (F : fftField) (T : lmodType F) (xs : seq F) (ys : seq T) :
  uniq xs -> 0 \notin xs -> size ys = size xs ->
  exists c : seq T, [/\ lagrange_interpolate xs ys = Ok c, (size c <= size xs)%N,
    (forall i, (i < size xs)%N -> pval xs`_i c = ys`_i) &
    (c = nseq (size xs) 0) \/ (exists c' x, c = rcons c' x /\ x != 0)].
Proof.
move=> u_x n_x sy; rewrite lagrange_closed ?sy //.
set c := mkseq _ _; have sc : size c = size xs by rewrite size_mkseq.
exists (truncate_zeros c); split=> //.
- by rewrite -sc size_truncate_zeros.
- move=> i lt_i; rewrite -(lagrange_values u_x n_x sy lt_i); apply: eq_pval => j.
  by rewrite nth_truncate_zeros.
- have [k [E [[H k0]|H]]] := truncate_zerosP c; [left|by right].
  rewrite k0 cats0 in E; rewrite E -sc.
  apply: (@eq_from_nth _ 0); rewrite ?size_nseq // => i lt_i.
  by rewrite nth_nseq lt_i; apply/eqP; apply: (allP H); apply: mem_nth.
Qed.

(** C14: it is the unique polynomial with that many coefficients through the data. *)
Lemma c14_unique (F : fftField) (T : lmodType F) (xs : seq F) (ys c c' : seq T) :
  uniq xs -> 0 \notin xs -> size ys = size xs -> lagrange_interpolate xs ys = Ok c ->
  (size c' <= size xs)%N -> (forall i, (i < size xs)%N -> pval xs`_i c' = ys`_i) ->
  forall i, c`_i = c'`_i.
Proof.
move=> u_x n_x sy E le_c' H.
have Ey : ys = [seq pval x c' | x <- xs].
  apply: (@eq_from_nth _ 0); rewrite ?size_map sy // => i lt_i.
  by rewrite (nth_map 0) // H.
move: E; rewrite Ey lagrange_unique // => -[<-] i; rewrite nth_truncate_zeros nth_resize.
by case: ltnP => // le_i; rewrite nth_default // (leq_trans le_c').
Qed.

(** C14: a zero evaluation point panics. *)
Lemma c14_zero_point (F : fftField) (T : lmodType F) (xs : seq F) (ys : seq T) :
  0 \in xs -> lagrange_interpolate xs ys = Panic.
Proof. exact: lagrange_panic. Qed.
