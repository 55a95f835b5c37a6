(** Property theorems only; proofs are in UtilsThm.v. *)
From mathcomp Require Import all_ssreflect all_algebra.
From mathcomp Require Import zify.
From Verif Require Import RingTac Base ModelField ModelUtils ModelPss Spec.
From Verif Require Import FieldProofs UtilsProofs PssProofs.
Set Implicit Arguments.
Unset Strict Implicit.
Unset Printing Implicit Defensive.
Import GRing.Theory.
Local Open Scope ring_scope.
From Verif Require Import UtilsThm.

(** C11: evaluation in coefficient form, increasing degree. *)
Theorem C11_eval (F : fftField) (p : seq F) (x : F) :
  eval p x = \sum_(i < size p) p`_i * x ^+ i.
Proof. exact: c11_eval. Qed.
Print Assumptions C11_eval.

(** C11: pointwise evaluation keeps order and length. *)
Theorem C11_eval_many (F : fftField) (p xs : seq F) :
  size (eval_many p xs) = size xs /\
  forall i, (i < size xs)%N -> (eval_many p xs)`_i = \sum_(j < size p) p`_j * xs`_i ^+ j.
Proof. exact: c11_eval_many. Qed.
Print Assumptions C11_eval_many.

(** C12: synthetic division computes the quotient, padded with zeros to the input length. *)
Theorem C12_syn_div (F : fftField) (p : seq F) a (b : F) :
  (0 < a)%N -> (a < size p)%N -> b != 0 ->
  exists q, [/\ syn_div p a b = Ok q, size q = size p & Poly q = Poly p %/ ('X^a - b%:P)].
Proof. exact: c12_syn_div. Qed.
Print Assumptions C12_syn_div.

(** C12: in all other cases it panics. *)
Theorem C12_syn_div_panic (F : fftField) (p : seq F) a (b : F) :
  (a = 0%N) \/ (b = 0) \/ (size p <= a)%N -> syn_div p a b = Panic.
Proof. exact: c12_syn_div_panic. Qed.
Print Assumptions C12_syn_div_panic.

(** C13: the coefficients of the product of (x - xs[i]). *)
Theorem C13_get_zero_roots (F : fftField) (xs : seq F) :
  exists r, [/\ get_zero_roots xs = Ok r, size r = (size xs).+1 &
                Poly r = \prod_(x <- xs) ('X - x%:P)].
Proof. exact: c13_get_zero_roots. Qed.
Print Assumptions C13_get_zero_roots.

(** C14: interpolation through arbitrary data at distinct non-zero points; the result has no
    trailing zero coefficient unless it is the all-zero vector (which is not shortened). *)
Theorem C14_interpolates (F : fftField) (T : lmodType F) (xs : seq F) (ys : seq T) :
  uniq xs -> 0 \notin xs -> size ys = size xs ->
  exists c : seq T, [/\ lagrange_interpolate xs ys = Ok c, (size c <= size xs)%N,
    (forall i, (i < size xs)%N -> pval xs`_i c = ys`_i) &
    (c = nseq (size xs) 0) \/ (exists c' x, c = rcons c' x /\ x != 0)].
Proof. exact: c14_interpolates. Qed.
Print Assumptions C14_interpolates.

(** C14: it is the unique polynomial with that many coefficients through the data. *)
Theorem C14_unique (F : fftField) (T : lmodType F) (xs : seq F) (ys c c' : seq T) :
  uniq xs -> 0 \notin xs -> size ys = size xs -> lagrange_interpolate xs ys = Ok c ->
  (size c' <= size xs)%N -> (forall i, (i < size xs)%N -> pval xs`_i c' = ys`_i) ->
  forall i, c`_i = c'`_i.
Proof. exact: c14_unique. Qed.
Print Assumptions C14_unique.

(** C14: a zero evaluation point panics. *)
Theorem C14_zero_point (F : fftField) (T : lmodType F) (xs : seq F) (ys : seq T) :
  0 \in xs -> lagrange_interpolate xs ys = Panic.
Proof. exact: c14_zero_point. Qed.
Print Assumptions C14_zero_point.

