(** Specification vocabulary for parties that do not send what they should: vectors that need not
    be sharings at all. *)
From mathcomp Require Import all_ssreflect all_algebra.
From Verif Require Import Base ModelField ModelPss Spec.
Set Implicit Arguments.
Unset Strict Implicit.
Unset Printing Implicit Defensive.
Import GRing.Theory.
Local Open Scope ring_scope.

Section Tamper.
Variable F : fftField.
Variable pp : pss F.
Local Notation n := (p_n pp).

(** the weight of the share of party [p] in the secret of slot [j]: the value at [secret_pt j] of
    the polynomial of degree below [n] that is 1 at [share_pt p] and 0 at the other share points *)
Definition weight (p j : nat) : F :=
  n%:R^-1 * \sum_(k < n) (secret_pt pp j / share_pt pp p) ^+ k.

(** the same if the share of party [d] is missing: degree below [n - 1], points other than [d] *)
Definition weight_without (d p j : nat) : F :=
  weight p j - weight d j * (share_pt pp p / share_pt pp d).

Variable T : lmodType F.

(** what the shares [y 0 .. y (n-1)] give at slot [j] *)
Definition interpolated (y : nat -> T) (j : nat) : T := \sum_(p < n) weight p j *: y p.

Definition interpolated_without (d : nat) (y : nat -> T) (j : nat) : T :=
  \sum_(p < n | val p != d) weight_without d p j *: y p.

(** the combination of the shares that is zero iff they lie on a polynomial of degree below
    [n - 1] *)
Definition imbalance (y : nat -> T) : T := \sum_(p < n) share_pt pp p *: y p.

(** entry [e] of the vectors of the parties *)
Definition entry (x : nat -> seq T) (e p : nat) : T := (x p)`_e.

(** the product that a party computes from its own shares in a multi-scalar multiplication *)
Definition products (bases : nat -> seq T) (scalars : nat -> seq F) (m p : nat) : T :=
  \sum_(e < m) (scalars p)`_e *: (bases p)`_e.

End Tamper.

(** party [q] uses [v] instead of its value *)
Definition replaced A (x : nat -> A) (q : nat) (v : A) (p : nat) : A := if p == q then v else x p.
