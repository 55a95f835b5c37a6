(** Specification vocabulary: small, independent of the model's functions (only the parameter
    record is shared). *)
From mathcomp Require Import all_ssreflect all_algebra.
From Verif Require Import Base ModelField ModelPss.
Set Implicit Arguments.
Unset Strict Implicit.
Unset Printing Implicit Defensive.
Import GRing.Theory.
Local Open Scope ring_scope.

(** reversal of the [k] low bits of [x] *)
Fixpoint bitrev (k x : nat) : nat :=
  (if k is k'.+1 then (x %% 2) * 2 ^ k' + bitrev k' (x %/ 2) else 0)%N.

Section Spec.
Variable F : fftField.
Variable T : lmodType F.

(** value at [x] of the polynomial with coefficients [c] in the module [T] *)
Definition pval (x : F) (c : seq T) : T := \sum_(j < size c) x ^+ j *: c`_j.

(** evaluation point of party [i] and evaluation point of secret slot [j] *)
Definition share_pt (pp : pss F) (i : nat) : F := d_gen (p_share pp) ^+ i.
Definition secret_pt (pp : pss F) (j : nat) : F := ff_generator F * d_gen (p_secret pp) ^+ j.

(** [shares] is a packed Shamir sharing of [secrets] by a polynomial with at most [d]
    coefficients *)
Definition sharing (pp : pss F) (d : nat) (shares secrets : seq T) : Prop :=
  exists c : seq T, [/\ (size c <= d)%N,
    shares = mkseq (fun i => pval (share_pt pp i) c) (p_n pp) &
    secrets = mkseq (fun j => pval (secret_pt pp j) c) (p_l pp)].

(** the values of this polynomial at [off * gen^i] for [i < N] *)
Definition evals (off gen : F) (N : nat) (c : seq T) : seq T :=
  mkseq (fun i => pval (off * gen ^+ i) c) N.

(** the polynomial [p(g x)] *)
Definition coset_coeffs (g : F) (c : seq T) : seq T := mkseq (fun i => g ^+ i *: c`_i) (size c).

(** the parties hold vectors [sh p] of [m] shares; entry [e] of these vectors is a sharing of
    [sec e 0, ..., sec e (l-1)] *)
Definition vsharing (pp : pss F) (d m : nat) (sh : nat -> seq T) (sec : nat -> nat -> T) : Prop :=
  (forall p, (p < p_n pp)%N -> size (sh p) = m) /\
  forall e, (e < m)%N -> sharing pp d (mkseq (fun p => (sh p)`_e) (p_n pp))
                                    (mkseq (sec e) (p_l pp)).

(** the two ways of putting a vector of [m * l] elements into slots: consecutive blocks of [l]
    elements, or (for the input of the transforms) [l] bit-reversed blocks of [m = 2^b] elements *)
Definition blocks (pp : pss F) (v : seq T) (e j : nat) : T := v`_(e * p_l pp + j).
Definition strides (b k : nat) (v : seq T) (e j : nat) : T := v`_(bitrev k (e + j * 2 ^ b)).
Definition slots (pp : pss F) (rearrange : bool) (b k : nat) (v : seq T) : nat -> nat -> T :=
  if rearrange then strides b k v else blocks pp v.

End Spec.
