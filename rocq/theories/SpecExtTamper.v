(** Specification vocabulary for wrong shares of vectors that are shared strided. *)
From mathcomp Require Import all_ssreflect all_algebra.
From Verif Require Import Base ModelField ModelPss Spec SpecProto SpecTamper.
Set Implicit Arguments.
Unset Strict Implicit.
Unset Printing Implicit Defensive.
Import GRing.Theory.
Local Open Scope ring_scope.

(** the vectors [x] of the parties, which need not be shares of anything, give the vector [v] of
    length 2^(b + lam): entry [e] and slot [j] are what the shares interpolate to *)
Definition guessed_strides (F : fftField) (pp : pss F) (lam b : nat) (x : nat -> seq F)
    (v : seq F) : Prop :=
  size v = (2 ^ (b + lam))%N /\
  forall e j, (e < 2 ^ b)%N -> (j < 2 ^ lam)%N ->
    strides (T := [lmodType F of F^o]) b (b + lam) v e j =
    interpolated (T := [lmodType F of F^o]) pp (entry (T := [lmodType F of F^o]) x e) j.
