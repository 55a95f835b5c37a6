(** Specification vocabulary for clients that send arbitrary bytes to the king. *)
From mathcomp Require Import all_ssreflect.
From Verif Require Import Base ModelNet SpecNet.
Set Implicit Arguments.
Unset Strict Implicit.
Unset Printing Implicit Defensive.

(** the program [t] of party [p] with the bytes [w p] in place of its first message; the king does
    what it should *)
Definition sending A (w : nat -> bytes) (p : nat) (t : cproc A) : cproc A :=
  if p == 0 then t else if t is CSend to _ k then CSend to (w p) k else t.

(** the program [t] of party [p] under a king that waits for the messages of the others, answers the
    bytes [w p] to party [p] whatever it has received, and ends with [a] *)
Definition dictating A (n : nat) (w : nat -> bytes) (a : A) (p : nat) (t : cproc A) : cproc A :=
  if p == 0 then CGather (nseq n None) (fun=> sends w (iota 1 n.-1) (CRet (Ok a))) else t.

(** the [n] parties run the threads [prog 0 .. prog (n-1)] on stream [sid]; those in [dead] do nothing
    at all, those in [bad] send the bytes [w p] in place of their first message *)
Definition with_garbled A (n sid : nat) (dead bad : pred nat) (w : nat -> bytes)
    (prog : nat -> cproc A) : seq (pproc A) :=
  with_silent n sid dead (fun p => if bad p then sending w p (prog p) else prog p).
