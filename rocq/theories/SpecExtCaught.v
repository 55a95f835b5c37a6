(** Specification vocabulary for protocols of several threads that cannot finish. *)
From mathcomp Require Import all_ssreflect.
From Verif Require Import Base ModelNet SpecNet.
Set Implicit Arguments.
Unset Strict Implicit.
Unset Printing Implicit Defensive.

(** while nobody crashes, no party ever returns, and every execution can be continued, without a
    crash, to a state in which a thread of the king has panicked, which ends the king *)
Definition king_panics_first A (ps : seq (pproc A)) : Prop :=
  forall s c, all clean s -> run s (init ps) = Some c ->
    (forall p r, nth PHalt (procs c) p <> PRet r) /\
    exists s' i d d', [/\ all clean s', run s' c = Some d, step (0, LAbort i) d = Some d' &
                          nth PHalt (procs d') 0 = PRet Panic].
