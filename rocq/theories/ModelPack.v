(** dist-primitives/src/utils/pack.rs *)
From mathcomp Require Import all_ssreflect all_algebra.
From Verif Require Import Base ModelField ModelUtils ModelPss.
Set Implicit Arguments.
Unset Strict Implicit.
Unset Printing Implicit Defensive.
Import GRing.Theory.
Local Open Scope ring_scope.

(** pack.rs:22-35 [transpose]: [matrix[0]], [matrix[0][0]] and [row[c]] are bounds checked.
    (The fill-then-overwrite loops are written as nested collects.) *)
Definition transpose A (m : seq (seq A)) : res (seq (seq A)) :=
  let! _ := rassert (0 < size m)%N in
  let! r0 := vget m 0 in
  let! _ := vget r0 0 in
  mapM (fun c => mapM (fun row => vget row c) m) (iota 0 (size r0)).

Section Pack.
Variable F : fftField.
Variable T : lmodType F.
Variables (dbg : bool) (pp : pss F).

(** pack.rs:8-20 [pack_vec]; the [i]-th call of [pack] consumes the [i]-th block of [t] random
    values.  [slice::chunks(0)] panics, and so does the [%] in the debug assertion. *)
Definition pack_vec (secrets : seq T) (r : rng T) : res (seq (seq T)) :=
  let! _ := rassert (0 < p_l pp)%N in
  let! _ := dassert dbg (size secrets %% p_l pp == 0)%N in
  let cs := chunks (p_l pp) secrets in
  mapM (fun i => let! c := vget cs i in pack dbg pp c (rskip (i * p_t pp) r))
       (iota 0 (size cs)).

End Pack.
