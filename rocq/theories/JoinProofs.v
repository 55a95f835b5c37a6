(** Any two crash-free executions from the same state can be continued to a common state. *)
From mathcomp Require Import all_ssreflect.
From Verif Require Import Base ModelNet SpecNet NetProofs.
Set Implicit Arguments.
Unset Strict Implicit.
Unset Printing Implicit Defensive.

Lemma step_join A a s (c c1 c2 : cfg A) : separate_cfg c -> clean a -> all clean s ->
  step a c = Some c1 -> run s c = Some c2 ->
  exists s1 s2 e, [/\ all clean s1, all clean s2, run s1 c1 = Some e & run s2 c2 = Some e].
Proof.
elim: s c c1 => [|b s IH] c c1 S ca cs Ea.
  by case=> <-; exists [::], [:: a], c1; split=> //=; rewrite ?ca ?Ea.
have Er : run (b :: s) c = if step b c is Some e then run s e else None by [].
rewrite Er; move: cs; rewrite [all _ _]/= => /andP[cb cs].
case Eb: (step b c) => [cb'|] // R.
have [Eab|ab] := action_dec a b.
  by exists s, [::], c2; split=> //; move: Ea; rewrite Eab Eb => -[<-].
have [e [E1 E2]] := diamond S ca cb ab Ea Eb.
have [s1 [s2 [e' [cs1 cs2 R1 R2]]]] := IH _ _ (step_separate Eb S) ca cs E2 R.
exists (b :: s1), s2, e'; split=> //; first by rewrite /= cb.
have -> : run (b :: s1) c1 = if step b c1 is Some e then run s1 e else None by [].
by rewrite E1.
Qed.

Lemma run_join A s s' (c c1 c2 : cfg A) : separate_cfg c -> all clean s -> all clean s' ->
  run s c = Some c1 -> run s' c = Some c2 ->
  exists s1 s2 e, [/\ all clean s1, all clean s2, run s1 c1 = Some e & run s2 c2 = Some e].
Proof.
elim: s c c1 s' c2 => [|a s IH] c c1 s' c2 S cs cs'.
  by case=> <- R; exists s', [::], c2.
have Er : run (a :: s) c = if step a c is Some e then run s e else None by [].
rewrite Er; move: cs; rewrite [all _ _]/= => /andP[ca cs].
case Ea: (step a c) => [ca'|] // R R'.
have [t1 [t2 [e [ct1 ct2 Rt1 Rt2]]]] := step_join S ca cs' Ea R'.
have [s1 [s2 [e' [cs1 cs2 R1 R2]]]] := IH _ _ _ _ (step_separate Ea S) cs ct1 R Rt1.
by exists s1, (t2 ++ s2), e'; split=> //; rewrite ?all_cat ?ct2 // run_cat Rt2.
Qed.
