(** The standard library's [ring]/[field] tactics for an arbitrary mathcomp field.
    In a section with [F : fieldType] write [Add Field my_field : (stdlib_field F).], then use
    [fring F] or [ffield F]. *)
From mathcomp Require Import all_ssreflect all_algebra.
From Coq Require Export Ring Field.
Set Implicit Arguments.
Unset Strict Implicit.
Unset Printing Implicit Defensive.
Import GRing.Theory.
Local Open Scope ring_scope.

Section Ops.
Variable F : fieldType.
Definition rt_zero : F := 0.
Definition rt_one : F := 1.
Definition rt_add (x y : F) : F := x + y.
Definition rt_mul (x y : F) : F := x * y.
Definition rt_opp (x : F) : F := - x.
Definition rt_sub (x y : F) : F := rt_add x (rt_opp y).
Definition rt_inv (x : F) : F := x^-1.
Definition rt_div (x y : F) : F := rt_mul x (rt_inv y).

Lemma stdlib_ring :
  ring_theory rt_zero rt_one rt_add rt_mul rt_sub rt_opp eq.
Proof.
split=> *; rewrite /rt_sub /rt_add /rt_mul /rt_opp /rt_zero /rt_one;
 [exact: add0r|exact: addrC|exact: addrA|exact: mul1r|exact: mulrC|exact: mulrA
 |exact: mulrDl|by []|exact: subrr].
Qed.

Lemma stdlib_field :
  field_theory rt_zero rt_one rt_add rt_mul rt_sub rt_opp rt_div rt_inv eq.
Proof.
split; [exact: stdlib_ring|exact/eqP/oner_neq0|by []|].
by move=> x /eqP x0; rewrite /rt_mul /rt_inv mulVf.
Qed.

Lemma rt_start (x y : F) : rt_add x rt_zero = rt_add y rt_zero -> x = y.
Proof. by rewrite /rt_add /rt_zero !addr0. Qed.
End Ops.

Ltac to_rt F :=
  repeat match goal with
  | |- context [@GRing.add ?Z ?a ?b] => change (@GRing.add Z a b) with (@rt_add F a b)
  | |- context [@GRing.mul ?Z ?a ?b] => change (@GRing.mul Z a b) with (@rt_mul F a b)
  | |- context [@GRing.opp ?Z ?a] => change (@GRing.opp Z a) with (@rt_opp F a)
  | |- context [@GRing.inv ?Z ?a] => change (@GRing.inv Z a) with (@rt_inv F a)
  | |- context [GRing.zero ?Z] => change (GRing.zero Z) with (@rt_zero F)
  | |- context [GRing.one ?Z] => change (GRing.one Z) with (@rt_one F)
  end;
  match goal with |- @eq _ ?a ?b => change (@eq (GRing.Field.sort F) a b) end;
  apply: rt_start.

Ltac fring F := to_rt F; ring.
Ltac ffield F := to_rt F; field.

(** The same for commutative rings: [Add Ring my_ring : (stdlib_cring R).], then [cring R]. *)
Section COps.
Variable R : comRingType.
Definition ct_zero : R := 0.
Definition ct_one : R := 1.
Definition ct_add (x y : R) : R := x + y.
Definition ct_mul (x y : R) : R := x * y.
Definition ct_opp (x : R) : R := - x.
Definition ct_sub (x y : R) : R := ct_add x (ct_opp y).

Lemma stdlib_cring :
  ring_theory ct_zero ct_one ct_add ct_mul ct_sub ct_opp eq.
Proof.
split=> *; rewrite /ct_sub /ct_add /ct_mul /ct_opp /ct_zero /ct_one;
 [exact: add0r|exact: addrC|exact: addrA|exact: mul1r|exact: mulrC|exact: mulrA
 |exact: mulrDl|by []|exact: subrr].
Qed.

Lemma ct_start (x y : R) : ct_add x ct_zero = ct_add y ct_zero -> x = y.
Proof. by rewrite /ct_add /ct_zero !addr0. Qed.
End COps.

Ltac to_ct R :=
  repeat match goal with
  | |- context [@GRing.add ?Z ?a ?b] => change (@GRing.add Z a b) with (@ct_add R a b)
  | |- context [@GRing.mul ?Z ?a ?b] => change (@GRing.mul Z a b) with (@ct_mul R a b)
  | |- context [@GRing.opp ?Z ?a] => change (@GRing.opp Z a) with (@ct_opp R a)
  | |- context [GRing.zero ?Z] => change (GRing.zero Z) with (@ct_zero R)
  | |- context [GRing.one ?Z] => change (GRing.one Z) with (@ct_one R)
  end;
  match goal with |- @eq _ ?a ?b => change (@eq (GRing.ComRing.sort R) a b) end;
  apply: ct_start.

Ltac cring R := to_ct R; ring.
