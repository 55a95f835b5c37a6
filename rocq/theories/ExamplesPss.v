(** Concrete cases meeting the hypotheses of the packed-sharing theorems. *)
From mathcomp Require Import all_ssreflect all_algebra.
From Verif Require Import Base ModelField ModelUtils ModelPss Spec ExampleField PropertiesPss.
Set Implicit Arguments.
Unset Strict Implicit.
Unset Printing Implicit Defensive.
Import GRing.Theory.
Local Open Scope ring_scope.

(** packing factor 2, eight parties, secrets (1,2), random points (5,7) *)
Definition ex_secrets : seq T17 := [:: 1; 2%:R].
Definition ex_rng : rng T17 := fun i => (5 + 2 * i)%:R.
Definition ex_shares := get_ok [::] (pack true pp2 ex_secrets ex_rng).

(* C01: the theorem applies to an honest packing, in debug builds *)
Example ex_C01 : [/\ pss_new F17 true (2 ^ 1) = Ok pp2, size ex_secrets = p_l pp2,
  pack true pp2 ex_secrets ex_rng = Ok ex_shares & unpack pp2 ex_shares == ex_secrets].
Proof.
by split; [exact: pp2_new|by vm_compute|apply: get_okP; vm_compute|vm_compute].
Qed.

(* the shares are not all equal and differ from the secrets *)
Example ex_C01_shares : [seq nat_of_ord x | x <- ex_shares] == [:: 8; 15; 14; 5; 1; 1; 16; 2]%N
  = false.
Proof. by vm_compute. Qed.

(* C02: seven parties in scrambled order *)
Definition ex_parties := [:: 6; 0; 3; 7; 1; 4; 5]%N.
Example ex_C02 : [/\ uniq ex_parties, all (fun q => q < p_n pp2)%N ex_parties,
  (2 * (p_t pp2 + p_l pp2 - 1) < size ex_parties < p_n pp2)%N &
  get_ok [::] (lagrange_unpack true pp2 [seq ex_shares`_q | q <- ex_parties] ex_parties)
    == ex_secrets].
Proof. by split; vm_compute. Qed.

(* C03: one secret where two fit *)
Example ex_C03 : (size [:: (3%:R : T17)] <= p_l pp2)%N /\
  unpack pp2 (get_ok [::] (det_pack false pp2 [:: (3%:R : T17)])) == [:: 3%:R; 0].
Proof. by split; vm_compute. Qed.

(* C04: product of two packings, one party missing *)
Example ex_C04 : let prod := zipmap (fun x y => x *: y) (ex_shares : seq F17^o) ex_shares in
  get_ok [::] (unpack_missing_shares true pp2 [seq prod`_q | q <- ex_parties] ex_parties)
    == [:: 1; 4%:R].
Proof. by vm_compute. Qed.

(* C06: the generator is not an n-th root of unity; two parties *)
Example ex_C06 : [/\ ff_generator F17 ^+ p_n pp2 != 1, uniq [:: 3; 5]%N,
  all (fun q => q < p_n pp2)%N [:: 3; 5]%N & size [:: 3; 5]%N = p_t pp2].
Proof. by split; vm_compute. Qed.

(* C07: fields with enough roots exist, and one that is too small for l = 8 *)
Example ex_C07 : (1.+2 <= ff_two_adicity F17)%N /\ (ff_two_adicity F17 < up_log 2 (4 * 8))%N.
Proof. by split; vm_compute. Qed.

(* C09: two shares are below the debug bound *)
Example ex_C09 : (size [:: 0; 1]%N <= 2 * (p_t pp2 + p_l pp2 - 1))%N.
Proof. by vm_compute. Qed.
