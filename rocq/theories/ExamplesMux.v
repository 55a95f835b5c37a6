(** Runs of the tests of mpc-net, and instances of the theorems about them. *)
From mathcomp Require Import all_ssreflect.
From Verif Require Import Base ModelNet ModelDemo ModelMux SpecNet PropertiesMux.
Set Implicit Arguments.
Unset Strict Implicit.
Unset Printing Implicit Defensive.

(** two parties: three sends and three receives each, every one followed by the end of its phase *)
Definition two : seq (pproc unit) := mkseq (fun p => test_multiplexing true 1 p [:: 1; 0]) 2.
Definition ops p k : seq action := flatten (nseq k [:: (p, LThread 0 KOp); (p, LJoin)]).

Example two_pass :
  (if run (ops 0 3 ++ ops 1 3 ++ ops 1 3 ++ ops 0 3) (init two) is Some c
   then (if procs c is [:: PRet (Ok tt); PRet (Ok tt)] then true else false) else false) = true.
Proof. by vm_compute. Qed.
(** a party cannot receive before the other one has sent *)
Example two_wait : (if run (ops 0 4) (init two) is Some c then true else false) = false.
Proof. by vm_compute. Qed.
(** a wrong expected value *)
Example two_wrong :
  (if run (ops 0 3 ++ ops 1 6 ++ ops 0 3) (init (mkseq (fun p => test_multiplexing true 2 p [:: 1; 0]) 2)) is Some c
   then (if procs c is [:: PRet Panic; PRet Panic] then true else false) else false) = true.
Proof. by vm_compute. Qed.

(** the identifier 256 is sent as 0 *)
Example low_byte : check_sums true 256 0 [:: (0, 256 %% 256)] = Panic.
Proof. by vm_compute. Qed.

Lemma rotate_perm p : p < 3 -> perm_eq [:: 2; 0; 1] (iota 0 3).
Proof. by []. Qed.
Example c72_ids_instance := @C72_ids 3 (fun _ => [:: 2; 0; 1]) rotate_perm.
Example c72_test_instance := @C72_test true 3 (fun _ => [:: 2; 0; 1]) isT rotate_perm.

(** among 257 parties the test passes only at the last one, among 258 nowhere *)
Example party_257 : ~~ [forall q : 'I_257, ((q : nat) != 0) ==> (q < 256)] /\
  [forall q : 'I_257, ((q : nat) != 256) ==> (q < 256)].
Proof.
split; first by rewrite negb_forall; apply/existsP; exists (inord 256); rewrite inordK.
apply/forallP => q; apply/implyP => H; rewrite ltn_neqAle H /=.
by have := ltn_ord q; rewrite ltnS.
Qed.
Lemma sum_small n : n <= 300 -> \sum_(i < n) i < 256 ^ 4.
Proof.
move=> H; apply: (@leq_ltn_trans (\sum_(i < n) 300)).
  by apply: leq_sum => i _; apply: ltnW; apply: leq_trans H.
rewrite sum_nat_const card_ord; apply: (@leq_ltn_trans (2 ^ 9 * 2 ^ 9)).
  by apply: leq_mul => //; exact: leq_trans H _.
by rewrite -expnD -[256]/(2 ^ 8) -expnM ltn_exp2l.
Qed.
Example c72_too_many_instance := @C72_too_many true 258 (fun _ => iota 0 258) (@sum_small 258 isT) (fun _ _ => perm_refl _).

Lemma id_ok : hash_ok id. Proof. by move=> s. Qed.
Lemma five : 0 < 5 <= 256 ^ 4. Proof. by rewrite -[256]/(2 ^ 8) -expnM; apply: (@leq_trans (2 ^ 3)); rewrite ?leq_exp2l. Qed.
Example c72_add_protocol_instance := @C72_add_protocol true 5 0 id five id_ok (fun _ => @sum_small 5 isT).
