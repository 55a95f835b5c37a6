(** Concrete cases for C15-C17. *)
From mathcomp Require Import all_ssreflect all_algebra.
From Verif Require Import Base ModelField ModelUtils ModelPss ModelGao Spec ExampleField.
From Verif Require Import PropertiesGao.
Set Implicit Arguments.
Unset Strict Implicit.
Unset Printing Implicit Defensive.
Import GRing.Theory.
Local Open Scope ring_scope.

(* the repository's own test: message (1,4), error added at position 1, n = 8, k = 4 *)
Definition ex_msg : seq F17 := [:: 1; 4%:R].
Definition ex_code : seq F17 :=
  set_nth 0 (fft (T := T17) (p_share pp2) ex_msg) 1
    ((fft (T := T17) (p_share pp2) ex_msg)`_1 + 1).
Example ex_C16 : [/\ (p_n pp2 < 2 ^ ff_two_adicity F17)%N, (size ex_msg <= 4 <= p_n pp2)%N,
  size ex_code = p_n pp2 &
  count (fun i => ex_code`_i != @ModelUtils.eval F17 ex_msg (share_pt pp2 i))%R
        (iota 0 (p_n pp2)) = 1%N].
Proof. by split; vm_compute. Qed.
Example ex_C16_result : get_ok [::] (decode_to_message pp2 ex_code 8 4) == ex_msg.
Proof. by vm_compute. Qed.

(* two errors *)
Definition ex_code2 : seq F17 := set_nth 0 ex_code 6 0.
Example ex_C16_two : get_ok [::] (decode_to_message pp2 ex_code2 8 4) == ex_msg.
Proof. by vm_compute. Qed.

(* the field's largest domain has 16 points: with l = 4 a single error panics *)
Definition pp4 := get_ok pp2 (pss_new F17 true 4).
Example ex_C16_smallest : p_n pp4 = (2 ^ ff_two_adicity F17)%N /\
  is_ok (decode_to_message pp4 (1 :: nseq 15 0) 16 8) = false.
Proof. by split; vm_compute. Qed.

(* the repository's own test of the Euclidean algorithm (stops immediately), and one that runs *)
Example ex_C15 : get_ok ([::], [::]) (@partial_xgcd F17 [:: 8%:R; 9%:R; 5%:R]
   [:: 5%:R; 3%:R; 10%:R] 16 10) == ([:: 5%:R; 3%:R; 10%:R], [:: 1]).
Proof. by vm_compute. Qed.
Example ex_C15_run : is_ok (@partial_xgcd F17 [:: 8%:R; 9%:R; 5%:R] [:: 5%:R; 3%:R; 10%:R] 1 1).
Proof. by vm_compute. Qed.
