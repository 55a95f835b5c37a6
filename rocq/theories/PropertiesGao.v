(** Property theorems only; proofs are in GaoThm.v. *)
From mathcomp Require Import all_ssreflect all_algebra.
From mathcomp Require Import zify.
From Verif Require Import RingTac Base ModelField ModelUtils ModelPss ModelGao Spec.
From Verif Require Import FieldProofs UtilsProofs PssProofs GaoProofs ExampleField.
Set Implicit Arguments.
Unset Strict Implicit.
Unset Printing Implicit Defensive.
Import GRing.Theory.
Local Open Scope ring_scope.
From Verif Require Import GaoThm.

(** C15: the partial Euclidean algorithm terminates with a remainder below the stopping degree
    that is a combination r = u*a + s*b, for all polynomials the field can multiply. *)
Theorem C15_partial_xgcd (F : fftField) (a b : {poly F}) (codelength dimension : nat) :
  (0 < (dimension + codelength) %/ 2)%N ->
  (maxn (size a) (size b) <= 2 ^ ff_two_adicity F)%N ->
  exists r s : {poly F}, [/\
    partial_xgcd a b codelength dimension = Ok (polyseq r, polyseq s),
    ((size r).-1 < (dimension + codelength) %/ 2)%N &
    exists u, r = u * a + s * b].
Proof. exact: c15_partial_xgcd. Qed.
Print Assumptions C15_partial_xgcd.

(** C16: every message is recovered from every word within half the distance. *)
Theorem C16_decode (F : fftField) dbg j pp (m received : seq F) k :
  pss_new F dbg (2 ^ j) = Ok pp -> (p_n pp < 2 ^ ff_two_adicity F)%N ->
  (size m <= k <= p_n pp)%N -> size received = p_n pp ->
  (count (fun i => received`_i != (Poly m).[share_pt pp i])%R (iota 0 (p_n pp))
     <= (p_n pp - k) %/ 2)%N ->
  decode_to_message pp received (p_n pp) k = Ok (polyseq (Poly m)).
Proof. exact: c16_decode. Qed.
Print Assumptions C16_decode.

(** C16: the hypothesis on the field is needed: when the party domain is the largest two-power
    domain, every word with a correctable error makes the decoder panic. *)
Theorem C16_smallest_field (F : fftField) dbg j pp (m received : seq F) k :
  pss_new F dbg (2 ^ j) = Ok pp -> p_n pp = (2 ^ ff_two_adicity F)%N ->
  (size m <= k <= p_n pp)%N -> size received = p_n pp ->
  (0 < count (fun i => received`_i != (Poly m).[share_pt pp i])%R (iota 0 (p_n pp))
     <= (p_n pp - k) %/ 2)%N ->
  decode_to_message pp received (p_n pp) k = Panic.
Proof. exact: c16_smallest_field. Qed.
Print Assumptions C16_smallest_field.

(** C17: false: a word far from every message is "decoded" to a polynomial of too high degree. *)
Theorem C17_degree_refuted : exists (F : fftField) j pp (received : seq F) k h,
  [/\ pss_new F true (2 ^ j) = Ok pp, size received = p_n pp, (k <= p_n pp)%N,
      decode_to_message pp received (p_n pp) k = Ok h & (k < size h)%N].
Proof. exact: c17_degree_refuted. Qed.
Print Assumptions C17_degree_refuted.

(** C17: what holds: whatever is returned disagrees with the received word in at most
    n - (n+k)/2 positions, so a caller that checks the degree gets the transmitted message. *)
Theorem C17_sound (F : fftField) dbg j pp (received h : seq F) k :
  pss_new F dbg (2 ^ j) = Ok pp -> (p_n pp < 2 ^ ff_two_adicity F)%N ->
  (k <= p_n pp)%N -> size received = p_n pp ->
  decode_to_message pp received (p_n pp) k = Ok h ->
  (count (fun i => received`_i != (Poly h).[share_pt pp i])%R (iota 0 (p_n pp))
     <= p_n pp - (k + p_n pp) %/ 2)%N.
Proof. exact: c17_sound. Qed.
Print Assumptions C17_sound.

