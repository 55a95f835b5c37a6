(** Statements about Gao decoding (C15-C17). *)
From mathcomp Require Import all_ssreflect all_algebra.
From mathcomp Require Import zify.
From Verif Require Import RingTac Base ModelField ModelUtils ModelPss ModelGao Spec.
From Verif Require Import FieldProofs UtilsProofs PssProofs GaoProofs ExampleField.
Set Implicit Arguments.
Unset Strict Implicit.
Unset Printing Implicit Defensive.
Import GRing.Theory.
Local Open Scope ring_scope.

(*** theorems ***)

(** C15: the partial Euclidean algorithm terminates with a remainder below the stopping degree
    that is a combination r = u*a + s*b, for all polynomials the field can multiply. *)
Lemma c15_partial_xgcd (F : fftField) (a b : {poly F}) (codelength dimension : nat) :
  (0 < (dimension + codelength) %/ 2)%N ->
  (maxn (size a) (size b) <= 2 ^ ff_two_adicity F)%N ->
  exists r s : {poly F}, [/\
    partial_xgcd a b codelength dimension = Ok (polyseq r, polyseq s),
    ((size r).-1 < (dimension + codelength) %/ 2)%N &
    exists u, r = u * a + s * b].
Proof. by move=> H1 H2; have [r [s [E D U]]] := partial_xgcdP H1 H2; exists r, s. Qed.

(** C16: every message is recovered from every word within half the distance. *)
Lemma c16_decode (F : fftField) dbg j pp (m received : seq F) k :
  pss_new F dbg (2 ^ j) = Ok pp -> (p_n pp < 2 ^ ff_two_adicity F)%N ->
  (size m <= k <= p_n pp)%N -> size received = p_n pp ->
  (count (fun i => received`_i != (Poly m).[share_pt pp i])%R (iota 0 (p_n pp))
     <= (p_n pp - k) %/ 2)%N ->
  decode_to_message pp received (p_n pp) k = Ok (polyseq (Poly m)).
Proof. by move=> /pss_new_ok ok lt_n /andP[le_m le_k]; apply: decode_correct. Qed.

(** C16: the hypothesis on the field is needed: when the party domain is the largest two-power
    domain, every word with a correctable error makes the decoder panic. *)
Lemma c16_smallest_field (F : fftField) dbg j pp (m received : seq F) k :
  pss_new F dbg (2 ^ j) = Ok pp -> p_n pp = (2 ^ ff_two_adicity F)%N ->
  (size m <= k <= p_n pp)%N -> size received = p_n pp ->
  (0 < count (fun i => received`_i != (Poly m).[share_pt pp i])%R (iota 0 (p_n pp))
     <= (p_n pp - k) %/ 2)%N ->
  decode_to_message pp received (p_n pp) k = Panic.
Proof. by move=> /pss_new_ok ok En /andP[le_m le_k]; apply: decode_no_room. Qed.

(** C17: false: a word far from every message is "decoded" to a polynomial of too high degree. *)
Lemma c17_degree_refuted : exists (F : fftField) j pp (received : seq F) k h,
  [/\ pss_new F true (2 ^ j) = Ok pp, size received = p_n pp, (k <= p_n pp)%N,
      decode_to_message pp received (p_n pp) k = Ok h & (k < size h)%N].
Proof.
pose rcv : seq F17 := mkseq (fun i => share_pt pp2 i ^+ 5) 8.
exists F17, 1%N, pp2, rcv, 4%N, (get_ok [::] (decode_to_message pp2 rcv 8 4)); split.
- exact: pp2_new.
- by vm_compute.
- by vm_compute.
- by apply: get_okP; vm_compute.
- by vm_compute.
Qed.

(** C17: what holds: whatever is returned disagrees with the received word in at most
    n - (n+k)/2 positions, so a caller that checks the degree gets the transmitted message. *)
Lemma c17_sound (F : fftField) dbg j pp (received h : seq F) k :
  pss_new F dbg (2 ^ j) = Ok pp -> (p_n pp < 2 ^ ff_two_adicity F)%N ->
  (k <= p_n pp)%N -> size received = p_n pp ->
  decode_to_message pp received (p_n pp) k = Ok h ->
  (count (fun i => received`_i != (Poly h).[share_pt pp i])%R (iota 0 (p_n pp))
     <= p_n pp - (k + p_n pp) %/ 2)%N.
Proof. by move=> /pss_new_ok ok; move=> *; apply: decode_sound. Qed.
