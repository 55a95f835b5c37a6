(** Property theorems only; proofs are in PackThm.v. *)
From mathcomp Require Import all_ssreflect all_algebra.
From mathcomp Require Import zify.
From Verif Require Import RingTac Base ModelField ModelUtils ModelPss ModelPack Spec.
From Verif Require Import FieldProofs UtilsProofs PssProofs PackProofs ExampleField.
Set Implicit Arguments.
Unset Strict Implicit.
Unset Printing Implicit Defensive.
Import GRing.Theory.
Local Open Scope ring_scope.
From Verif Require Import PackThm.

(** C18: indices are swapped, and transposing twice gives the matrix back. *)
Theorem C18_transpose (A : Type) (x0 : A) rows cols (m : seq (seq A)) :
  (0 < rows)%N -> (0 < cols)%N -> size m = rows ->
  (forall i, (i < rows)%N -> size (nth [::] m i) = cols) ->
  exists m', [/\ transpose m = Ok m', size m' = cols,
    (forall c, (c < cols)%N -> size (nth [::] m' c) = rows),
    (forall r c, (r < rows)%N -> (c < cols)%N ->
       nth x0 (nth [::] m' c) r = nth x0 (nth [::] m r) c) &
    transpose m' = Ok m].
Proof. exact: c18_transpose. Qed.
Print Assumptions C18_transpose.

(** C18: it panics on an empty matrix, an empty first row, or a row shorter than the first. *)
Theorem C18_transpose_panic (A : Type) (m : seq (seq A)) :
  m = [::] \/ head [::] m = [::] \/
  (exists2 i, (i < size m)%N & (size (nth [::] m i) < size (head [::] m))%N) ->
  transpose m = Panic.
Proof. exact: c18_transpose_panic. Qed.
Print Assumptions C18_transpose_panic.

(** C19: after [transpose (pack_vec secrets)] party i holds share i of every chunk in order:
    unpacking column c gives chunk c, and concatenating the chunks gives the vector. *)
Theorem C19_pack_vec_layout (F : fftField) (T : lmodType F) dbg k pp (secrets : seq T) (r : rng T) m :
  pss_new F dbg (2 ^ k) = Ok pp -> (0 < m)%N -> size secrets = (m * p_l pp)%N ->
  exists by_chunk by_party, [/\
    pack_vec dbg pp secrets r = Ok by_chunk, transpose by_chunk = Ok by_party,
    size by_party = p_n pp /\ (forall i, (i < p_n pp)%N -> size (nth [::] by_party i) = m),
    (forall c, (c < m)%N -> sharing pp (p_l pp + p_t pp)
       (mkseq (fun i => (nth [::] by_party i)`_c) (p_n pp))
       (take (p_l pp) (drop (c * p_l pp) secrets))) &
    flatten (mkseq (fun c => unpack pp (mkseq (fun i => (nth [::] by_party i)`_c) (p_n pp))) m)
      = secrets].
Proof. exact: c19_pack_vec_layout. Qed.
Print Assumptions C19_pack_vec_layout.

(** C19: debug builds panic when the length is not a multiple of l. *)
Theorem C19_pack_vec_debug (F : fftField) (T : lmodType F) pp (secrets : seq T) (r : rng T) :
  ~~ (p_l pp %| size secrets)%N -> pack_vec true pp secrets r = Panic.
Proof. exact: c19_pack_vec_debug. Qed.
Print Assumptions C19_pack_vec_debug.

(** C19: in release builds the last, short chunk is completed by random values: unpacking the last
    column returns the remaining secrets followed by the first values the generator delivered. *)
Theorem C19_pack_vec_release (F : fftField) (T : lmodType F) k pp (secrets : seq T) (r : rng T) m q :
  pss_new F false (2 ^ k) = Ok pp -> size secrets = (m * p_l pp + q)%N -> (0 < q < p_l pp)%N ->
  exists2 by_chunk, pack_vec false pp secrets r = Ok by_chunk &
    size by_chunk = m.+1 /\
    unpack pp (nth [::] by_chunk m) =
      drop (m * p_l pp) secrets ++ mkseq (fun i => r (m * p_t pp + i)%N) (p_l pp - q).
Proof. exact: c19_pack_vec_release. Qed.
Print Assumptions C19_pack_vec_release.

