(** Specification vocabulary for the Groth16 layer. *)
From mathcomp Require Import all_ssreflect all_algebra.
From Verif Require Import Base ModelField ModelPss ModelNet ModelProve Spec SpecNet SpecProto.
Set Implicit Arguments.
Unset Strict Implicit.
Unset Printing Implicit Defensive.
Import GRing.Theory.
Local Open Scope ring_scope.

(** As [yields], for parties with several phases and streams. *)
Definition party_yields A (n : nat) (nobody : bool)
    (prog : (nat -> hash_order) -> nat -> pproc A) (out : nat -> A) : Prop :=
  forall ords d f ms, (forall i, hash_ok (ords i)) -> d != 0%N -> (nobody -> (n <= d)%N) ->
    every_schedule (crashing n d f ms (prog ords)) (fun p => p != d) out.

(** value of a linear combination *)
Definition row_value (F : fieldType) (row : seq (F * nat)) (z : seq F) : F :=
  \sum_(t <- row) t.1 * z`_t.2.

(** all indices of the row are below [k] *)
Definition row_below (F : fieldType) (k : nat) (row : seq (F * nat)) : bool :=
  all (fun t => t.2 < k)%N row.

(** [N] is the least power of two that is at least [x] *)
Definition least_pow2 (x N : nat) : Prop :=
  exists k, [/\ N = (2 ^ k)%N, (x <= N)%N & forall k', (x <= 2 ^ k')%N -> (k <= k')%N].

(** the polynomial [P] with fewer than [N] + 1 coefficients takes the values [v] on the powers of
    [w] *)
Definition interpolates (F : fieldType) (w : F) (N : nat) (v : seq F) (P : {poly F}) : Prop :=
  (size P <= N)%N /\ forall i, (i < N)%N -> P.[w ^+ i] = v`_i.

(** [out p] is the key share of party [p]; [pk] is the key that was packed *)
Definition packed_key (F : fftField) (T1 T2 : lmodType F) (pp : pss F) (pk : proving_key T1 T2)
    (out : nat -> key_share T1 T2) : Prop :=
  [/\ [/\ vsharing pp (2 * p_l pp) (div_ceil (size (drop 1 (a_query pk))) (p_l pp))
            (fun p => k_s (out p)) (blocks pp (drop 1 (a_query pk))),
          vsharing pp (2 * p_l pp) (div_ceil (size (drop 1 (b_g1_query pk))) (p_l pp))
            (fun p => k_h (out p)) (blocks pp (drop 1 (b_g1_query pk))) &
          vsharing pp (2 * p_l pp) (div_ceil (size (drop 1 (b_g2_query pk))) (p_l pp))
            (fun p => k_v (out p)) (blocks pp (drop 1 (b_g2_query pk)))],
      vsharing pp (2 * p_l pp) (div_ceil (size (h_query pk)) (p_l pp))
            (fun p => k_u (out p)) (blocks pp (h_query pk)),
      vsharing pp (2 * p_l pp) (div_ceil (size (l_query pk)) (p_l pp))
            (fun p => k_w (out p)) (blocks pp (l_query pk)),
      forall p, [/\ k_a_query0 (out p) = (a_query pk)`_0, k_b_g1_query0 (out p) = (b_g1_query pk)`_0 &
                    k_b_g2_query0 (out p) = (b_g2_query pk)`_0] &
      forall p, [/\ k_delta_g1 (out p) = pk_delta_g1 pk, k_delta_g2 (out p) = pk_delta_g2 pk,
                    k_alpha_g1 (out p) = pk_alpha_g1 pk, k_beta_g1 (out p) = pk_beta_g1 pk &
                    k_beta_g2 (out p) = pk_beta_g2 pk]].

(** the five vectors of the key that are shared *)
Definition shared_lengths (F : fftField) (T1 T2 : lmodType F) (pk : proving_key T1 T2) : seq nat :=
  [:: size (drop 1 (a_query pk)); size (h_query pk); size (l_query pk);
      size (drop 1 (b_g1_query pk)); size (drop 1 (b_g2_query pk))].
