(** Property theorems only; proofs are in UnitThm.v. *)
From mathcomp Require Import all_ssreflect all_algebra.
From mathcomp Require Import zify.
From Verif Require Import RingTac Base ModelField ModelUtils ModelPss ModelGao ModelPack ModelFft ModelNet.
From Verif Require Import ModelProto ModelDemo ModelUnit.
From Verif Require Import Spec SpecNet SpecProto.
From Verif Require Import NetProofs KingProofs RoundProofs.
From Verif Require Import FieldProofs UtilsProofs PssProofs PackProofs FftProofs ProtoProofs DegProofs PpProofs GaoProofs.
From Verif Require Import ExtProofs PssThm UtilsThm GaoThm ProtoThm DemoThm.
Set Implicit Arguments.
Unset Strict Implicit.
Unset Printing Implicit Defensive.
Import GRing.Theory.
Local Open Scope ring_scope.
Local Notation Fm F := [lmodType F of F^o].
From Verif Require Import UnitThm.

(** C71: [test_initialize] *)
Theorem C71_initialize (F : fftField) (dbg : bool) k : (k.+2 <= ff_two_adicity F)%N ->
  test_initialize F dbg (2 ^ k) = Ok tt.
Proof. exact: c71_initialize. Qed.
Print Assumptions C71_initialize.

(** C71: [test_packing] reconstructs from [n - t + 1 = 3l + 1] shares.  The debug assertion of
    [lagrange_unpack] wants more than [4l - 2], so the test only passes for [l <= 2] in debug builds. *)
Theorem C71_packing (F : fftField) (dbg : bool) k (secrets : seq F) (r : rng F) :
  (k.+2 <= ff_two_adicity F)%N -> size secrets = (2 ^ k)%N ->
  test_packing dbg (2 ^ k) secrets r = if dbg && (1 < k)%N then Panic else Ok tt.
Proof. exact: c71_packing. Qed.
Print Assumptions C71_packing.

(** C71: [test_det_packing] and, for any module, [pack_unpack_test] *)
Theorem C71_pack_unpack (F : fftField) (T : lmodType F) (dbg : bool) k (s : seq F) (s' : seq T) (r : rng T) :
  (k.+2 <= ff_two_adicity F)%N -> size s = (2 ^ k)%N -> size s' = (2 ^ k)%N ->
  test_det_packing dbg (2 ^ k) s = Ok tt /\ pack_unpack_test dbg (2 ^ k) s' r = Ok tt.
Proof. exact: c71_pack_unpack. Qed.
Print Assumptions C71_pack_unpack.

(** C71: [test_multiplication] *)
Theorem C71_multiplication (F : fftField) (dbg : bool) k (secrets : seq F) (r : rng F) :
  (k.+2 <= ff_two_adicity F)%N -> size secrets = (2 ^ k)%N ->
  test_multiplication dbg (2 ^ k) secrets r = Ok tt.
Proof. exact: c71_multiplication. Qed.
Print Assumptions C71_multiplication.

(** C71: [test_eval_interpolate] passes exactly if the last coefficient is not zero (otherwise the
    interpolation returns a shorter, or for the zero polynomial a longer, vector). *)
Theorem C71_eval_interpolate (F : fftField) (p : seq F) : (0 < size p)%N ->
  uniq [seq x%:R : F | x <- iota 1 (2 * size p)] -> 0 \notin [seq x%:R : F | x <- iota 1 (2 * size p)] ->
  test_eval_interpolate p = if last 0 p == 0 then Panic else Ok tt.
Proof. exact: c71_eval_interpolate. Qed.
Print Assumptions C71_eval_interpolate.

(** C71: [test_error_correction] for any message of at most [K] coefficients and at most
    [(n - K) / 2] errors, anywhere. *)
Theorem C71_error_correction (F : fftField) (dbg : bool) k (m : seq F) (errors : seq (nat * F)) K :
  (k.+2 < ff_two_adicity F)%N -> (size m <= K <= 4 * 2 ^ k)%N ->
  all (fun e => e.1 < 4 * 2 ^ k)%N errors -> (size errors <= (4 * 2 ^ k - K) %/ 2)%N ->
  test_error_correction dbg (2 ^ k) m errors (4 * 2 ^ k) K = Ok tt.
Proof. exact: c71_error_correction. Qed.
Print Assumptions C71_error_correction.

(** C71: [pack_unpack2_test] for any points and scalars, any number of chunks *)
Theorem C71_pack_unpack2 (F : fftField) (T : lmodType F) (dbg : bool) k m (gs : seq T) (fs : seq F)
    (rg : rng T) (rf : rng F) :
  (k.+2 <= ff_two_adicity F)%N -> (0 < m)%N -> size gs = (m * 2 ^ k)%N -> size fs = (m * 2 ^ k)%N ->
  pack_unpack2_test dbg (2 ^ k) gs fs rg rf = Ok tt.
Proof. exact: c71_pack_unpack2. Qed.
Print Assumptions C71_pack_unpack2.

