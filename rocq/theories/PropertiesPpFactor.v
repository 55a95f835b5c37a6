(** Property theorems only; proofs are in PpFactorThm.v. *)
From mathcomp Require Import all_ssreflect all_algebra.
From mathcomp Require Import zify.
From Verif Require Import RingTac Base ModelField ModelUtils ModelPss ModelPack ModelFft ModelNet.
From Verif Require Import ModelProto.
From Verif Require Import Spec SpecNet SpecProto.
From Verif Require Import NetProofs KingProofs RoundProofs.
From Verif Require Import FieldProofs UtilsProofs PssProofs PackProofs FftProofs ProtoProofs DegProofs PpProofs.
From Verif Require Import PssThm ProtoThm HideThm.
Set Implicit Arguments.
Unset Strict Implicit.
Unset Printing Implicit Defensive.
Import GRing.Theory.
Local Open Scope ring_scope.
Local Notation Fm F := [lmodType F of F^o].
From Verif Require Import PpFactorThm.

(** C70: with any factor but zero the parties end with sharings of the running products times its
    inverse: the factor has cancelled in the quotients, and is then divided out once more. *)
Theorem C70_factor (F : fftField) dbg lam pp (cF : codec F) mb m gen masks (s : F)
    (xn xd : nat -> seq F) (num den : seq F) deg (r r' : rng F) :
  pss_new F dbg (2 ^ lam) = Ok pp -> codec_ok cF mb -> (0 < m)%N -> (2 * m < 256 ^ 8)%N ->
  (deg <= 4 * 2 ^ lam - 1)%N -> degred_masks (T := Fm F) dbg pp gen m masks ->
  size num = (m * 2 ^ lam)%N -> size den = (m * 2 ^ lam)%N -> all (fun z => z != 0) den ->
  vsharing (T := Fm F) pp deg m xn (blocks (T := Fm F) pp num) ->
  vsharing (T := Fm F) pp deg m xd (blocks (T := Fm F) pp den) -> s != 0 ->
  exists out : nat -> seq F,
    vsharing (T := Fm F) pp (2 * 2 ^ lam) m out
      (blocks (T := Fm F) pp [seq u / s | u <- running_products num den]) /\
    yields (p_n pp) dbg (fun ords p =>
      d_pp_with s dbg pp (p_n pp) p (ords 0%N) (ords 1%N) cF (xn p) (xd p) (masks p) r r') out.
Proof. exact: c70_factor. Qed.
Print Assumptions C70_factor.

(** C70: with any other factor than 1, nobody can mistake the result for the running products. *)
Theorem C70_only_one (F : fftField) dbg lam pp (cF : codec F) mb m gen masks (s : F)
    (xn xd : nat -> seq F) (num den : seq F) deg (r r' : rng F) :
  pss_new F dbg (2 ^ lam) = Ok pp -> codec_ok cF mb -> (0 < m)%N -> (2 * m < 256 ^ 8)%N ->
  (deg <= 4 * 2 ^ lam - 1)%N -> degred_masks (T := Fm F) dbg pp gen m masks ->
  size num = (m * 2 ^ lam)%N -> size den = (m * 2 ^ lam)%N -> all (fun z => z != 0) den ->
  vsharing (T := Fm F) pp deg m xn (blocks (T := Fm F) pp num) ->
  vsharing (T := Fm F) pp deg m xd (blocks (T := Fm F) pp den) -> s != 0 -> s != 1 -> num`_0 != 0 ->
  ~ (exists out : nat -> seq F,
    vsharing (T := Fm F) pp (2 * 2 ^ lam) m out (blocks (T := Fm F) pp (running_products num den)) /\
    yields (p_n pp) dbg (fun ords p =>
      d_pp_with s dbg pp (p_n pp) p (ords 0%N) (ords 1%N) cF (xn p) (xd p) (masks p) r r') out).
Proof. exact: c70_only_one. Qed.
Print Assumptions C70_only_one.

(** C70: and the messages which the king receives still determine all the quotients, and so the
    running products, whatever the factors were. *)
Theorem C70_king_sees (F : fftField) dbg lam pp (cF : codec F) mb m ord ord' masks masks' (s s' : F)
    (xn xd xn' xd' : nat -> seq F) (num den num' den' : seq F) deg (r1 r2 r1' r2' : rng F) :
  pss_new F dbg (2 ^ lam) = Ok pp -> codec_ok cF mb -> (0 < m)%N -> (2 * m < 256 ^ 8)%N ->
  (deg <= 4 * 2 ^ lam - 1)%N ->
  size num = (m * 2 ^ lam)%N -> size den = (m * 2 ^ lam)%N ->
  size num' = (m * 2 ^ lam)%N -> size den' = (m * 2 ^ lam)%N ->
  vsharing (T := Fm F) pp deg m xn (blocks (T := Fm F) pp num) ->
  vsharing (T := Fm F) pp deg m xd (blocks (T := Fm F) pp den) ->
  vsharing (T := Fm F) pp deg m xn' (blocks (T := Fm F) pp num') ->
  vsharing (T := Fm F) pp deg m xd' (blocks (T := Fm F) pp den') -> s != 0 -> s' != 0 ->
  (forall p, (0 < p < p_n pp)%N -> exists msg,
     first_message (d_pp_with s dbg pp (p_n pp) p ord ord' cF (xn p) (xd p) (masks p) r1 r2) msg /\
     first_message (d_pp_with s' dbg pp (p_n pp) p ord ord' cF (xn' p) (xd' p) (masks' p) r1' r2') msg) ->
  (forall i, num`_i / den`_i = num'`_i / den'`_i) /\
  running_products num den = running_products num' den'.
Proof. exact: c70_king_sees. Qed.
Print Assumptions C70_king_sees.

