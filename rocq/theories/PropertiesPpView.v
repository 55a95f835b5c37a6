(** Property theorems only; proofs are in PpViewThm.v. *)
From mathcomp Require Import all_ssreflect all_algebra.
From mathcomp Require Import zify.
From Verif Require Import RingTac Base ModelField ModelUtils ModelPss ModelPack ModelFft ModelNet.
From Verif Require Import ModelProto.
From Verif Require Import Spec SpecNet SpecView SpecProto.
From Verif Require Import NetProofs KingProofs RoundProofs LogProofs NetThm PartyProofs.
From Verif Require Import FieldProofs UtilsProofs PssProofs PackProofs FftProofs ProtoProofs DegProofs PpProofs.
From Verif Require Import PssThm ProtoThm MaskProofs HideThm ViewProofs ViewThm.
Set Implicit Arguments.
Unset Strict Implicit.
Unset Printing Implicit Defensive.
Import GRing.Theory.
Local Open Scope ring_scope.
Local Notation Fm F := [lmodType F of F^o].
From Verif Require Import PpViewThm.

(** C66: with fresh randomness of the king in both rounds, the results and received messages of at
    most [t] parties are distributed alike for any two vectors of numerators and denominators (none
    of them zero). *)
Theorem C66_d_pp (F : fftField) dbg lam pp (cF : codec F) mb m gen gen' masks masks'
    (xn xd xn' xd' : nat -> seq F) (num den num' den' : seq F) deg (P : seq nat) :
  pss_new F dbg (2 ^ lam) = Ok pp -> codec_ok cF mb -> (0 < m)%N -> (2 * m < 256 ^ 8)%N ->
  (deg <= 4 * 2 ^ lam - 1)%N -> ff_generator F ^+ p_n pp != 1 ->
  uniq P -> all (fun p => p < p_n pp)%N P -> (size P <= p_t pp)%N ->
  degred_masks (T := Fm F) dbg pp gen m masks -> degred_masks (T := Fm F) dbg pp gen' m masks' ->
  (forall p, p \in P -> masks p = masks' p) ->
  size num = (m * 2 ^ lam)%N -> size den = (m * 2 ^ lam)%N -> all (fun z => z != 0) den ->
  size num' = (m * 2 ^ lam)%N -> size den' = (m * 2 ^ lam)%N -> all (fun z => z != 0) den' ->
  vsharing (T := Fm F) pp deg m xn (blocks (T := Fm F) pp num) ->
  vsharing (T := Fm F) pp deg m xd (blocks (T := Fm F) pp den) ->
  vsharing (T := Fm F) pp deg m xn' (blocks (T := Fm F) pp num') ->
  vsharing (T := Fm F) pp deg m xd' (blocks (T := Fm F) pp den') ->
  exists delta delta' : rng F, forall r r', exists out out', [/\
    yields (p_n pp) dbg (fun ords p => clog (d_pp dbg pp (p_n pp) p (ords 0%N) (ords 1%N) cF
      (xn p) (xd p) (masks p) r r') [::]) out,
    yields (p_n pp) dbg (fun ords p => clog (d_pp dbg pp (p_n pp) p (ords 0%N) (ords 1%N) cF
      (xn' p) (xd' p) (masks' p) (fun i => r i + delta i) (fun i => r' i + delta' i)) [::]) out' &
    forall p, p \in P -> out' p = out p].
Proof. exact: c66_d_pp. Qed.
Print Assumptions C66_d_pp.

(** C66: the king's randomness of the first round is needed: if it is known, the messages of any [t]
    clients determine all running products, whatever the masks and the randomness of the second
    round. *)
Theorem C66_d_pp_known_randomness (F : fftField) dbg lam pp (cF : codec F) mb m gen gen' masks masks'
    (xn xd xn' xd' : nat -> seq F) (num den num' den' : seq F) deg (P : seq nat) (r s s' : rng F) :
  pss_new F dbg (2 ^ lam) = Ok pp -> codec_ok cF mb -> (0 < m)%N -> (2 * m < 256 ^ 8)%N ->
  (deg <= 4 * 2 ^ lam - 1)%N -> ff_generator F ^+ p_n pp != 1 ->
  uniq P -> all (fun p => 0 < p < p_n pp)%N P -> size P = p_t pp ->
  degred_masks (T := Fm F) dbg pp gen m masks -> degred_masks (T := Fm F) dbg pp gen' m masks' ->
  size num = (m * 2 ^ lam)%N -> size den = (m * 2 ^ lam)%N -> all (fun z => z != 0) den ->
  size num' = (m * 2 ^ lam)%N -> size den' = (m * 2 ^ lam)%N -> all (fun z => z != 0) den' ->
  vsharing (T := Fm F) pp deg m xn (blocks (T := Fm F) pp num) ->
  vsharing (T := Fm F) pp deg m xd (blocks (T := Fm F) pp den) ->
  vsharing (T := Fm F) pp deg m xn' (blocks (T := Fm F) pp num') ->
  vsharing (T := Fm F) pp deg m xd' (blocks (T := Fm F) pp den') ->
  exists out out', [/\
    yields (p_n pp) dbg (fun ords p => clog (d_pp dbg pp (p_n pp) p (ords 0%N) (ords 1%N) cF
      (xn p) (xd p) (masks p) r s) [::]) out,
    yields (p_n pp) dbg (fun ords p => clog (d_pp dbg pp (p_n pp) p (ords 0%N) (ords 1%N) cF
      (xn' p) (xd' p) (masks' p) r s') [::]) out' &
    (forall p, p \in P -> (out p).2 = (out' p).2) -> running_products num den = running_products num' den'].
Proof. exact: c66_d_pp_known_randomness. Qed.
Print Assumptions C66_d_pp_known_randomness.

