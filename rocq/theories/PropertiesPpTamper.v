(** Property theorems only; proofs are in PpTamperThm.v. *)
From mathcomp Require Import all_ssreflect all_algebra.
From mathcomp Require Import zify.
From Verif Require Import RingTac Base ModelField ModelUtils ModelPss ModelPack ModelFft ModelNet.
From Verif Require Import ModelProto Spec SpecNet SpecProto SpecTamper SpecBytes NetProofs.
From Verif Require Import KingProofs KingFail.
From Verif Require Import RoundProofs NetThm FieldProofs UtilsProofs PssProofs PackProofs FftProofs.
From Verif Require Import ProtoProofs DegProofs TamperProofs PpProofs TamperPp PpBytes ProtoThm TamperThm.
Set Implicit Arguments.
Unset Strict Implicit.
Unset Printing Implicit Defensive.
Import GRing.Theory.
Local Open Scope ring_scope.
Local Notation Fm F := [lmodType F of F^o].
From Verif Require Import PpTamperThm.

(** C77: partial products of any vectors at all, if nobody crashes.  The king computes with what
    the vectors interpolate to; in debug builds this needs every entry to be balanced. *)
Theorem C77_d_pp (F : fftField) dbg lam pp (cF : codec F) mb m gen masks (xn xd : nat -> seq F)
    (num den : seq F) (r r' : rng F) :
  pss_new F dbg (2 ^ lam) = Ok pp -> codec_ok cF mb -> (0 < m)%N -> (2 * m < 256 ^ 8)%N ->
  degred_masks (T := Fm F) dbg pp gen m masks ->
  (forall p, (p < p_n pp)%N -> size (xn p) = m) -> (forall p, (p < p_n pp)%N -> size (xd p) = m) ->
  size num = (m * 2 ^ lam)%N -> size den = (m * 2 ^ lam)%N ->
  (forall e j, (e < m)%N -> (j < 2 ^ lam)%N ->
     blocks (T := Fm F) pp num e j = interpolated pp (T := Fm F) (entry (T := Fm F) xn e) j) ->
  (forall e j, (e < m)%N -> (j < 2 ^ lam)%N ->
     blocks (T := Fm F) pp den e j = interpolated pp (T := Fm F) (entry (T := Fm F) xd e) j) ->
  all (fun z => z != 0) den ->
  (dbg -> forall e, (e < m)%N -> imbalance pp (T := Fm F) (entry (T := Fm F) xn e) = 0) ->
  (dbg -> forall e, (e < m)%N -> imbalance pp (T := Fm F) (entry (T := Fm F) xd e) = 0) ->
  exists out : nat -> seq F,
    vsharing (T := Fm F) pp (2 * 2 ^ lam) m out
      (blocks (T := Fm F) pp (running_products num den)) /\
    yields (p_n pp) true (fun ords p =>
      d_pp dbg pp (p_n pp) p (ords 0%N) (ords 1%N) cF (xn p) (xd p) (masks p) r r') out.
Proof. exact: c77_d_pp. Qed.
Print Assumptions C77_d_pp.

(** C77: an unbalanced entry is noticed in debug builds ... *)
Theorem C77_d_pp_caught (F : fftField) lam pp (cF : codec F) mb m masks (xn xd : nat -> seq F)
    (r r' : rng F) sid ord ord' e :
  pss_new F true (2 ^ lam) = Ok pp -> codec_ok cF mb -> (0 < m)%N -> (2 * m < 256 ^ 8)%N ->
  (forall p, (p < p_n pp)%N -> size (xn p) = m) -> (forall p, (p < p_n pp)%N -> size (xd p) = m) ->
  hash_ok ord -> (e < m)%N ->
  (imbalance pp (T := Fm F) (entry (T := Fm F) xn e) != 0) ||
  (imbalance pp (T := Fm F) (entry (T := Fm F) xd e) != 0) ->
  king_dies (mkseq (fun p => pthread sid
    (d_pp true pp (p_n pp) p ord ord' cF (xn p) (xd p) (masks p) r r')) (p_n pp)).
Proof. exact: c77_d_pp_caught. Qed.
Print Assumptions C77_d_pp_caught.

(** C77: ... and in both builds an interpolated denominator that is zero stops the king. *)
Theorem C77_d_pp_zero (F : fftField) dbg lam pp (cF : codec F) mb m masks (xn xd : nat -> seq F)
    (r r' : rng F) sid ord ord' e j :
  pss_new F dbg (2 ^ lam) = Ok pp -> codec_ok cF mb -> (0 < m)%N -> (2 * m < 256 ^ 8)%N ->
  (forall p, (p < p_n pp)%N -> size (xn p) = m) -> (forall p, (p < p_n pp)%N -> size (xd p) = m) ->
  hash_ok ord -> (e < m)%N -> (j < 2 ^ lam)%N ->
  interpolated pp (T := Fm F) (entry (T := Fm F) xd e) j = 0 ->
  king_dies (mkseq (fun p => pthread sid
    (d_pp dbg pp (p_n pp) p ord ord' cF (xn p) (xd p) (masks p) r r')) (p_n pp)).
Proof. exact: c77_d_pp_zero. Qed.
Print Assumptions C77_d_pp_zero.

(** C77: so any single party can stop the king in either build, by sending vectors of the right
    length: whatever the shares are, there is a replacement of its denominators that does it. *)
Theorem C77_one_party_stops (F : fftField) dbg lam pp (cF : codec F) mb m masks (xn xd : nat -> seq F)
    (r r' : rng F) q :
  pss_new F dbg (2 ^ lam) = Ok pp -> codec_ok cF mb -> (0 < m)%N -> (2 * m < 256 ^ 8)%N ->
  (forall p, (p < p_n pp)%N -> size (xn p) = m) -> (forall p, (p < p_n pp)%N -> size (xd p) = m) ->
  ff_generator F ^+ p_n pp != 1 -> (q < p_n pp)%N ->
  exists2 v, size v = m & forall sid ord ord', hash_ok ord ->
    king_dies (mkseq (fun p => pthread sid
      (d_pp dbg pp (p_n pp) p ord ord' cF (xn p) (replaced xd q v p) (masks p) r r')) (p_n pp)).
Proof. exact: c77_one_party_stops. Qed.
Print Assumptions C77_one_party_stops.

(** C77: one party [q] replaces its numerators: in release builds nobody notices, and every
    product is computed from the wrong numerators [num'].  The first entry that is wrong has a
    wrong product in its first slot, unless a product before it is zero. *)
Theorem C77_one_party (F : fftField) lam pp (cF : codec F) mb m gen masks (xn xd : nat -> seq F)
    (num den : seq F) deg (r r' : rng F) q v :
  pss_new F false (2 ^ lam) = Ok pp -> codec_ok cF mb -> (0 < m)%N -> (2 * m < 256 ^ 8)%N ->
  (deg <= 4 * 2 ^ lam)%N -> degred_masks (T := Fm F) false pp gen m masks ->
  size num = (m * 2 ^ lam)%N -> size den = (m * 2 ^ lam)%N -> all (fun z => z != 0) den ->
  vsharing (T := Fm F) pp deg m xn (blocks (T := Fm F) pp num) ->
  vsharing (T := Fm F) pp deg m xd (blocks (T := Fm F) pp den) ->
  ff_generator F ^+ p_n pp != 1 -> (q < p_n pp)%N -> size v = m ->
  exists (out : nat -> seq F) num', [/\
    size num' = (m * 2 ^ lam)%N,
    forall e j, (e < m)%N -> (j < 2 ^ lam)%N ->
      num'`_(e * 2 ^ lam + j) = num`_(e * 2 ^ lam + j) + weight pp q j * (v`_e - (xn q)`_e),
    vsharing (T := Fm F) pp (2 * 2 ^ lam) m out
      (blocks (T := Fm F) pp (running_products num' den)),
    yields (p_n pp) true (fun ords p =>
      d_pp false pp (p_n pp) p (ords 0%N) (ords 1%N) cF (replaced xn q v p) (xd p) (masks p) r r') out &
    forall e, (e < m)%N -> v`_e != (xn q)`_e -> (forall e', (e' < e)%N -> v`_e' = (xn q)`_e') ->
      (forall i, (i < e * 2 ^ lam)%N -> num`_i != 0) ->
      (running_products num' den)`_(e * 2 ^ lam) != (running_products num den)`_(e * 2 ^ lam)].
Proof. exact: c77_one_party. Qed.
Print Assumptions C77_one_party.

(** C77: if one party [d] sends nothing, in release builds the king computes with what the others'
    vectors interpolate to, whatever they are, and nobody notices. *)
Theorem C77_d_pp_missing (F : fftField) lam pp (cF : codec F) mb m gen masks (xn xd : nat -> seq F)
    (num den : seq F) (r r' : rng F) d :
  pss_new F false (2 ^ lam) = Ok pp -> codec_ok cF mb -> (0 < m)%N -> (2 * m < 256 ^ 8)%N ->
  degred_masks (T := Fm F) false pp gen m masks ->
  (forall p, (p < p_n pp)%N -> size (xn p) = m) -> (forall p, (p < p_n pp)%N -> size (xd p) = m) ->
  (0 < d < p_n pp)%N ->
  size num = (m * 2 ^ lam)%N -> size den = (m * 2 ^ lam)%N ->
  (forall e j, (e < m)%N -> (j < 2 ^ lam)%N -> blocks (T := Fm F) pp num e j =
     interpolated_without pp (T := Fm F) d (entry (T := Fm F) xn e) j) ->
  (forall e j, (e < m)%N -> (j < 2 ^ lam)%N -> blocks (T := Fm F) pp den e j =
     interpolated_without pp (T := Fm F) d (entry (T := Fm F) xd e) j) ->
  all (fun z => z != 0) den ->
  exists out : nat -> seq F,
    vsharing (T := Fm F) pp (2 * 2 ^ lam) m out
      (blocks (T := Fm F) pp (running_products num den)) /\
    forall sid ord ord', hash_ok ord -> hash_ok ord' ->
      every_schedule (crashing (p_n pp) d 0 (fun=> 0%N) (fun p => pthread sid
        (d_pp false pp (p_n pp) p ord ord' cF (xn p) (xd p) (masks p) r r'))) (fun p => p != d) out.
Proof. exact: c77_d_pp_missing. Qed.
Print Assumptions C77_d_pp_missing.

(** C77: arbitrary bytes of the clients in the first round.  One message that does not decode: the
    king ends with an error; one that decodes to a vector shorter than the king's: the king panics. *)
Theorem C77_bytes_garbled (F : fftField) dbg lam pp (cF : codec F) mb m
    (masks : nat -> degred_mask (Fm F)) (xn xd : nat -> seq F) (r r' : rng F) w sid ord ord' p :
  pss_new F dbg (2 ^ lam) = Ok pp -> codec_ok cF mb ->
  (0 < m)%N -> (2 * m < 256 ^ 8)%N -> size (xn 0%N) = m -> size (xd 0%N) = m ->
  (0 < p < p_n pp)%N -> ModelNet.decode (vec_codec cF) (w p) = Err Generic ->
  king_fails (mkseq (fun p => pthread sid (sending w p
    (d_pp dbg pp (p_n pp) p ord ord' cF (xn p) (xd p) (masks p) r r'))) (p_n pp)) (Err Generic).
Proof. exact: c77_bytes_garbled. Qed.
Print Assumptions C77_bytes_garbled.

Theorem C77_bytes_short (F : fftField) dbg lam pp (cF : codec F) mb m
    (masks : nat -> degred_mask (Fm F)) (xn xd : nat -> seq F) (r r' : rng F) w y sid ord ord' p :
  pss_new F dbg (2 ^ lam) = Ok pp -> codec_ok cF mb ->
  (0 < m)%N -> (2 * m < 256 ^ 8)%N -> size (xn 0%N) = m -> size (xd 0%N) = m ->
  (forall p, (0 < p < p_n pp)%N -> ModelNet.decode (vec_codec cF) (w p) = Ok (y p)) ->
  (0 < p < p_n pp)%N -> (size (y p) < 2 * m)%N ->
  king_dies (mkseq (fun p => pthread sid (sending w p
    (d_pp dbg pp (p_n pp) p ord ord' cF (xn p) (xd p) (masks p) r r'))) (p_n pp)).
Proof. exact: c77_bytes_short. Qed.
Print Assumptions C77_bytes_short.

(** C77: otherwise the bytes do what the inputs do that are cut out of the decoded vectors: the
    first [m] elements are the numerators, the next [m] the denominators, and the rest is ignored. *)
Theorem C77_bytes (F : fftField) dbg lam pp (cF : codec F) mb m gen masks (xn xd : nat -> seq F)
    (num den : seq F) (r r' : rng F) w y :
  pss_new F dbg (2 ^ lam) = Ok pp -> codec_ok cF mb -> (0 < m)%N -> (2 * m < 256 ^ 8)%N ->
  degred_masks (T := Fm F) dbg pp gen m masks -> size (xn 0%N) = m -> size (xd 0%N) = m ->
  (forall p, (0 < p < p_n pp)%N -> ModelNet.decode (vec_codec cF) (w p) = Ok (y p)) ->
  (forall p, (0 < p < p_n pp)%N -> (2 * m <= size (y p))%N) ->
  let xn' p := if p == 0%N then xn 0%N else take m (y p) in
  let xd' p := if p == 0%N then xd 0%N else take m (drop m (y p)) in
  size num = (m * 2 ^ lam)%N -> size den = (m * 2 ^ lam)%N ->
  (forall e j, (e < m)%N -> (j < 2 ^ lam)%N ->
     blocks (T := Fm F) pp num e j = interpolated pp (T := Fm F) (entry (T := Fm F) xn' e) j) ->
  (forall e j, (e < m)%N -> (j < 2 ^ lam)%N ->
     blocks (T := Fm F) pp den e j = interpolated pp (T := Fm F) (entry (T := Fm F) xd' e) j) ->
  all (fun z => z != 0) den ->
  (dbg -> forall e, (e < m)%N -> imbalance pp (T := Fm F) (entry (T := Fm F) xn' e) = 0) ->
  (dbg -> forall e, (e < m)%N -> imbalance pp (T := Fm F) (entry (T := Fm F) xd' e) = 0) ->
  exists out : nat -> seq F,
    vsharing (T := Fm F) pp (2 * 2 ^ lam) m out
      (blocks (T := Fm F) pp (running_products num den)) /\
    yields (p_n pp) true (fun ords p => sending w p
      (d_pp dbg pp (p_n pp) p (ords 0%N) (ords 1%N) cF (xn p) (xd p) (masks p) r r')) out.
Proof. exact: c77_bytes. Qed.
Print Assumptions C77_bytes.

(** C77: unless a debug build notices an unbalanced entry, or a denominator is zero. *)
Theorem C77_bytes_caught (F : fftField) dbg lam pp (cF : codec F) mb m
    (masks : nat -> degred_mask (Fm F)) (xn xd : nat -> seq F) (r r' : rng F) w y sid ord ord' e :
  pss_new F dbg (2 ^ lam) = Ok pp -> codec_ok cF mb -> (0 < m)%N -> (2 * m < 256 ^ 8)%N ->
  size (xn 0%N) = m -> size (xd 0%N) = m ->
  (forall p, (0 < p < p_n pp)%N -> ModelNet.decode (vec_codec cF) (w p) = Ok (y p)) ->
  (forall p, (0 < p < p_n pp)%N -> (2 * m <= size (y p))%N) ->
  let xn' p := if p == 0%N then xn 0%N else take m (y p) in
  let xd' p := if p == 0%N then xd 0%N else take m (drop m (y p)) in
  (e < m)%N ->
  [\/ dbg /\ imbalance pp (T := Fm F) (entry (T := Fm F) xn' e) != 0,
      dbg /\ imbalance pp (T := Fm F) (entry (T := Fm F) xd' e) != 0 |
      exists2 j, (j < 2 ^ lam)%N & interpolated pp (T := Fm F) (entry (T := Fm F) xd' e) j = 0] ->
  king_dies (mkseq (fun p => pthread sid (sending w p
    (d_pp dbg pp (p_n pp) p ord ord' cF (xn p) (xd p) (masks p) r r'))) (p_n pp)).
Proof. exact: c77_bytes_caught. Qed.
Print Assumptions C77_bytes_caught.

