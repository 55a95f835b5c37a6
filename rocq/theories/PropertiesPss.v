(** Property theorems only; proofs are in PssThm.v. *)
From mathcomp Require Import all_ssreflect all_algebra.
From mathcomp Require Import zify.
From Verif Require Import RingTac Base ModelField ModelUtils ModelPss Spec.
From Verif Require Import FieldProofs UtilsProofs PssProofs ExampleField.
Set Implicit Arguments.
Unset Strict Implicit.
Unset Printing Implicit Defensive.
Import GRing.Theory.
Local Open Scope ring_scope.
From Verif Require Import PssThm.

(** C01: packing then unpacking returns the secrets; one share per party. *)
Theorem C01_pack_unpack (F : fftField) (T : lmodType F) dbg k pp (secrets : seq T) (r : rng T) :
  pss_new F dbg (2 ^ k) = Ok pp -> size secrets = (2 ^ k)%N ->
  exists shares, [/\ pack dbg pp secrets r = Ok shares, size shares = (4 * 2 ^ k)%N,
     p_n pp = (4 * 2 ^ k)%N & unpack pp shares = secrets].
Proof. exact: c01_pack_unpack. Qed.
Print Assumptions C01_pack_unpack.

(** C01: the shares are those of a polynomial with at most l+t coefficients. *)
Theorem C01_pack_is_shamir (F : fftField) (T : lmodType F) dbg k pp (secrets : seq T) (r : rng T) :
  pss_new F dbg (2 ^ k) = Ok pp -> size secrets = p_l pp ->
  exists2 shares, pack dbg pp secrets r = Ok shares &
    sharing pp (p_l pp + p_t pp) shares secrets.
Proof. exact: c01_pack_is_shamir. Qed.
Print Assumptions C01_pack_is_shamir.

(** C02: more than 2(t+l-1) shares of distinct parties reconstruct, in any order. *)
Theorem C02_lagrange_unpack (F : fftField) (T : lmodType F) dbg k pp (secrets : seq T) (r : rng T)
    shares (parties : seq nat) :
  pss_new F dbg (2 ^ k) = Ok pp -> size secrets = p_l pp ->
  pack dbg pp secrets r = Ok shares ->
  uniq parties -> all (fun q => q < p_n pp)%N parties ->
  (2 * (p_t pp + p_l pp - 1) < size parties)%N ->
  lagrange_unpack dbg pp [seq shares`_q | q <- parties] parties = Ok secrets.
Proof. exact: c02_lagrange_unpack. Qed.
Print Assumptions C02_lagrange_unpack.

(** C02: in release builds any l+t shares of a fresh packing suffice. *)
Theorem C02_lagrange_unpack_release (F : fftField) (T : lmodType F) k pp (secrets : seq T)
    (r : rng T) shares (parties : seq nat) :
  pss_new F false (2 ^ k) = Ok pp -> size secrets = p_l pp ->
  pack false pp secrets r = Ok shares ->
  uniq parties -> all (fun q => q < p_n pp)%N parties ->
  (p_l pp + p_t pp <= size parties)%N ->
  lagrange_unpack false pp [seq shares`_q | q <- parties] parties = Ok secrets.
Proof. exact: c02_lagrange_unpack_release. Qed.
Print Assumptions C02_lagrange_unpack_release.

(** C02: [unpack_missing_shares] with some shares missing, in any order. *)
Theorem C02_missing_some (F : fftField) (T : lmodType F) dbg k pp (secrets : seq T) (r : rng T)
    shares (parties : seq nat) :
  pss_new F dbg (2 ^ k) = Ok pp -> size secrets = p_l pp ->
  pack dbg pp secrets r = Ok shares ->
  uniq parties -> all (fun q => q < p_n pp)%N parties ->
  (2 * (p_t pp + p_l pp - 1) < size parties < p_n pp)%N ->
  unpack_missing_shares dbg pp [seq shares`_q | q <- parties] parties = Ok secrets.
Proof. exact: c02_missing_some. Qed.
Print Assumptions C02_missing_some.

(** C02: [unpack_missing_shares] with all shares in party order. *)
Theorem C02_missing_none (F : fftField) (T : lmodType F) dbg k pp (secrets : seq T) (r : rng T)
    shares :
  pss_new F dbg (2 ^ k) = Ok pp -> size secrets = p_l pp ->
  pack dbg pp secrets r = Ok shares ->
  unpack_missing_shares dbg pp shares (iota 0 (p_n pp)) = Ok secrets.
Proof. exact: c02_missing_none. Qed.
Print Assumptions C02_missing_none.

(** C02: the claim "in any order" does not extend to the full set: with all n shares in another
    order than party order the party ids are ignored. *)
Theorem C02_full_set_permuted_refuted : exists (F : fftField) (T : lmodType F) k pp
    (secrets : seq T) (r : rng T) shares (parties : seq nat),
  [/\ pss_new F false (2 ^ k) = Ok pp, pack false pp secrets r = Ok shares,
      perm_eq parties (iota 0 (p_n pp)) &
      unpack_missing_shares false pp [seq shares`_q | q <- parties] parties <> Ok secrets].
Proof. exact: c02_full_set_permuted_refuted. Qed.
Print Assumptions C02_full_set_permuted_refuted.

(** C03: deterministic packing, release builds: missing secrets are zeros. *)
Theorem C03_det_pack_release (F : fftField) (T : lmodType F) k pp (secrets : seq T) :
  pss_new F false (2 ^ k) = Ok pp -> (size secrets <= p_l pp)%N ->
  exists shares, [/\ det_pack false pp secrets = Ok shares, size shares = p_n pp,
    unpack pp shares = secrets ++ nseq (p_l pp - size secrets) 0 &
    pack false pp (secrets ++ nseq (p_l pp - size secrets) 0) (fun=> 0) = Ok shares].
Proof. exact: c03_det_pack_release. Qed.
Print Assumptions C03_det_pack_release.

(** C03: with exactly l secrets debug and release builds agree. *)
Theorem C03_det_pack (F : fftField) (T : lmodType F) dbg k pp (secrets : seq T) :
  pss_new F dbg (2 ^ k) = Ok pp -> size secrets = p_l pp ->
  exists shares, [/\ det_pack dbg pp secrets = Ok shares, size shares = p_n pp &
    unpack pp shares = secrets].
Proof. exact: c03_det_pack. Qed.
Print Assumptions C03_det_pack.

(** C03: debug builds reject any other number of secrets. *)
Theorem C03_det_pack_debug (F : fftField) (T : lmodType F) pp (secrets : seq T) :
  size secrets != p_l pp -> det_pack true pp secrets = Panic.
Proof. exact: c03_det_pack_debug. Qed.
Print Assumptions C03_det_pack_debug.

(** C04: share-wise products reconstruct to the slot-wise products, from all shares. *)
Theorem C04_product_unpack2 (F : fftField) (T : lmodType F) dbg k pp (a : seq F^o) (b : seq T)
    (ra : rng F^o) (rb : rng T) sa sb :
  pss_new F dbg (2 ^ k) = Ok pp -> size a = p_l pp -> size b = p_l pp ->
  pack dbg pp a ra = Ok sa -> pack dbg pp b rb = Ok sb ->
  let prod := zipmap (fun x y => x *: y) sa sb in
  unpack2 dbg pp prod = Ok (zipmap (fun x y => x *: y) a b) /\
  unpack_missing_shares dbg pp prod (iota 0 (p_n pp)) = Ok (zipmap (fun x y => x *: y) a b).
Proof. exact: c04_product_unpack2. Qed.
Print Assumptions C04_product_unpack2.

(** C04: ... and from all but one party's products, in any order. *)
Theorem C04_product_one_missing (F : fftField) (T : lmodType F) dbg k pp (a : seq F^o) (b : seq T)
    (ra : rng F^o) (rb : rng T) sa sb (parties : seq nat) :
  pss_new F dbg (2 ^ k) = Ok pp -> size a = p_l pp -> size b = p_l pp ->
  pack dbg pp a ra = Ok sa -> pack dbg pp b rb = Ok sb ->
  uniq parties -> all (fun q => q < p_n pp)%N parties -> (p_n pp).-1 = size parties ->
  let prod := zipmap (fun x y => x *: y) sa sb in
  unpack_missing_shares dbg pp [seq prod`_q | q <- parties] parties =
  Ok (zipmap (fun x y => x *: y) a b).
Proof. exact: c04_product_one_missing. Qed.
Print Assumptions C04_product_one_missing.

(** C05: sharing is linear. *)
Theorem C05_linear (F : fftField) (T : lmodType F) dbg k pp (a b : seq T) (ra rb : rng T) sa sb
    (x : F) :
  pss_new F dbg (2 ^ k) = Ok pp -> size a = p_l pp -> size b = p_l pp ->
  pack dbg pp a ra = Ok sa -> pack dbg pp b rb = Ok sb ->
  [/\ unpack pp (zipmap (fun x y => x + y) sa sb) = zipmap (fun x y => x + y) a b,
      unpack pp (zipmap (fun x y => x - y) sa sb) = zipmap (fun x y => x - y) a b &
      unpack pp [seq x *: y | y <- sa] = [seq x *: y | y <- a]].
Proof. exact: c05_linear. Qed.
Print Assumptions C05_linear.

(** C06: any t parties: every view arises from exactly one choice of the random points. *)
Theorem C06_views_uniform (F : fftField) (T : lmodType F) dbg k pp (P : seq nat)
    (secrets targets : seq T) :
  pss_new F dbg (2 ^ k) = Ok pp -> ff_generator F ^+ p_n pp != 1 ->
  uniq P -> all (fun q => q < p_n pp)%N P -> size P = p_t pp ->
  size secrets = p_l pp -> size targets = p_t pp ->
  exists! rands : seq T, size rands = p_t pp /\
    exists2 shares, pack_pts dbg pp secrets rands = Ok shares &
                    [seq shares`_q | q <- P] = targets.
Proof. exact: c06_views_uniform. Qed.
Print Assumptions C06_views_uniform.

(** C06: at most t parties: for any two secret vectors there is a bijection (a translation) of
    the randomness under which their views coincide. *)
Theorem C06_views_independent (F : fftField) (T : lmodType F) dbg k pp (P : seq nat)
    (secrets secrets' : seq T) :
  pss_new F dbg (2 ^ k) = Ok pp -> ff_generator F ^+ p_n pp != 1 ->
  uniq P -> all (fun q => q < p_n pp)%N P -> (size P <= p_t pp)%N ->
  size secrets = p_l pp -> size secrets' = p_l pp ->
  exists delta : seq T, size delta = p_t pp /\
    forall rands shares, size rands = p_t pp -> pack_pts dbg pp secrets rands = Ok shares ->
    exists2 shares', pack_pts dbg pp secrets' (zipmap (fun x y => x + y) rands delta) = Ok shares' &
                     [seq shares'`_q | q <- P] = [seq shares`_q | q <- P].
Proof. exact: c06_views_independent. Qed.
Print Assumptions C06_views_independent.

(** C07: successful parameter construction for powers of two. *)
Theorem C07_new (F : fftField) dbg k : (k.+2 <= ff_two_adicity F)%N ->
  exists pp, [/\ pss_new F dbg (2 ^ k) = Ok pp,
    [/\ p_l pp = 2 ^ k, p_t pp = 2 ^ k & p_n pp = 4 * 2 ^ k]%N,
    [/\ size (elements (p_share pp)) = 4 * 2 ^ k, size (elements (p_secret pp)) = 2 * 2 ^ k &
        size (elements (p_secret2 pp)) = 4 * 2 ^ k]%N,
    [/\ uniq (elements (p_share pp)), uniq (elements (p_secret pp)) &
        (forall j, element (p_secret pp) j = element (p_secret2 pp) (2 * j))] &
    ff_generator F ^+ (4 * 2 ^ k) != 1 ->
      ~~ has (mem (elements (p_share pp))) (elements (p_secret pp))].
Proof. exact: c07_new. Qed.
Print Assumptions C07_new.

(** C07: the constructor panics if the field's two-adicity is too small. *)
Theorem C07_small_field (F : fftField) dbg l : (ff_two_adicity F < up_log 2 (4 * l))%N ->
  pss_new F dbg l = Panic.
Proof. exact: c07_small_field. Qed.
Print Assumptions C07_small_field.

(** C08: false of release builds: l = 3 is accepted but the twelve parties' shares do not
    determine the secrets by [unpack] nor [unpack_missing_shares]. *)
Theorem C08_non_power_of_two_refuted : exists (F : fftField) (T : lmodType F) l pp
    (secrets : seq T) (r : rng T) shares,
  [/\ pss_new F false l = Ok pp, size secrets = l, pack false pp secrets r = Ok shares,
      unpack pp (take (p_n pp) shares) <> secrets &
      unpack_missing_shares false pp (take (p_n pp) shares) (iota 0 (p_n pp)) <> Ok secrets].
Proof. exact: c08_non_power_of_two_refuted. Qed.
Print Assumptions C08_non_power_of_two_refuted.

(** C08: debug builds accept only powers of two. *)
Theorem C08_debug_rejects (F : fftField) l pp :
  pss_new F true l = Ok pp -> exists k, l = (2 ^ k)%N.
Proof. exact: c08_debug_rejects. Qed.
Print Assumptions C08_debug_rejects.

(** C09: false of release builds: with too few shares a wrong value is returned. *)
Theorem C09_too_few_shares_refuted : exists (F : fftField) (T : lmodType F) k pp
    (a : seq T) (ra : rng T) sa (parties : seq nat) out,
  [/\ pss_new F false (2 ^ k) = Ok pp, size a = p_l pp, pack false pp a ra = Ok sa,
      [/\ uniq parties, all (fun q => q < p_n pp)%N parties,
          (p_t pp <= size parties)%N & (size parties <= 2 * (p_t pp + p_l pp - 1))%N] &
      unpack_missing_shares false pp [seq sa`_q | q <- parties] parties = Ok out /\ out <> a].
Proof. exact: c09_too_few_shares_refuted. Qed.
Print Assumptions C09_too_few_shares_refuted.

(** C09: what holds: debug builds reject too few shares. *)
Theorem C09_debug_rejects (F : fftField) (T : lmodType F) pp (shares : seq T) (parties : seq nat) :
  (size parties <= 2 * (p_t pp + p_l pp - 1))%N ->
  lagrange_unpack true pp shares parties = Panic.
Proof. exact: c09_debug_rejects. Qed.
Print Assumptions C09_debug_rejects.

(** C10: passing n copies of r to [pack] (sha256.rs) gives every party r itself in release
    builds and panics in debug builds. *)
Theorem C10_overlong_leaks (F : fftField) (T : lmodType F) k pp (x : T) (r : rng T) :
  pss_new F false (2 ^ k) = Ok pp ->
  pack false pp (nseq (p_n pp) x) r = Ok (nseq (p_n pp) x) /\
  pack true pp (nseq (p_n pp) x) r = Panic.
Proof. exact: c10_overlong_leaks. Qed.
Print Assumptions C10_overlong_leaks.

(** C10: hence the claim is false: a single party's share determines r. *)
Theorem C10_hiding_refuted : exists (F : fftField) (T : lmodType F) k pp (x y : T),
  [/\ pss_new F false (2 ^ k) = Ok pp, ff_generator F ^+ p_n pp != 1, (1 <= p_t pp)%N &
   forall (rx ry : rng T) (q : nat) sx sy, (q < p_n pp)%N ->
     pack false pp (nseq (p_n pp) x) rx = Ok sx -> pack false pp (nseq (p_n pp) y) ry = Ok sy ->
     sx`_q <> sy`_q].
Proof. exact: c10_hiding_refuted. Qed.
Print Assumptions C10_hiding_refuted.

