(** secret-sharing/src/pss.rs: packed secret sharing. [dbg] is true in builds with debug
    assertions. *)
From mathcomp Require Import all_ssreflect all_algebra.
From Verif Require Import Base ModelField ModelUtils.
Set Implicit Arguments.
Unset Strict Implicit.
Unset Printing Implicit Defensive.
Import GRing.Theory.
Local Open Scope ring_scope.

(** pss.rs:19-35 [PackedSharingParams] *)
Record pss (F : fftField) := Pss {
  p_t : nat;
  p_l : nat;
  p_n : nat;
  p_share : domain F;
  p_secret : domain F;
  p_secret2 : domain F
}.

Section Pss.
Variable F : fftField.

(** pss.rs:39-66 [new] *)
Definition pss_new (dbg : bool) (l : nat) : res (pss F) :=
  let n := (l * 4)%N in
  let t := l in
  let! _ := dassert dbg (n == 2 * (t + l))%N in
  let! share := unwrap (domain_new F n) in
  let! sec := unwrap (domain_new F (l + t)) in
  let! secret := unwrap (get_coset sec (ff_generator F)) in
  let! sec2 := unwrap (domain_new F (2 * (l + t))) in
  let! secret2 := unwrap (get_coset sec2 (ff_generator F)) in
  let! _ := dassert dbg (d_size share == n) in
  let! _ := dassert dbg (d_size secret == l + t)%N in
  let! _ := dassert dbg (d_size secret2 == 2 * (l + t))%N in
  Ok (Pss t l n share secret secret2).

Section Module.
Variable T : lmodType F.
Variables (dbg : bool) (pp : pss F).

(** pss.rs:69-87 [det_pack] *)
Definition det_pack (secrets : seq T) : res (seq T) :=
  let! _ := dassert dbg (size secrets == p_l pp) in
  let result := resize 0 (p_t pp) secrets in
  let result := ifft (p_secret pp) result in
  Ok (fft (p_share pp) result).

(** pss.rs:90-122 [pack], as a function of the [t] random points drawn at line 100 *)
Definition pack_pts (secrets rands : seq T) : res (seq T) :=
  let! _ := dassert dbg (size secrets == p_l pp) in
  let result := secrets ++ rands in
  let result := ifft (p_secret pp) result in
  let! _ := dassert dbg (all (fun x => x == 0) (drop (p_l pp + p_t pp) result)) in
  Ok (fft (p_share pp) result).

(** pss.rs:90-122 [pack]; consumes [t] values of the generator *)
Definition pack (secrets : seq T) (r : rng T) : res (seq T) :=
  pack_pts secrets (mkseq r (p_t pp)).

(** pss.rs:125-138 [unpack] *)
Definition unpack (shares : seq T) : seq T :=
  let result := ifft (p_share pp) shares in
  let result := fft (p_secret pp) result in
  take (p_l pp) result.

(** pss.rs:163, 202: [result[0..2 * self.l].iter().step_by(2)] *)
Definition every_other (result : seq T) : res (seq T) :=
  let! _ := rassert (2 * p_l pp <= size result)%N in
  Ok (step_by 2 (take (2 * p_l pp) result)).

(** pss.rs:141-166 [unpack2].  In debug builds [2 * (l + t) - 1] underflows (panics) when
    [l + t = 0]. *)
Definition unpack2 (shares : seq T) : res (seq T) :=
  let result := ifft (p_share pp) shares in
  let! _ := dassert dbg (0 < p_l pp + p_t pp)%N in
  let! _ := dassert dbg
    (all (fun x => x == 0) (drop (2 * (p_l pp + p_t pp) - 1) result)) in
  every_other (fft (p_secret2 pp) result).

(** pss.rs:170-205 [lagrange_unpack] *)
Definition lagrange_unpack (shares : seq T) (parties : seq nat) : res (seq T) :=
  let! _ := dassert dbg (size shares == size parties) in
  let! _ := dassert dbg (0 < p_t pp + p_l pp)%N in
  let! _ := dassert dbg (2 * (p_t pp + p_l pp - 1) < size parties)%N in
  let share_elements := elements (p_share pp) in
  let! xs := mapM (fun i => let! q := vget parties i in vget share_elements q)
                  (iota 0 (size parties)) in
  let! result := lagrange_interpolate xs shares in
  every_other (fft (p_secret2 pp) result).

(** pss.rs:210-221 [unpack_missing_shares] *)
Definition unpack_missing_shares (shares : seq T) (parties : seq nat) : res (seq T) :=
  let! _ := dassert dbg (size shares == size parties) in
  if size shares == p_n pp then unpack2 shares else lagrange_unpack shares parties.

End Module.
End Pss.
