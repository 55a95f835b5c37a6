(** dist-primitives/src/dfft/mod.rs: the local computations of the distributed transforms. *)
From mathcomp Require Import all_ssreflect all_algebra.
From Verif Require Import Base ModelField ModelUtils ModelPss ModelPack.
Set Implicit Arguments.
Unset Strict Implicit.
Unset Printing Implicit Defensive.
Import GRing.Theory.
Local Open Scope ring_scope.

(** [ark_std::log2]: ceiling of the binary logarithm, 0 for 0 *)
Definition log2 (x : nat) : nat := up_log 2 x.

(** the Rust range [(a..=b).rev()] *)
Definition range_incl_rev (a b : nat) : seq nat := rev (iota a (b.+1 - a)).

(** [data.swap(i, j)] *)
Definition vswap A (s : seq A) (i j : nat) : res (seq A) :=
  let! x := vget s i in
  let! y := vget s j in
  let! s1 := vset s i y in
  vset s1 j x.

(** dfft/mod.rs:328-333, the [while] loop and the final [|=]; one round per unit of [fuel].
    [mask] is halved every round, so [fuel = mask.+1] rounds are enough ([land target 0 = 0]). *)
Fixpoint next_target (fuel target mask : nat) : nat :=
  if (Nat.land target mask == 0)%N then Nat.lor target mask
  else if fuel is fuel'.+1 then next_target fuel' (Nat.ldiff target mask) mask./2
  else target.

(** dfft/mod.rs:322-335 [fft_in_place_rearrange] *)
Definition fft_rearrange A (data : seq A) : res (seq A) :=
  let len := size data in
  let! st := foldM (fun (st : seq A * nat) pos =>
      let: (data, target) := st in
      let! data := (if (pos < target)%N then vswap data target pos else Ok data) in
      Ok (data, next_target len target len./2))
    (data, 0%N) (iota 0 len) in
  Ok st.1.

(** [Vec::rotate_right(1)]: panics on an empty vector *)
Definition rotate_right1 A (s : seq A) : res (seq A) :=
  let! _ := rassert (0 < size s)%N in Ok (rotr 1 s).

Section Fft.
Variable F : fftField.
Variables (dbg : bool) (pp : pss F).
Local Notation l := (p_l pp).

(** dfft/mod.rs:178-208 [fft1_in_place].  ([2usize.pow(i - 1) / pp.l] would panic for [l = 0], but
    then [dom_size = 0] and the loop is empty.) *)
Definition fft1 (px : seq F) (gen : F) : res (seq F) :=
  let dom_size := (size px * l)%N in
  foldM (fun px i =>
      let poly_size := (dom_size %/ 2 ^ i)%N in
      let factor_stride := gen ^+ (2 ^ i.-1) in
      let! st := foldM (fun (st : seq F * F) k =>
          let: (px, factor) := st in
          let! px := foldM (fun px j =>
              let! x := vget px (2 * j * poly_size + k) in
              let! y := vget px ((2 * j + 1) * poly_size + k) in
              let y := y * factor in
              let! px := vset px (j * (2 * poly_size) + k) (x + y) in
              vset px (j * (2 * poly_size) + k + poly_size) (x - y))
            px (iota 0 (2 ^ i.-1 %/ l)) in
          Ok (px, factor * factor_stride))
        (px, factor_stride) (iota 0 poly_size) in
      Ok st.1)
    px (range_incl_rev (log2 l).+1 (log2 dom_size)).

(** dfft/mod.rs:210-237 [fft2_in_place]; the state of the outer loop is [(s1, s2)] *)
Definition fft2 (s1 : seq F) (gen : F) : res (seq F) :=
  let dom_size := size s1 in
  let! st := foldM (fun (st : seq F * seq F) i =>
      let: (s1, s2) := st in
      let poly_size := (dom_size %/ 2 ^ i)%N in
      let factor_stride := gen ^+ (2 ^ i.-1) in
      let! st' := foldM (fun (st : seq F * F) k =>
          let: (s2, factor) := st in
          let! s2 := foldM (fun s2 j =>
              let! x := vget s1 (k * 2 ^ i + 2 * j) in
              let! y := vget s1 (k * 2 ^ i + 2 * j + 1) in
              let y := y * factor in
              let! s2 := vset s2 (k * 2 ^ i.-1 + j) (x + y) in
              vset s2 ((k + poly_size) * 2 ^ i.-1 + j) (x - y))
            s2 (iota 0 (2 ^ i.-1)) in
          Ok (s2, factor * factor_stride))
        (s2, factor_stride) (iota 0 poly_size) in
      Ok (st'.1, s1))
    (s1, nseq dom_size 0) (range_incl_rev 1 (log2 l)) in
  rotate_right1 st.1.

(** dfft/mod.rs:59-72, 286-299 and qap.rs:102-112: packs the strided blocks
    [x.iter().skip(i).step_by(len / l)]; the [i]-th call of [pack] consumes the [i]-th block of [t]
    random values. *)
Definition pack_strided (T : lmodType F) (x : seq T) (r : rng T) : res (seq (seq T)) :=
  let! _ := rassert (0 < l)%N in
  let blocks := (size x %/ l)%N in
  mapM (fun i => pack dbg pp (step_by blocks (drop i x)) (rskip (i * p_t pp) r)) (iota 0 blocks).

(** dfft/mod.rs:48-50, 55-76 and 278-303: the common tail of [FftMask::sample] and of the king's
    computation: shift by powers of [g], rearrange if requested, pack, transpose. *)
Definition shift (s : seq F) (g : F) : seq F :=
  if g != 1 then distribute_powers (s : seq F^o) g else s.
Definition share_out (rearrange : bool) (s : seq F) (r : rng F) : res (seq (seq F)) :=
  let! shares :=
    (if rearrange then
       let! s := fft_rearrange s in pack_strided (s : seq F^o) r
     else pack_vec dbg pp (s : seq F^o) r) in
  transpose shares.

(** dfft/mod.rs:14-19 [FftMask] *)
Record fft_mask := FftMask { fm_in : seq F; fm_out : seq F }.

(** dfft/mod.rs:30-85 [FftMask::sample] with the random values it draws: the [m] mask values, the
    generator used inside [pack_vec] for the input mask, and the one used for the output mask
    ([rng] itself when [rearrange], otherwise a thread generator). *)
Definition fft_mask_sample (rearrange : bool) (g gen : F) (m : nat)
    (values r_in r_out : rng F) : res (seq fft_mask) :=
  let mask_values := mkseq values m in
  let! p := pack_vec dbg pp (mask_values : seq F^o) r_in in
  let! in_shares := transpose p in
  let! s := fft2 mask_values gen in
  let s := [seq - x | x <- shift s g] in
  let! out_shares := share_out rearrange s r_out in
  Ok (zipmap FftMask in_shares out_shares).

(** dfft/mod.rs:89-94 [FftMask::zero] *)
Definition fft_mask_zero (mbyl : nat) : fft_mask := FftMask (nseq mbyl 0) (nseq mbyl 0).

End Fft.
