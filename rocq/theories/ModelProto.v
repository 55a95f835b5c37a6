(** dist-primitives/src: the distributed protocols.

    A protocol is a thread (see ModelNet) of party [me] among [n] = [net.n_parties()], bound by the
    caller to its stream [sid].  [ord] is the iteration order of the king's hash map.  [cF], [cT]
    are the serializations of field elements and of module (group) elements.  [r] are the random
    values the king draws (clients never look at them).  A panic inside [Option::map] of the king's
    answer is a panic of the party. *)
From mathcomp Require Import all_ssreflect all_algebra.
From Verif Require Import Base ModelField ModelUtils ModelPss ModelPack ModelFft ModelNet.
Set Implicit Arguments.
Unset Strict Implicit.
Unset Printing Implicit Defensive.
Import GRing.Theory.
Local Open Scope ring_scope.

(** [received_shares.map(|rs| ...)] *)
Definition king_map A B (f : A -> res B) (o : option A) : res (option B) :=
  if o is Some a then rmap Some (f a) else Ok None.

Section Proto.
Variable F : fftField.
Variables (dbg : bool) (pp : pss F).
Local Notation l := (p_l pp).
Variables (n me : nat) (ord : hash_order).

Section Field.
Variable cF : codec F.

(** dfft/mod.rs:264-304, the king's computation; [mbyl] is [px.len()], [len] is [out.len()] *)
Definition fft2_king (mbyl len : nat) (rearrange : bool) (g gen : F) (r : rng F)
    (rs : received (seq F)) : res (seq (seq F)) :=
  let! all_shares := transpose (shares rs) in
  let! s1 := foldM (fun s1 (x : nat * seq F) =>
      let! tmp := unpack_missing_shares dbg pp (x.2 : seq F^o) (parties rs) in
      foldM (fun s1 j => let! v := vget tmp j in vset s1 (x.1 * l + j) v) s1 (iota 0 l))
    (nseq (len * l) 0) (zip (iota 0 mbyl) all_shares) in
  let! s1 := fft2 pp s1 gen in
  share_out dbg pp rearrange (shift s1 g) r.

(** dfft/mod.rs:240-320 [fft2_with_rearrange] *)
Definition fft2_with_rearrange (px : seq F) (mask : fft_mask F) (rearrange : bool) (g gen : F)
    (r : rng F) : cproc (seq F) :=
  let out := zipmap +%R px (fm_in mask) in
  do! received_shares := csokr_ser (vec_codec cF) n me ord out (p_t pp) in
  do! king_answer := clift (king_map (fft2_king (size px) (size out) rearrange g gen r)
                                     received_shares) in
  do! out_share := crokss_ser (vec_codec cF) n me king_answer in
  clift (Ok (zipmap +%R out_share (fm_out mask))).

(** dfft/mod.rs:99-134 [d_fft] *)
Definition d_fft (pcoeff_share : seq F) (mask : fft_mask F) (rearrange : bool) (dom : domain F)
    (r : rng F) : cproc (seq F) :=
  do! _ := clift (dassert dbg (size pcoeff_share * l == d_size dom)%N) in
  do! px := clift (fft1 pp pcoeff_share (d_gen dom)) in
  fft2_with_rearrange px mask rearrange 1 (d_gen dom) r.

(** dfft/mod.rs:137-175 [d_ifft] *)
Definition d_ifft (peval_share : seq F) (mask : fft_mask F) (rearrange : bool) (dom : domain F)
    (g : F) (r : rng F) : cproc (seq F) :=
  do! _ := clift (dassert dbg (size peval_share * l == d_size dom)%N) in
  let px := [seq x * d_size_inv dom | x <- peval_share] in
  do! px := clift (fft1 pp px (d_gen_inv dom)) in
  fft2_with_rearrange px mask rearrange g (d_gen_inv dom) r.

End Field.

Section Module.
Variable T : lmodType F.
Variable cT : codec T.

(** utils/deg_red.rs:14-22 [DegRedMask] *)
Record degred_mask := DegRedMask { dr_in : seq T; dr_out : seq T }.

(** utils/deg_red.rs:40-66 [DegRedMask::sample] (the debug assertion of [new] compares two lengths that
    are equal here); [values] are the scalars drawn, [r_in] and [r_out]
    the generators inside the two [pack_vec] *)
Definition degred_mask_sample (gen : T) (num : nat) (values : rng F) (r_in r_out : rng T) :
    res (seq degred_mask) :=
  let in_values := mkseq (fun i => values i *: gen) (num * l) in
  let out_values := mkseq (fun i => 0 - values i *: gen) (num * l) in
  let! p := pack_vec dbg pp in_values r_in in
  let! in_shares := transpose p in
  let! p := pack_vec dbg pp out_values r_out in
  let! out_shares := transpose p in
  Ok (zipmap DegRedMask in_shares out_shares).

(** utils/deg_red.rs:70-76 [DegRedMask::zero] *)
Definition degred_mask_zero (num : nat) : degred_mask := DegRedMask (nseq num 0) (nseq num 0).

(** utils/deg_red.rs:103-111, the king's computation; the [i]-th call of [pack] consumes the [i]-th
    block of random values *)
Definition deg_red_king (r : rng T) (rs : received (seq T)) : res (seq (seq T)) :=
  let! x_shares := transpose (shares rs) in
  let! x_shares := mapM (fun i =>
      let! x_share := vget x_shares i in
      let! xi := unpack_missing_shares dbg pp x_share (parties rs) in
      pack dbg pp xi (rskip (i * p_t pp) r)) (iota 0 (size x_shares)) in
  transpose x_shares.

(** utils/deg_red.rs:80-126 [deg_red] *)
Definition deg_red (x_share : seq T) (mask : degred_mask) (r : rng T) : cproc (seq T) :=
  do! _ := clift (dassert dbg (size x_share == size (dr_in mask))) in
  do! _ := clift (dassert dbg (size x_share == size (dr_out mask))) in
  let x_mask := zipmap +%R x_share (dr_in mask) in
  do! received_shares := csokr_ser (vec_codec cT) n me ord x_mask (p_t pp) in
  do! king_answer := clift (king_map (deg_red_king r) received_shares) in
  do! x_share := crokss_ser (vec_codec cT) n me king_answer in
  clift (Ok (zipmap +%R x_share (dr_out mask))).

(** dmsm/mod.rs:10-13 [MsmMask] *)
Record msm_mask := MsmMask { mm_in : T; mm_out : T }.

(** dmsm/mod.rs:21-47 [MsmMask::sample]; [values] are the scalars drawn and [r] the values drawn by
    the two [pack], [gen] is [G::generator()] *)
Definition msm_mask_sample (gen : T) (values : rng F) (r : rng T) : res (seq msm_mask) :=
  let mask_values := mkseq (fun i => values i *: gen) l in
  let out_mask_value := - foldr +%R 0 mask_values in
  let! in_shares := pack dbg pp mask_values r in
  let! out_shares := pack dbg pp (nseq l out_mask_value) (rskip (p_t pp) r) in
  Ok (zipmap MsmMask in_shares out_shares).

(** dmsm/mod.rs:51-56 [MsmMask::zero] *)
Definition msm_mask_zero : msm_mask := MsmMask 0 0.

(** ark_ec [VariableBaseMSM::msm]: an error when the lengths differ (converted by [?],
    mpc-net/src/lib.rs:26); affine and projective points are not distinguished *)
Definition msm (bases : seq T) (scalars : seq F) : res T :=
  if size bases == size scalars
  then Ok (foldr +%R 0 (zipmap (fun s b => s *: b) scalars bases)) else Err Generic.

(** dmsm/mod.rs:82-88 *)
Definition d_msm_king (rs : received T) : res (seq T) :=
  let! result := unpack_missing_shares dbg pp (shares rs) (parties rs) in
  Ok (nseq n (foldr +%R 0 result)).

(** dmsm/mod.rs:59-102 [d_msm] *)
Definition d_msm (bases : seq T) (scalars : seq F) (mask : msm_mask) : cproc T :=
  do! _ := clift (dassert dbg (size bases == size scalars)) in
  do! c_share := clift (msm bases scalars) in
  let c_share := c_share + mm_in mask in
  do! received_shares := csokr_ser cT n me ord c_share (p_t pp) in
  do! king_answer := clift (king_map d_msm_king received_shares) in
  do! output := crokss_ser cT n me king_answer in
  clift (Ok (output + mm_out mask)).

End Module.

Section PartialProducts.

(** dpp/mod.rs:41-76, the king's computation *)
Definition d_pp_king (r : rng F) (rs : received (seq F)) : res (seq (seq F)) :=
  let! _ := dassert dbg (size (shares rs) == p_n pp) in
  let! numden_shares := transpose (shares rs) in
  let! parts := mapM (fun x => unpack_missing_shares dbg pp (x : seq F^o) (parties rs))
                     numden_shares in
  let numden := flatten parts in
  let half := (size numden %/ 2)%N in
  let! numden := foldM (fun numden i =>
      let! d := vget numden (i + half) in
      let! den := unwrap (if d == 0 then None else Some d^-1) in
      let! x := vget numden i in
      vset numden i (x * den)) numden (iota 0 half) in
  let numden := take (size numden %/ 2) numden in
  let! numden := foldM (fun numden i =>
      let! last := vget numden (i - 1) in
      let! x := vget numden i in
      vset numden i (x * last)) numden (iota 1 (size numden - 1)) in
  let! sh := pack_vec dbg pp (numden : seq F^o) r in
  transpose sh.

End PartialProducts.
End Proto.

(** dpp/mod.rs:15-87, the body of [d_pp] with the factor [s] of line 25 as a parameter; [r] and [r']
    are drawn by the king in the two rounds, [ord] and [ord'] are the iteration orders of the two
    hash maps *)
Definition d_pp_with (F : fftField) (s : F) (dbg : bool) (pp : pss F) (n me : nat)
    (ord ord' : hash_order) (cF : codec F) (num den : seq F)
    (mask : degred_mask [lmodType F of F^o]) (r r' : rng F) : cproc (seq F) :=
  do! sinv := clift (unwrap (if s == 0 then None else Some s^-1)) in
  let num_rand := [seq x * s | x <- num] in
  let den_rand := [seq x * s | x <- den] in
  let numden_rand := num_rand ++ den_rand in
  do! received_shares := csokr_ser (vec_codec cF) n me ord numden_rand (p_t pp) in
  do! king_answer := clift (king_map (d_pp_king dbg pp r) received_shares) in
  do! pp_numden_rand := crokss_ser (vec_codec cF) n me king_answer in
  let pp_numden_rand := [seq x * sinv | x <- pp_numden_rand] in
  deg_red dbg pp n me ord' (T := [lmodType F of F^o]) cF pp_numden_rand mask r'.

(** dpp/mod.rs:15-87 [d_pp]: the factor is [F::from(1_u32)] (line 25) *)
Definition d_pp (F : fftField) (dbg : bool) (pp : pss F) (n me : nat) (ord ord' : hash_order)
    (cF : codec F) (num den : seq F) (mask : degred_mask [lmodType F of F^o]) (r r' : rng F) :
    cproc (seq F) :=
  d_pp_with 1 dbg pp n me ord ord' cF num den mask r r'.
