(** The example programs: dist-primitives/examples and mpc-net/examples.  (For groth16/examples see
    ModelMain.v and ModelProve.v.)

    The programs end with assertions on what the king has reconstructed.  They return nothing; the
    model returns what was compared ([None] at a client), so that theorems can talk about it.  As
    everywhere, the [unwrap] of a failed round or MSM is not told apart from the failure. *)
From mathcomp Require Import all_ssreflect all_algebra.
From Verif Require Import Base ModelField ModelUtils ModelPss ModelPack ModelFft ModelNet ModelProto.
Set Implicit Arguments.
Unset Strict Implicit.
Unset Printing Implicit Defensive.
Import GRing.Theory.
Local Open Scope ring_scope.
Local Notation Fm F := [lmodType F of F^o].

Section Demo.
Variable F : fftField.
Variables (dbg : bool) (pp : pss F) (n me : nat) (ord ord' : hash_order).
Local Notation l := (p_l pp).

(** dfft_test.rs:69-75, dpp_test.rs:43-49: [flat_map(|x| pp.unpack(x))] over the transposed shares *)
Definition unpack_all (rs : received (seq F)) : res (seq F) :=
  let! sh := transpose (shares rs) in
  Ok (flatten [seq unpack pp (x : seq (Fm F)) | x <- sh]).

(** dfft_test.rs:22-26 the coefficients *)
Definition d_fft_input (dom : domain F) : seq F := mkseq (fun i => i%:R) (d_size dom).

(** dfft_test.rs:13-81 [d_fft_test], for any vector [x] of coefficients; [r0] is the deterministic
    [test_rng] of all parties, [r] is drawn by the king inside [d_fft] *)
Definition d_fft_test (cF : codec F) (dom : domain F) (x : seq F) (r0 r : rng F) :
    cproc (option (seq F)) :=
  let should_be_output := fft dom (x : seq (Fm F)) in
  do! x := clift (fft_rearrange x) in
  do! pcoeff := clift (pack_strided dbg pp (x : seq (Fm F)) r0) in
  do! pcoeff_share := clift (mapM (fun x => vget x me) pcoeff) in
  let fft_mask := fft_mask_zero F (d_size dom %/ l) in
  do! peval_share := d_fft dbg pp n me ord cF pcoeff_share fft_mask false dom r in
  do! result := csokr_ser (vec_codec cF) n me ord' peval_share (p_t pp) in
  clift (king_map (fun rs =>
    let! pevals := unpack_all rs in
    let! _ := rassert ((me == 0)%N ==> (should_be_output == pevals)) in
    Ok pevals) result).

(** dpp_test.rs:62-65 the packed vector *)
Definition d_pp_input (dom : domain F) : seq F := mkseq (fun i => (i + 1)%:R) (d_size dom).

(** dpp_test.rs:67-73, before the parties start *)
Definition d_pp_deal (dom : domain F) (r : rng F) (values r_in r_out : rng F) :
    res (seq (seq F) * seq (degred_mask (Fm F))) :=
  let! p := pack_vec dbg pp (d_pp_input dom : seq (Fm F)) r in
  let! px := transpose p in
  let! masks := degred_mask_sample dbg pp (1 : Fm F) (d_size dom %/ l) values r_in r_out in
  Ok (px, masks).

(** dpp_test.rs:16-53 [d_pp_test] with the share and the mask of one party *)
Definition d_pp_test (ord'' : hash_order) (cF : codec F) (dom : domain F) (px_share : seq F)
    (mask : degred_mask (Fm F)) (r r' : rng F) : cproc (option (seq F)) :=
  do! pp_px_share := d_pp dbg pp n me ord ord' cF px_share px_share mask r r' in
  do! result := csokr_ser (vec_codec cF) n me ord'' pp_px_share (p_t pp) in
  clift (king_map (fun rs =>
    let! pp_px := unpack_all rs in
    let! _ := dassert dbg (nseq (d_size dom) 1 == pp_px) in
    Ok pp_px) result).

Variable T : lmodType F.

(** dmsm_test.rs:73-83 [x.chunks(pp.l).map(|s| pp.pack(s)).collect()] and [transpose]; [chunks]
    panics for [l = 0] *)
Definition pack_chunks (U : lmodType F) (x : seq U) (r : rng U) : res (seq (seq U)) :=
  let! _ := rassert (0 < l)%N in
  let cs := chunks l x in
  let! p := mapM (fun i => let! c := vget cs i in pack dbg pp c (rskip (i * p_t pp) r))
                 (iota 0 (size cs)) in
  transpose p.

(** dmsm_test.rs:73-85, before the parties start *)
Definition d_msm_deal (gen : T) (x_pub : seq T) (y_pub : seq F) (rx : rng T) (ry : rng F)
    (values : rng F) (rm : rng T) : res (seq (seq T) * seq (seq F) * seq (msm_mask T)) :=
  let! xs := pack_chunks x_pub rx in
  let! ys := pack_chunks (y_pub : seq (Fm F)) ry in
  let! masks := msm_mask_sample dbg pp gen values rm in
  Ok (xs, ys, masks).

(** dmsm_test.rs:13-53 [d_msm_test] with the shares and the mask of one party *)
Definition d_msm_test (cT : codec T) (x_pub : seq T) (y_pub : seq F) (x_share : seq T)
    (y_share : seq F) (mask : msm_mask T) : cproc (option (seq T)) :=
  do! should_be_output := clift (msm x_pub y_pub) in
  do! output := d_msm dbg pp n me ord cT x_share y_share mask in
  do! result := csokr_ser cT n me ord' output (p_t pp) in
  clift (king_map (fun rs =>
    let! result := unpack_missing_shares dbg pp (shares rs) (parties rs) in
    let! v := vget result 0 in
    let! _ := rassert (should_be_output == v) in
    Ok result) result).

End Demo.

(** ** dist-primitives/examples/local_dfft_test.rs *)

(** [s[a][i]] and [s[a][i] = v] *)
Definition vget2 A (s : seq (seq A)) (a i : nat) : res A := let! row := vget s a in vget row i.
Definition vset2 A (s : seq (seq A)) (a i : nat) (v : A) : res (seq (seq A)) :=
  let! row := vget s a in
  let! row := vset row i v in
  vset s a row.

Section Local.
Variable F : fftField.
Variables (pp : pss F) (dom : domain F).
Local Notation l := (p_l pp).

(** local_dfft_test.rs:38-55: [fft1] on all the slots *)
Definition local_fft1 (s1 : seq (seq F)) : res (seq (seq F)) :=
  foldM (fun s1 i =>
      let poly_size := (d_size dom %/ 2 ^ i)%N in
      let factor_stride := element dom (2 ^ i.-1) in
      let! st := foldM (fun (st : seq (seq F) * F) k =>
          let: (s1, factor) := st in
          let! s1 := foldM (fun s1 j => foldM (fun s1 ii =>
                let! x := vget2 s1 (2 * j * poly_size + k) ii in
                let! y := vget2 s1 ((2 * j + 1) * poly_size + k) ii in
                let y := y * factor in
                let! s1 := vset2 s1 (j * (2 * poly_size) + k) ii (x + y) in
                vset2 s1 (j * (2 * poly_size) + k + poly_size) ii (x - y))
              s1 (iota 0 l))
            s1 (iota 0 (2 ^ i.-1 %/ l)) in
          Ok (s1, factor * factor_stride))
        (s1, factor_stride) (iota 0 poly_size) in
      Ok st.1)
    s1 (range_incl_rev (log2 l).+1 (log2 (d_size dom))).

(** local_dfft_test.rs:64-80: [fft2], with a copy of the input as the second vector *)
Definition local_fft2 (sx : seq F) : res (seq F) :=
  let! st := foldM (fun (st : seq F * seq F) i =>
      let: (s1, s2) := st in
      let poly_size := (d_size dom %/ 2 ^ i)%N in
      let factor_stride := element dom (2 ^ i.-1) in
      let! st' := foldM (fun (st : seq F * F) k =>
          let: (s2, factor) := st in
          let! s2 := foldM (fun s2 j =>
              let! x := vget s1 (k * 2 ^ i + 2 * j) in
              let! y := vget s1 (k * 2 ^ i + 2 * j + 1) in
              let y := y * factor in
              let! s2 := vset s2 (k * 2 ^ i.-1 + j) (x + y) in
              vset s2 ((k + poly_size) * 2 ^ i.-1 + j) (x - y))
            s2 (iota 0 (2 ^ i.-1)) in
          Ok (s2, factor * factor_stride))
        (s2, factor_stride) (iota 0 poly_size) in
      Ok (st'.1, s1))
    (sx, sx) (range_incl_rev 1 (log2 l)) in
  rotate_right1 st.1.

(** local_dfft_test.rs:10-85 [local_dfft_test], for any vector [x] of coefficients; returns what was
    compared *)
Definition local_dfft_test (x : seq F) : res (seq F) :=
  let! _ := rassert (0 < l)%N in
  let mbyl := (d_size dom %/ l)%N in
  let output := fft dom (x : seq (Fm F)) in
  let! x := fft_rearrange x in
  let px := mkseq (fun i => step_by mbyl (drop i x)) mbyl in
  let! s1 := local_fft1 px in
  let! sx := mapM (vget s1) (iota 0 mbyl) in
  let! s1 := local_fft2 (flatten sx) in
  let! _ := rassert (output == s1) in
  Ok s1.

End Local.

(** ** groth16/examples/local_groth_bench.rs *)

(** groth16/src/lib.rs:10-18 [ConstraintDomain] *)
Record constraint_domain (F : fftField) := ConstraintDomain {
  cd_m : nat;
  cd_constraint : domain F;
  cd_constraint2 : domain F
}.

(** groth16/src/lib.rs:22-34 [ConstraintDomain::new]; [2 * m] is taken not to overflow *)
Definition constraint_domain_new (F : fftField) (dbg : bool) (m : nat) : res (constraint_domain F) :=
  let! constraint := unwrap (domain_new F m) in
  let! constraint2 := unwrap (domain_new F (2 * m)) in
  let! _ := dassert dbg (d_size constraint == m) in
  let! _ := dassert dbg (d_size constraint2 == 2 * m)%N in
  Ok (ConstraintDomain m constraint constraint2).

(** local_groth_bench.rs:25-29: a random point [g], doubled again and again *)
Definition doublings (T : zmodType) (g : T) (len : nat) : res (seq T) :=
  foldM (fun s i => let! x := vget s i.-1 in vset s i (x + x)) (nseq len g) (iota 1 len.-1).

Section LocalGroth.
Variables (F : fftField) (G1 G2 : lmodType F) (cd : constraint_domain F).
Local Notation m := (cd_m cd).

(** local_groth_bench.rs:87-91: what the program takes for P, Q and W *)
Definition local_groth_input : seq F := mkseq (fun i => i%:R) m.

(** local_groth_bench.rs:94-125: the quotient polynomial (the polynomial t is the constant 1) *)
Definition local_groth_h (p_eval q_eval w_eval : seq F) : res (seq F) :=
  let p := fft (cd_constraint2 cd) (ifft (cd_constraint cd) (p_eval : seq (Fm F))) in
  let q := fft (cd_constraint2 cd) (ifft (cd_constraint cd) (q_eval : seq (Fm F))) in
  let w := fft (cd_constraint2 cd) (ifft (cd_constraint cd) (w_eval : seq (Fm F))) in
  let! h_eval := mapM (fun i =>
      let! x := vget (p : seq F) i in
      let! y := vget (q : seq F) i in
      let! z := vget (w : seq F) i in
      Ok (x * y - z)) (iota 0 (size p)) in
  let t_eval := nseq (size h_eval) 1 in
  let! h_eval := mapM (fun i =>
      let! x := vget h_eval i in
      let! y := vget t_eval i in
      Ok (x * y)) (iota 0 (size h_eval)) in
  Ok (ifft (cd_constraint2 cd) (h_eval : seq (Fm F)) : seq F).

(** local_groth_bench.rs:84-156 [localgroth_test] with the random points of [local_dummy_crs] and
    the random scalar [a] of [a_share]; returns the three shares of the proof *)
Definition local_groth (p_eval q_eval w_eval : seq F) (gs gu gw gh : G1) (gv : G2) (a : F) :
    res (G1 * G2 * G1) :=
  let! h_eval := local_groth_h p_eval q_eval w_eval in
  let! s := doublings gs m in
  let! u := doublings gu (m * 2) in
  let! w := doublings gw m in
  let! h := doublings gh m in
  let! v := doublings gv m in
  let a_share := nseq (size s) a in
  let! pi_a_share := msm s a_share in
  let! pi_b_share := msm v a_share in
  let! pi_c_share1 := msm h a_share in
  let! pi_c_share2 := msm w a_share in
  let! pi_c_share3 := msm u h_eval in
  Ok (pi_a_share, pi_b_share, pi_c_share1 + pi_c_share2 + pi_c_share3).

End LocalGroth.

Local Open Scope nat_scope.

(** ** mpc-net/examples/add_ids.rs *)

(** [x as u32] *)
Definition u32 (x : nat) : nat := le_value (le_bytes 4 x).

(** [u32] addition: an overflow panics in debug builds and wraps in release builds *)
Definition u32_add (dbg : bool) (a b : nat) : res nat :=
  let! _ := dassert dbg (u32 (a + b) == a + b) in Ok (u32 (a + b)).

(** [u32] in ark_serialize and in bincode: four bytes, little endian *)
Definition u32_codec : codec nat :=
  Codec (le_bytes 4) (fun b => if size b < 4 then None else Some (le_value (take 4 b), drop 4 b)).

(** add_ids.rs:65 [expected_sum_result] *)
Definition expected_sum (dbg : bool) (n : nat) : res nat :=
  foldM (u32_add dbg) 0 [seq u32 r | r <- iota 0 n].

(** add_ids.rs:67-101, the computation of [sum], and [rest], what is done with it.  The king's own
    value is decoded from its message as well.  (A party 0 in the other branch fails in
    [client_receive_or_king_send].) *)
Definition add_ids_sum (dbg : bool) (n me : nat) (ord : hash_order) B (rest : nat -> cproc B) : cproc B :=
  do! king_recv := csokr_ser u32_codec n me ord me 0 in
  do! send := clift (king_map (fun rs =>
    let! _ := rassert (me == 0) in
    let! sum := foldM (u32_add dbg) 0 (shares rs) in
    Ok (nseq n sum)) king_recv) in
  do! sum := crokss_ser u32_codec n me send in rest sum.

(** add_ids.rs:64-107 [main] after the connections have been made *)
Definition add_ids (dbg : bool) (n me : nat) (ord : hash_order) : cproc unit :=
  do! expected := clift (expected_sum dbg n) in
  add_ids_sum dbg n me ord (fun sum => clift (rassert (sum == expected))).
