(** The unit tests of secret-sharing/src/pss.rs and gao.rs and of dist-primitives/src/dmsm/mod.rs,
    for arbitrary values of the constants and of what they draw at random ([Panic]: the test fails).
    Generators that a test uses for several vectors are separate streams. *)
From mathcomp Require Import all_ssreflect all_algebra.
From Verif Require Import Base ModelField ModelUtils ModelPss ModelGao ModelPack ModelFft ModelNet ModelProto ModelDemo.
Set Implicit Arguments.
Unset Strict Implicit.
Unset Printing Implicit Defensive.
Import GRing.Theory.
Local Open Scope ring_scope.
Local Notation Fm F := [lmodType F of F^o].

Section Unit.
Variables (F : fftField) (dbg : bool) (L : nat).

(** pss.rs:239-247 [test_initialize], with [N = L * 4] and [T = L] *)
Definition test_initialize : res unit :=
  let! pp := pss_new F dbg L in
  let! _ := rassert (p_t pp == L) in
  let! _ := rassert (p_l pp == L) in
  let! _ := rassert (p_n pp == L * 4)%N in
  let! _ := rassert (d_size (p_share pp) == L * 4)%N in
  let! _ := rassert (d_size (p_secret pp) == L + L)%N in
  rassert (d_size (p_secret2 pp) == 2 * (L + L))%N.

(** slices [&s[0..k]] *)
Definition slice0 A (k : nat) (s : seq A) : res (seq A) :=
  let! _ := rassert (k <= size s)%N in Ok (take k s).

(** pss.rs:250-272 [test_packing]; [pp.n - pp.t] cannot underflow *)
Definition test_packing (secrets : seq F) (r : rng F) : res unit :=
  let! pp := pss_new F dbg L in
  let! shares := pack dbg pp (secrets : seq (Fm F)) r in
  let secrets' := unpack pp shares in
  let k := (p_n pp - p_t pp + 1)%N in
  let! part := slice0 k shares in
  let! lagrange_secrets := lagrange_unpack dbg pp part (iota 0 k) in
  let! _ := rassert (secrets == secrets') in
  rassert (secrets == lagrange_secrets).

(** pss.rs:275-288 [test_det_packing] *)
Definition test_det_packing (secrets : seq F) : res unit :=
  let! pp := pss_new F dbg L in
  let! shares := det_pack dbg pp (secrets : seq (Fm F)) in
  rassert (secrets == unpack pp shares).

(** pss.rs:291-311 [test_multiplication]; [pp.n - 1] underflows (panics in debug builds) for
    [pp.n = 0], when [new] has panicked before *)
Definition test_multiplication (secrets : seq F) (r : rng F) : res unit :=
  let! pp := pss_new F dbg L in
  let expected := [seq x * x | x <- secrets] in
  let! shares := pack dbg pp (secrets : seq (Fm F)) r in
  let mul_shares := [seq x * x | x <- (shares : seq F)] in
  let! mul_secrets := unpack2 dbg pp (mul_shares : seq (Fm F)) in
  let! part := slice0 (p_n pp - 1) mul_shares in
  let! lagrange_secrets := lagrange_unpack dbg pp (part : seq (Fm F)) (iota 0 (p_n pp - 1)) in
  let! _ := rassert (expected == mul_secrets) in
  rassert (expected == lagrange_secrets).

(** pss.rs:314-323 [test_eval_interpolate], with [degree = p.len()] *)
Definition test_eval_interpolate (p : seq F) : res unit :=
  let xs := [seq x%:R | x <- iota 1 (2 * size p)] in
  let ys := [seq eval p x | x <- xs] in
  let! should_be_p := lagrange_interpolate xs (ys : seq (Fm F)) in
  rassert (should_be_p == p).

(** gao.rs:126-142 [test_error_correction], with any message, positions and errors, code length [N]
    and dimension [K] *)
Definition test_error_correction (m : seq F) (errors : seq (nat * F)) (N K : nat) : res unit :=
  let! pp := pss_new F dbg L in
  let code := fft (p_share pp) (m : seq (Fm F)) in
  let! code := foldM (fun code e => let! x := vget code e.1 in vset code e.1 (x + e.2)) code errors in
  let! decoded := decode_to_message pp code N K in
  rassert (decoded == dp_norm m).

Section Module.
Variable T : lmodType F.

(** dmsm/mod.rs:128-137 [pack_unpack_test] *)
Definition pack_unpack_test (secrets : seq T) (r : rng T) : res unit :=
  let! pp := pss_new F dbg L in
  let! shares := pack dbg pp secrets r in
  rassert (secrets == unpack pp shares).

(** dmsm/mod.rs:140-183 [pack_unpack2_test]: [N = L * 4] parties, [msm(..).unwrap()] *)
Definition pack_unpack2_test (gsecrets : seq T) (fsecrets : seq F) (rg : rng T) (rf : rng F) : res unit :=
  let! pp := pss_new F dbg L in
  let! expected := (if msm gsecrets fsecrets is Ok x then Ok x else Panic) in
  let! gshares := pack_chunks dbg pp gsecrets rg in
  let! fshares := pack_chunks dbg pp (fsecrets : seq (Fm F)) rf in
  let! result := foldM (fun result i =>
      let! g := vget gshares i in
      let! f := vget fshares i in
      let! x := (if msm g f is Ok x then Ok x else Panic) in
      vset result i x) (nseq (p_n pp) 0) (iota 0 (L * 4)) in
  let! unpacked := unpack2 dbg pp result in
  rassert (expected == foldr +%R 0 unpacked).

End Module.
End Unit.
