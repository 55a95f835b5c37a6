(** groth16/src/prove.rs, groth16/src/proving_key.rs and groth16/examples/sha256.rs: the
    distributed Groth16 prover.

    The groups G1 and G2 are modules [T1] and [T2] over the scalar field; affine and projective
    points are not distinguished. *)
From mathcomp Require Import all_ssreflect all_algebra.
From Verif Require Import Base ModelField ModelUtils ModelPss ModelPack ModelFft ModelNet ModelProto.
From Verif Require Import ModelQap.
Set Implicit Arguments.
Unset Strict Implicit.
Unset Printing Implicit Defensive.
Import GRing.Theory.
Local Open Scope ring_scope.

Section Compute.
Variable F : fftField.
Variables (dbg : bool) (pp : pss F) (n me : nat).
Variables (T : lmodType F) (cT : codec T).

(** prove.rs:26-59 [A::compute] *)
Definition compute_A (L N AG1 : T) (S : seq T) (a : seq F) (r : F) (ord : hash_order)
    (mask : msm_mask T) : cproc T :=
  let v0 := r *: N in
  let v1 := L + v0 in
  do! prod := d_msm dbg pp n me ord cT S a mask in
  clift (Ok (v1 + prod + AG1)).

(** prove.rs:85-113 [BInG1::compute] *)
Definition compute_B1 (Z K BG1 : T) (H : seq T) (a : seq F) (s r : F) (ord : hash_order)
    (mask : msm_mask T) : cproc T :=
  if r == 0 then CRet (Ok 0) else
  let v0 := s *: K in
  let v1 := Z + v0 in
  do! prod := d_msm dbg pp n me ord cT H a mask in
  clift (Ok (v1 + prod + BG1)).

(** prove.rs:132-161 [BInG2::compute] *)
Definition compute_B2 (Z K BG2 : T) (V : seq T) (a : seq F) (s : F) (ord : hash_order)
    (mask : msm_mask T) : cproc T :=
  let v0 := s *: K in
  let v1 := Z + v0 in
  do! prod := d_msm dbg pp n me ord cT V a mask in
  clift (Ok (v1 + prod + BG2)).

(** prove.rs:193-238 [C::compute] *)
Definition compute_C (A B M : T) (s r : F) (W U : seq T) (ax h : seq F) (ord : nat -> hash_order)
    (masks : seq (msm_mask T)) : pproc T :=
  let m i := nth (msm_mask_zero T) masks i in
  pdo! rs := PJoin [:: (0%N, d_msm dbg pp n me (ord 0%N) cT W ax (m 0%N));
                       (1%N, d_msm dbg pp n me (ord 1%N) cT U h (m 1%N))] (fun rs => PRet (Ok rs)) in
  if rs is [:: w; u] then
    let r_s_delta_g1 := (r * s) *: M in
    let s_g_a := s *: A in
    let r_g1_b := r *: B in
    PRet (Ok (s_g_a + r_g1_b - r_s_delta_g1 + w + u))
  else PRet Panic.

End Compute.

Section Key.
Variable F : fftField.
Variables (T1 T2 : lmodType F).

(** ark_groth16 [ProvingKey] (fields used) *)
Record proving_key := ProvingKey {
  a_query : seq T1;
  b_g1_query : seq T1;
  b_g2_query : seq T2;
  h_query : seq T1;
  l_query : seq T1;
  pk_delta_g1 : T1;
  pk_delta_g2 : T2;
  pk_alpha_g1 : T1;
  pk_beta_g1 : T1;
  pk_beta_g2 : T2
}.

(** proving_key.rs:18-37 [PackedProvingKeyShare] *)
Record key_share := KeyShare {
  k_s : seq T1;
  k_u : seq T1;
  k_w : seq T1;
  k_h : seq T1;
  k_v : seq T2;
  k_a_query0 : T1;
  k_b_g1_query0 : T1;
  k_b_g2_query0 : T2;
  k_delta_g1 : T1;
  k_delta_g2 : T2;
  k_alpha_g1 : T1;
  k_beta_g1 : T1;
  k_beta_g2 : T2
}.

Variables (dbg : bool) (pp : pss F).

(** proving_key.rs:72-86; [slice::chunks(0)] panics *)
Definition pack_query (T : lmodType F) (q : seq T) : res (seq (seq T)) :=
  let! _ := rassert (0 < p_l pp)%N in
  mapM (fun c => det_pack dbg pp c) (chunks (p_l pp) q).

(** proving_key.rs:90-104 *)
Definition column A (packed : seq (seq A)) (i : nat) : res (seq A) :=
  mapM (fun row => vget row i) packed.

(** proving_key.rs:47-123 [pack_from_arkworks_proving_key] *)
Definition pack_key (pk : proving_key) : res (seq key_share) :=
  let! packed_s := pack_query (drop 1 (a_query pk)) in
  let! packed_u := pack_query (h_query pk) in
  let! packed_w := pack_query (l_query pk) in
  let! packed_h := pack_query (drop 1 (b_g1_query pk)) in
  let! packed_v := pack_query (drop 1 (b_g2_query pk)) in
  mapM (fun i =>
      let! s := column packed_s i in
      let! u := column packed_u i in
      let! v := column packed_v i in
      let! w := column packed_w i in
      let! h := column packed_h i in
      let! a0 := vget (a_query pk) 0 in
      let! b0 := vget (b_g1_query pk) 0 in
      let! c0 := vget (b_g2_query pk) 0 in
      Ok (KeyShare s u w h v a0 b0 c0 (pk_delta_g1 pk) (pk_delta_g2 pk) (pk_alpha_g1 pk)
                   (pk_beta_g1 pk) (pk_beta_g2 pk)))
    (iota 0 (p_n pp)).

(** examples/sha256.rs:131-156 [pack_from_witness]; the generator of every chunk is a fresh
    [thread_rng()], the [i]-th chunk uses the [i]-th block of [r] *)
Definition pack_from_witness (full_assignment : seq F) (r : rng F) : res (seq (seq F)) :=
  let! _ := rassert (0 < p_l pp)%N in
  let cs := chunks (p_l pp) full_assignment in
  let! packed := mapM (fun i =>
      let! chunk := vget cs i in
      let secrets := (if (size chunk < p_l pp)%N then resize 0 (p_l pp) chunk else chunk) in
      pack dbg pp (secrets : seq F^o) (rskip (i * p_t pp) r)) (iota 0 (size cs)) in
  mapM (fun i => column packed i) (iota 0 (p_n pp)).

Variables (n me : nat) (cF : codec F) (c1 : codec T1) (c2 : codec T2).

(** examples/sha256.rs:31-129 [dsha256].  [ord 0..6] belong to [circom_h], [ord 7..11] to the five
    multi-scalar multiplications.  The [unwrap]s of the intermediate results are not modelled as
    panics: the party ends with the error. *)
Definition dsha256 (crs : key_share) (q : qap_t F) (a ax : seq F) (r s : F)
    (fmask : seq (fft_mask F)) (dmask : degred_mask [lmodType F of F^o])
    (g1_mask : seq (msm_mask T1)) (g2_mask : msm_mask T2)
    (ord : nat -> hash_order) (rs : nat -> rng F) : pproc (T1 * T2 * T1) :=
  let m i := nth (msm_mask_zero T1) g1_mask i in
  pdo! h := circom_h dbg pp n me ord cF q fmask dmask rs in
  pdo! pi_a := pthread 0 (compute_A dbg pp n me c1 (k_a_query0 crs) (k_delta_g1 crs)
                 (k_alpha_g1 crs) (k_s crs) a r (ord 7%N) (m 0%N)) in
  pdo! pi_b1 := pthread 0 (compute_B1 dbg pp n me c1 (k_b_g1_query0 crs) (k_delta_g1 crs)
                 (k_beta_g1 crs) (k_h crs) a s r (ord 8%N) (m 1%N)) in
  pdo! pi_b2 := pthread 0 (compute_B2 dbg pp n me c2 (k_b_g2_query0 crs) (k_delta_g2 crs)
                 (k_beta_g2 crs) (k_v crs) a s (ord 9%N) g2_mask) in
  pdo! pi_c := compute_C dbg pp n me c1 pi_a pi_b1 (k_delta_g1 crs) s r (k_w crs) (k_u crs) ax h
                 (fun i => ord (10 + i)%N) [:: m 2%N; m 3%N] in
  PRet (Ok (pi_a, pi_b2, pi_c)).

(** examples/sha256.rs:366-377: the client's reconstruction *)
Definition reconstruct (T : lmodType F) (shares : seq T) : res T :=
  let! v := unpack2 dbg pp shares in vget v 0.

End Key.
