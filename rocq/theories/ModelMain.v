(** groth16/examples/sha256.rs, [main]: the trusted setup, the dealer and the client.

    The setup itself is in ark_groth16 0.4 ([generate_parameters_with_qap]) and ark_circom
    ([CircomReduction]), which are not in /repo; the functions [main] relies on are modelled from
    their published source.  The pairing is modelled in SpecVerify. *)
From mathcomp Require Import all_ssreflect all_algebra.
From Verif Require Import Base ModelField ModelUtils ModelPss ModelPack ModelFft ModelNet ModelProto.
From Verif Require Import ModelQap ModelProve.
Set Implicit Arguments.
Unset Strict Implicit.
Unset Printing Implicit Defensive.
Import GRing.Theory.
Local Open Scope ring_scope.

Section Crs.
Variable F : fftField.

(** ark_relations [ConstraintMatrices], with the third matrix, which the code of /repo never reads *)
Record r1cs := R1cs {
  r1_matrices : matrices F;
  r1_c : seq (seq (F * nat))
}.

(** ark_poly [evaluate_all_lagrange_coefficients(t)] on a domain without offset *)
Definition lagrange_coeffs (d : domain F) (t : F) : seq F :=
  mkseq (fun j => d_size_inv d * foldr (fun x acc => x + (t * d_gen_inv d ^+ j) * acc) 0
                                       (nseq (d_size d) 1)) (d_size d).

(** ark_groth16 r1cs_to_qap.rs, [for (coeff, index) in row { v[index] += u_i * coeff; }] *)
Definition add_row (u : F) (v : seq F) (row : seq (F * nat)) : res (seq F) :=
  foldM (fun v (t : F * nat) => let! x := vget v t.2 in vset v t.2 (x + u * t.1)) v row.

(** ark_groth16 r1cs_to_qap.rs [instance_map_with_evaluation] for [nv] variables in all; the
    values of the polynomials of every variable at [t], and the domain *)
Definition instance_map (r : r1cs) (nv : nat) (t : F) :
    res (seq F * seq F * seq F * domain F) :=
  let m := r1_matrices r in
  let ni := num_instance_variables m in
  let nc := cm_num_constraints m in
  let! dom := (if domain_new F (nc + ni) is Some d then Ok d else Err Generic) in
  let u := lagrange_coeffs dom t in
  let! a := foldM (fun a i => let! x := vget u (nc + i) in vset a i x) (nseq nv 0) (iota 0 ni) in
  let! abc := foldM (fun (abc : seq F * seq F * seq F) i =>
      let: (a, b, c) := abc in
      let! u_i := vget u i in
      let! row_a := vget (cm_a m) i in
      let! a := add_row u_i a row_a in
      let! row_b := vget (cm_b m) i in
      let! b := add_row u_i b row_b in
      let! row_c := vget (r1_c r) i in
      let! c := add_row u_i c row_c in
      Ok (a, b, c))
    (a, nseq nv 0, nseq nv 0) (iota 0 nc) in
  Ok (abc, dom).

(** ark_circom [CircomReduction::h_query_scalars(max_power, t, _, delta_inverse)] *)
Definition h_query_scalars (max_power : nat) (t delta_inverse : F) : res (seq F) :=
  let scalars := mkseq (fun i => delta_inverse * t ^+ i) (2 * max_power + 1) in
  let! dom := (if domain_new F (size scalars) is Some d then Ok d else Err Generic) in
  let scalars : seq F := ifft (T := [lmodType F of F^o]) dom scalars in
  Ok (step_by 2 (drop 1 scalars)).

Variables (T1 T2 : lmodType F).

(** ark_groth16 [VerifyingKey] *)
Record verifying_key := VerifyingKey {
  vk_alpha_g1 : T1;
  vk_beta_g2 : T2;
  vk_gamma_g2 : T2;
  vk_delta_g2 : T2;
  vk_gamma_abc_g1 : seq T1
}.

(** ark_groth16 generator.rs [generate_parameters_with_qap] with the reduction of ark_circom, called
    by [circuit_specific_setup] (sha256.rs:172-174): the secret values [alpha], [beta], [gamma],
    [delta], [t] and the generators [g1], [g2] are drawn there *)
Definition setup (r : r1cs) (nv : nat) (alpha beta gamma delta t : F) (g1 : T1) (g2 : T2) :
    res (proving_key T1 T2 * verifying_key) :=
  let ni := num_instance_variables (r1_matrices r) in
  let! im := instance_map r nv t in
  let: (a, b, c, dom) := im in
  let! gamma_inverse := inverse gamma in
  let! delta_inverse := inverse delta in
  let sums := zipmap (fun ab c => beta * ab.1 + alpha * ab.2 + c) (zip a b) c in
  let gamma_abc := [seq x * gamma_inverse | x <- take ni sums] in
  let l := [seq x * delta_inverse | x <- drop ni sums] in
  let! h := h_query_scalars (d_size dom - 1) t delta_inverse in
  Ok (ProvingKey [seq x *: g1 | x <- a] [seq x *: g1 | x <- b] [seq x *: g2 | x <- b]
                 [seq x *: g1 | x <- h] [seq x *: g1 | x <- l]
                 (delta *: g1) (delta *: g2) (alpha *: g1) (beta *: g1) (beta *: g2),
      VerifyingKey (alpha *: g1) (beta *: g2) (gamma *: g2) (delta *: g2)
                   [seq x *: g1 | x <- gamma_abc]).

Variables (dbg : bool) (pp : pss F).

(** sha256.rs:322-345: what the closure of party [idx] picks *)
Record inputs := Inputs {
  in_crs : key_share T1 T2;
  in_qap : qap_t F;
  in_a : seq F;
  in_ax : seq F;
  in_r : F;
  in_s : F;
  in_fft : seq (fft_mask F);
  in_degred : degred_mask [lmodType F of F^o];
  in_g1 : seq (msm_mask T1);
  in_g2 : msm_mask T2
}.

(** The random values drawn by the dealer: [rf i] the [i]-th stream of field elements, [r1 i] of
    elements of G1, [r2 i] of G2.  (Several of these streams are pieces of one generator; they are
    independent arguments here.) *)
Variables (rf : nat -> rng F) (r1 : nat -> rng T1) (r2 : nat -> rng T2).

(** one [FftMask::sample] of sha256.rs:226-275 *)
Definition sample_fft (i : nat) (rearrange : bool) (g gen : F) (dom : domain F) :=
  fft_mask_sample dbg pp rearrange g gen (d_size dom) (rf (3 * i)%N) (rf (3 * i + 1)%N)
                  (rf (3 * i + 2)%N).

(** sha256.rs:183-187, 203-291 and 322-345, with the generators [gen1], [gen2] of the two groups.
    [test_rng] is the generator of qap.rs:99.  The picking of the shares, done by the party, is done
    here by the dealer. *)
Definition deal_inputs (gen1 : T1) (gen2 : T2) (test_rng : rng F) (pk : proving_key T1 T2)
    (m : matrices F) (full_assignment : seq F) (r s : F) : res (seq inputs) :=
  let ni := num_instance_variables m in
  let! q := qap m full_assignment in
  let! r_shares := pack dbg pp (nseq (p_n pp) r : seq F^o) (rf 30) in
  let! s_shares := pack dbg pp (nseq (p_n pp) s : seq F^o) (rf 31) in
  let! qap_shares := qap_pss dbg pp q test_rng in
  let! crs_shares := pack_key dbg pp pk in
  let! _ := rassert (ni <= size full_assignment)%N in
  let! ax_shares := pack_from_witness dbg pp (drop ni full_assignment) (rf 32) in
  let! _ := rassert (1 <= size full_assignment)%N in
  let! a_shares := pack_from_witness dbg pp (drop 1 full_assignment) (rf 33) in
  let! q0 := vget qap_shares 0 in
  let dom := q_domain q0 in
  let! root_of_unity := double_root dom in
  let! f0 := sample_fft 0 true root_of_unity (d_gen_inv dom) dom in
  let! f1 := sample_fft 1 true root_of_unity (d_gen_inv dom) dom in
  let! f2 := sample_fft 2 true root_of_unity (d_gen_inv dom) dom in
  let! f3 := sample_fft 3 false 1 (d_gen dom) dom in
  let! f4 := sample_fft 4 false 1 (d_gen dom) dom in
  let! f5 := sample_fft 5 false 1 (d_gen dom) dom in
  let! _ := rassert (0 < p_l pp)%N in
  let! dm := degred_mask_sample dbg pp (1 : F^o) (d_size dom %/ p_l pp) (rf 18) (rf 19) (rf 20) in
  let! m0 := msm_mask_sample dbg pp gen1 (rf 21) (r1 0%N) in
  let! m1 := msm_mask_sample dbg pp gen1 (rf 22) (r1 1%N) in
  let! m2 := msm_mask_sample dbg pp gen1 (rf 23) (r1 2%N) in
  let! m3 := msm_mask_sample dbg pp gen1 (rf 24) (r1 3%N) in
  let! m4 := msm_mask_sample dbg pp gen2 (rf 25) (r2 0%N) in
  mapM (fun idx =>
      let! crs := vget crs_shares idx in
      let! a := vget a_shares idx in
      let! ax := vget ax_shares idx in
      let! q := vget qap_shares idx in
      let! r := vget (r_shares : seq F) idx in
      let! s := vget (s_shares : seq F) idx in
      let! d := vget dm idx in
      let! g2 := vget m4 idx in
      let! f := mapM (fun f => vget f idx) [:: f0; f1; f2; f3; f4; f5] in
      let! g1 := mapM (fun m => vget m idx) [:: m0; m1; m2; m3] in
      Ok (Inputs crs q a ax r s f d g1 g2))
    (iota 0 (p_n pp)).

(** sha256.rs:347-361: party [p] with its inputs *)
Definition run_party (cF : codec F) (c1 : codec T1) (c2 : codec T2) (i : inputs)
    (ords : nat -> hash_order) (rs : nat -> rng F) (p : nat) : pproc (T1 * T2 * T1) :=
  dsha256 dbg pp (p_n pp) p cF c1 c2 (in_crs i) (in_qap i) (in_a i) (in_ax i) (in_r i) (in_s i)
          (in_fft i) (in_degred i) (in_g1 i) (in_g2 i) ords rs.

(** sha256.rs:366-377: the client puts the proof together *)
Definition collect_proof (results : seq (T1 * T2 * T1)) : res (T1 * T2 * T1) :=
  let! a := reconstruct dbg pp [seq x.1.1 | x <- results] in
  let! b := reconstruct dbg pp [seq x.1.2 | x <- results] in
  let! c := reconstruct dbg pp [seq x.2 | x <- results] in
  Ok (a, b, c).

End Crs.
