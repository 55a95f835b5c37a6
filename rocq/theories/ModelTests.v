(** The programs in the [#[cfg(test)]] modules that run protocols, for arbitrary data.

    A test deals shares and masks, lets all parties run a program with [simulate_network_round]
    (ModelSetup.v: the results in the order of the parties) and compares what it unpacks from the
    results.  The three parts are three definitions here; the comparison is the [rassert] of the
    last.  [unwrap]s of failed rounds are not told apart from the failures. *)
From mathcomp Require Import all_ssreflect all_algebra.
From Verif Require Import Base ModelField ModelUtils ModelPss ModelPack ModelFft ModelNet ModelProto ModelQap.
Set Implicit Arguments.
Unset Strict Implicit.
Unset Printing Implicit Defensive.
Import GRing.Theory.
Local Open Scope ring_scope.
Local Notation Fm F := [lmodType F of F^o].

Section Tests.
Variable F : fftField.
Variables (dbg : bool) (pp : pss F).

(** dfft/tests.rs:30-40, 91-102, 152-162, 233-243: the shares of a vector, a row per sharing *)
Definition strided_rows (v : seq F) (r : rng F) : res (seq (seq F)) :=
  let! v := fft_rearrange v in
  pack_strided dbg pp (v : seq (Fm F)) r.

(** dfft/tests.rs:56-58: [pack_evals.iter().map(|x| x[idx])] *)
Definition party_column (rows : seq (seq F)) (me : nat) : res (seq F) := mapM (fun x => vget x me) rows.

(** dfft/tests.rs:73-76: [transpose(result).into_iter().flat_map(|x| pp.unpack(x))] *)
Definition unpack_rows (result : seq (seq F)) : res (seq F) :=
  let! sh := transpose result in
  Ok (flatten [seq unpack pp (x : seq (Fm F)) | x <- sh]).

(** ext_wit.rs:403-406, 531-534: the same with [unpack2] *)
Definition unpack2_rows (result : seq (seq F)) : res (seq F) :=
  let! sh := transpose result in
  let! parts := mapM (fun x => unpack2 dbg pp (x : seq (Fm F))) sh in
  Ok (flatten parts).

Variables (n me : nat) (ord : nat -> hash_order) (cF : codec F) (dom : domain F).
(** the masks of this party; [r i] is drawn by the king in the [i]-th round *)
Variables (mask : seq (fft_mask F)) (r : nat -> rng F).
Local Notation m i := (nth (no_mask F) mask i).

(** dfft/tests.rs:21-79 [d_ifft_works] *)
Definition d_ifft_works_party (rows : seq (seq F)) : cproc (seq F) :=
  do! x := clift (party_column rows me) in
  d_ifft dbg pp n me (ord 0%N) cF x (m 0%N) false dom 1 (r 0%N).
Definition d_ifft_works_check (v : seq F) (result : seq (seq F)) : res unit :=
  let! c := unpack_rows result in
  rassert (ifft dom (v : seq (Fm F)) == c).

(** dfft/tests.rs:82-140 [d_fft_works] *)
Definition d_fft_works_party (rows : seq (seq F)) : cproc (seq F) :=
  do! x := clift (party_column rows me) in
  d_fft dbg pp n me (ord 0%N) cF x (m 0%N) false dom (r 0%N).
Definition d_fft_works_check (c : seq F) (result : seq (seq F)) : res unit :=
  let! v := unpack_rows result in
  rassert (fft dom (c : seq (Fm F)) == v).

(** dfft/tests.rs:143-220 [d_ifftxd_fft_works] *)
Definition d_ifftxd_fft_party (rows : seq (seq F)) : cproc (seq F) :=
  do! x := clift (party_column rows me) in
  do! p_coeff := d_ifft dbg pp n me (ord 0%N) cF x (m 0%N) true dom 1 (r 0%N) in
  d_fft dbg pp n me (ord 1%N) cF p_coeff (m 1%N) false dom (r 1%N).

(** dfft/tests.rs:223-359 [coset_d_ifftxd_fft_works] *)
Definition coset_d_ifftxd_fft_party (rows : seq (seq F)) : cproc (seq F) :=
  do! coset := clift (unwrap (get_coset dom (ff_generator F))) in
  do! x := clift (party_column rows me) in
  do! p_coeff := d_ifft dbg pp n me (ord 0%N) cF x (m 0%N) true dom (d_offset coset) (r 0%N) in
  do! coset_peval := d_fft dbg pp n me (ord 1%N) cF p_coeff (m 1%N) true dom (r 1%N) in
  do! p_coeff := d_ifft dbg pp n me (ord 2%N) cF coset_peval (m 2%N) true dom (d_offset_inv coset) (r 2%N) in
  d_fft dbg pp n me (ord 3%N) cF p_coeff (m 3%N) false dom (r 3%N).

(** dfft/tests.rs:213-219, 352-358: the values come back *)
Definition round_trip_check (v : seq F) (result : seq (seq F)) : res unit :=
  let! v' := unpack_rows result in
  rassert (v == v').

(** ** groth16/src/ext_wit.rs *)

(** ark-poly, [mul_polynomials_in_evaluation_domain]: asserts equal lengths, multiplies pointwise *)
Definition mul_evals (a b : seq F) : res (seq F) :=
  let! _ := rassert (size a == size b) in
  Ok (zipmap *%R a b).

(** ext_wit.rs:204-237 [libsnark_ref] *)
Definition libsnark_ref (a b c : seq F) : res (seq F) :=
  let a := ifft dom (a : seq (Fm F)) in
  let b := ifft dom (b : seq (Fm F)) in
  let c := ifft dom (c : seq (Fm F)) in
  let! coset_domain := unwrap (get_coset dom (ff_generator F)) in
  let a := fft coset_domain a in
  let b := fft coset_domain b in
  let c := fft coset_domain c in
  let! ab := mul_evals a b in
  let! z := inverse (eval_vanishing dom (ff_generator F)) in
  let ab := zipmap (fun ab_i c_i => (ab_i - c_i) * z) ab c in
  Ok (ifft coset_domain (ab : seq (Fm F))).

(** ext_wit.rs:239-285 [circom_ref] ([distribute_powers_and_mul_by_const] with the constant one) *)
Definition circom_ref (a b c : seq F) : res (seq F) :=
  let a := ifft dom (a : seq (Fm F)) in
  let b := ifft dom (b : seq (Fm F)) in
  let! root_of_unity := double_root dom in
  let a := distribute_powers a root_of_unity in
  let b := distribute_powers b root_of_unity in
  let a := fft dom a in
  let b := fft dom b in
  let! ab := mul_evals a b in
  let c := ifft dom (c : seq (Fm F)) in
  let c := distribute_powers c root_of_unity in
  let c := fft dom c in
  Ok (zipmap (fun ab_i c_i => ab_i - c_i) ab c).

(** ext_wit.rs:371-397, 500-525: what a party runs, with the [Vec] of the shares of the QAP *)
Definition libsnark_test_party (qap_shares : seq (qap_t F)) : pproc (seq F) :=
  pdo! q := plift (vget qap_shares me) in
  libsnark_h dbg pp n me ord cF q mask r.
Definition circom_test_party (qap_shares : seq (qap_t F)) (dmask : degred_mask (Fm F)) : pproc (seq F) :=
  pdo! q := plift (vget qap_shares me) in
  circom_h dbg pp n me ord cF q mask dmask r.

(** ext_wit.rs:288-409 [libsnark_dummy_ext_witness] and 412-537 [circom_dummy_ext_witness]: the last
    assertion *)
Definition libsnark_check (a b c : seq F) (result : seq (seq F)) : res unit :=
  let! expected_h := libsnark_ref a b c in
  let! computed_h := unpack2_rows result in
  rassert (expected_h == computed_h).
Definition circom_check (a b c : seq F) (result : seq (seq F)) : res unit :=
  let! expected_h := circom_ref a b c in
  let! computed_h := unpack2_rows result in
  rassert (expected_h == computed_h).

(** ** utils/deg_red.rs:143-191 [test_deg_red] *)

(** 148-152: the shares of the secrets, squared *)
Definition deg_red_shares (secrets : seq F) (r0 : rng F) : res (seq F) :=
  let! shares := pack dbg pp (secrets : seq (Fm F)) r0 in
  Ok [seq x * x | x <- shares].

Definition deg_red_party (mul_shares : seq F) (dmask : degred_mask (Fm F)) : cproc (seq F) :=
  do! mul_share := clift (vget mul_shares me) in
  deg_red dbg pp n me (ord 0%N) (T := Fm F) cF [:: mul_share] dmask (r 0%N).

(** 176-190 *)
Definition deg_red_check (secrets : seq F) (rs : received (seq F)) : res unit :=
  let expected := [seq x * x | x <- secrets] in
  let! sh := transpose (shares rs) in
  let! computed :=
    (if size (parties rs) == p_n pp then Ok (flatten [seq unpack pp (x : seq (Fm F)) | x <- sh])
     else let! parts := mapM (fun x => lagrange_unpack dbg pp (x : seq (Fm F)) (parties rs)) sh in
          Ok (flatten parts)) in
  rassert (computed == expected).

End Tests.
