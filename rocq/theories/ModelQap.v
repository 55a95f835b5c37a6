(** groth16/src/qap.rs and groth16/src/ext_wit.rs: the QAP, its sharing and the witness extension. *)
From mathcomp Require Import all_ssreflect all_algebra.
From Verif Require Import Base ModelField ModelUtils ModelPss ModelPack ModelFft ModelNet ModelProto.
Set Implicit Arguments.
Unset Strict Implicit.
Unset Printing Implicit Defensive.
Import GRing.Theory.
Local Open Scope ring_scope.

(** local computation of a party between two phases *)
Definition plift A (r : res A) : pproc A := PRet r.

Notation "'pdo!' x ':=' m 'in' k" := (pbind m (fun x => k))
  (at level 200, x pattern, m at level 100, k at level 200, right associativity).

(** [tokio::try_join!] of three futures on the streams Zero, One and Two *)
Definition try_join3 A (t0 t1 t2 : cproc A) : pproc (A * A * A) :=
  PJoin [:: (0%N, t0); (1%N, t1); (2%N, t2)]
    (fun rs => PRet (if rs is [:: a; b; c] then Ok (a, b, c) else Panic)).

Section Qap.
Variable F : fftField.

(** ark_relations [ConstraintMatrices] (fields used; a row is a list of (coefficient, index)) *)
Record matrices := Matrices {
  num_instance_variables : nat;
  cm_num_constraints : nat;
  cm_a : seq (seq (F * nat));
  cm_b : seq (seq (F * nat))
}.

(** qap.rs:12-26 [QAP]; the evaluation domain [D] is the radix-2 domain in all uses *)
Record qap_t := Qap {
  num_inputs : nat;
  num_constraints : nat;
  q_a : seq F;
  q_b : seq F;
  q_c : seq F;
  q_domain : domain F
}.

(** ark_groth16 [r1cs_to_qap::evaluate_constraint] (called at qap.rs:63-64): [assignment[index]] is
    bounds checked; the special case of coefficient one is not distinguished *)
Definition evaluate_constraint (terms : seq (F * nat)) (assignment : seq F) : res F :=
  foldM (fun sum (t : F * nat) => let! val := vget assignment t.2 in Ok (sum + val * t.1)) 0 terms.

(** qap.rs:42-89 [qap].  The [for_each] over the zipped slices is the loop over the common length;
    the only error, [SynthesisError::PolynomialDegreeTooLarge], is [Err Generic] here. *)
Definition qap (m : matrices) (full_assignment : seq F) : res qap_t :=
  let num_inputs := num_instance_variables m in
  let num_constraints := cm_num_constraints m in
  let! domain := (if domain_new F (num_constraints + num_inputs) is Some d then Ok d
                  else Err Generic) in
  let domain_size := d_size domain in
  let a := nseq domain_size 0 in
  let b := nseq domain_size 0 in
  let! _ := rassert (num_constraints <= domain_size)%N in
  let! ab := foldM (fun (ab : seq F * seq F) i =>
      let! at_i := vget (cm_a m) i in
      let! bt_i := vget (cm_b m) i in
      let! va := evaluate_constraint at_i full_assignment in
      let! a := vset ab.1 i va in
      let! vb := evaluate_constraint bt_i full_assignment in
      let! b := vset ab.2 i vb in
      Ok (a, b))
    (a, b) (iota 0 (minn num_constraints (minn (size (cm_a m)) (size (cm_b m))))) in
  let a := ab.1 in
  let b := ab.2 in
  let! _ := rassert (num_inputs <= size full_assignment)%N in
  let! _ := rassert (num_constraints + num_inputs <= size a)%N in
  let! a := foldM (fun a i => let! x := vget full_assignment i in vset a (num_constraints + i) x)
                  a (iota 0 num_inputs) in
  let c := nseq domain_size 0 in
  let! c := foldM (fun c i => let! x := vget a i in let! y := vget b i in vset c i (x * y))
                  c (iota 0 num_constraints) in
  Ok (Qap num_inputs num_constraints a b c domain).

Variables (dbg : bool) (pp : pss F).

(** qap.rs:100-113, the closure [pack]; one generator is used for the three calls, [r] starts at
    the values of the call at hand *)
Definition qap_pack (x : seq F) (r : rng F) : res (seq (seq F)) :=
  let! x := fft_rearrange x in pack_strided dbg pp (x : seq F^o) r.

(** qap.rs:91-135 [QAP::pss].  [r] is the generator [test_rng()] of line 99. *)
Definition qap_pss (q : qap_t) (r : rng F) : res (seq qap_t) :=
  let used (x : seq F) := (size x %/ p_l pp * p_t pp)%N in
  let! packed_a := qap_pack (q_a q) r in
  let! packed_b := qap_pack (q_b q) (rskip (used (q_a q)) r) in
  let! packed_c := qap_pack (q_c q) (rskip (used (q_a q) + used (q_b q)) r) in
  mapM (fun i =>
      let! a := mapM (fun x => vget x i) packed_a in
      let! b := mapM (fun x => vget x i) packed_b in
      let! c := mapM (fun x => vget x i) packed_c in
      Ok (Qap (num_inputs q) (num_constraints q) a b c (q_domain q)))
    (iota 0 (p_n pp)).

(** [x.inverse().unwrap()] *)
Definition inverse (x : F) : res F := unwrap (if x == 0 then None else Some x^-1).

Variables (n me : nat) (ord : nat -> hash_order) (cF : codec F).

Definition no_mask : fft_mask F := FftMask [::] [::].

(** ext_wit.rs:14-102 [libsnark_h]; [ord i] and [r i] are the hash order and the random values of
    the king in the [i]-th transform *)
Definition libsnark_h (q : qap_t) (mask : seq (fft_mask F)) (r : nat -> rng F) : pproc (seq F) :=
  let dom := q_domain q in
  let m i := nth no_mask mask i in
  pdo! coset_dom := plift (unwrap (get_coset dom (ff_generator F))) in
  let inv i x := d_ifft dbg pp n me (ord i) cF x (m i) true dom (d_offset coset_dom) (r i) in
  let fwd i x := d_fft dbg pp n me (ord i) cF x (m i) true dom (r i) in
  pdo! (a_coeff, b_coeff, c_coeff) :=
    try_join3 (inv 0%N (q_a q)) (inv 1%N (q_b q)) (inv 2%N (q_c q)) in
  pdo! (a_eval, b_eval, c_eval) :=
    try_join3 (fwd 3%N a_coeff) (fwd 4%N b_coeff) (fwd 5%N c_coeff) in
  pdo! z := plift (inverse (eval_vanishing dom (ff_generator F))) in
  let h_eval := zipmap (fun ab c => (ab.1 * ab.2 - c) * z) (zip a_eval b_eval) c_eval in
  pthread 0 (d_ifft dbg pp n me (ord 6) cF h_eval (m 6%N) false dom (d_offset_inv coset_dom) (r 6%N)).

(** ext_wit.rs:120-125 *)
Definition double_root (dom : domain F) : res F :=
  let! d := unwrap (domain_new F (2 * d_size dom)) in Ok (element d 1).

(** ext_wit.rs:104-181 [circom_h]; entry 6 of [ord] and [r] belongs to the degree reduction *)
Definition circom_h (q : qap_t) (mask : seq (fft_mask F)) (dmask : degred_mask [lmodType F of F^o])
    (r : nat -> rng F) : pproc (seq F) :=
  let dom := q_domain q in
  let m i := nth no_mask mask i in
  pdo! root_of_unity := plift (double_root dom) in
  let inv i x := d_ifft dbg pp n me (ord i) cF x (m i) true dom root_of_unity (r i) in
  let fwd i x := d_fft dbg pp n me (ord i) cF x (m i) false dom (r i) in
  pdo! (a_coeff, b_coeff, c_coeff) :=
    try_join3 (inv 0%N (q_a q)) (inv 1%N (q_b q)) (inv 2%N (q_c q)) in
  pdo! (a_eval, b_eval, c_eval) :=
    try_join3 (fwd 3%N a_coeff) (fwd 4%N b_coeff) (fwd 5%N c_coeff) in
  let h_eval := zipmap (fun ab c => ab.1 * ab.2 - c) (zip a_eval b_eval) c_eval in
  pthread 0 (deg_red dbg pp n me (ord 6) (T := [lmodType F of F^o]) cF h_eval dmask (r 6%N)).

End Qap.
