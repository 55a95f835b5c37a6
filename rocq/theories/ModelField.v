(** Fields with FFT data, radix-2 evaluation domains and their transforms.

    This is the part of arkworks (ark-ff / ark-poly 0.4) the repository builds on; it is not
    in /repo and is modelled by its documented mathematical behaviour.  In particular
    [fft_in_place]/[ifft_in_place] are modelled by pointwise Horner evaluation, not by the
    butterfly implementation of ark-poly. *)
From mathcomp Require Import all_ssreflect all_algebra.
From Verif Require Import Base.
Set Implicit Arguments.
Unset Strict Implicit.
Unset Printing Implicit Defensive.
Import GRing.Theory.
Local Open Scope ring_scope.

(** [F: FftField]: a field with [F::GENERATOR], [F::TWO_ADICITY] and
    [F::TWO_ADIC_ROOT_OF_UNITY] (used throughout, e.g. secret-sharing/src/pss.rs:44-52). *)
Record fftField := FftField {
  ff_sort :> fieldType;
  ff_generator : ff_sort;
  ff_two_adicity : nat;
  ff_root : ff_sort;
  ff_generator_neq0 : ff_generator != 0;
  ff_rootP : (2 ^ ff_two_adicity)%N.-primitive_root ff_root
}.

(** [Radix2EvaluationDomain<F>] (fields used: size, size_inv, group_gen, group_gen_inv,
    offset, offset_inv). *)
Record domain (F : fftField) := Domain {
  d_size : nat;
  d_size_inv : F;
  d_gen : F;
  d_gen_inv : F;
  d_offset : F;
  d_offset_inv : F
}.

Section Field.
Variable F : fftField.

(** [usize::next_power_of_two] *)
Definition next_pow2 (num : nat) : nat := (2 ^ up_log 2 num)%N.

(** [F::get_root_of_unity(2^k)]: the two-adic root squared [two_adicity - k] times. *)
Definition get_root_of_unity (k : nat) : option F :=
  if (k <= ff_two_adicity F)%N then Some (ff_root F ^+ (2 ^ (ff_two_adicity F - k)))
  else None.

(** [Radix2EvaluationDomain::new(num_coeffs)] (called at pss.rs:44-51, qap.rs:44,
    ext_wit.rs:30, 186 ...): rounds the size up to a power of two, [None] when the
    field has no such root of unity. *)
Definition domain_new (num : nat) : option (domain F) :=
  let k := up_log 2 num in
  if get_root_of_unity k is Some g then
    Some (Domain (2 ^ k)%N (((2 ^ k)%N)%:R^-1) g g^-1 1 1)
  else None.

(** [domain.get_coset(offset)]: [None] for the zero offset. *)
Definition get_coset (d : domain F) (g : F) : option (domain F) :=
  if g == 0 then None
  else Some (Domain (d_size d) (d_size_inv d) (d_gen d) (d_gen_inv d) g g^-1).

(** [domain.element(i)] *)
Definition element (d : domain F) (i : nat) : F := d_offset d * d_gen d ^+ i.

(** [domain.elements().collect()] *)
Definition elements (d : domain F) : seq F := mkseq (element d) (d_size d).

(** [domain.evaluate_vanishing_polynomial(tau)] *)
Definition eval_vanishing (d : domain F) (tau : F) : F :=
  tau ^+ d_size d - d_offset d ^+ d_size d.

Section Module.
(** [T: DomainCoeff<F>]: an additive group with scalar multiplication by [F]. *)
Variable T : lmodType F.

(** value at [x] of the polynomial with coefficient vector [c] (increasing degree) *)
Definition heval (x : F) (c : seq T) : T := foldr (fun a acc => a + x *: acc) 0 c.

(** [domain.fft_in_place(&mut c)]: resize to the domain size, then evaluate on the domain. *)
Definition fft (d : domain F) (c : seq T) : seq T :=
  let c' := resize 0 (d_size d) c in
  mkseq (fun i => heval (element d i) c') (d_size d).

(** [domain.ifft_in_place(&mut v)]: resize to the domain size, inverse transform, undo
    the offset. *)
Definition ifft (d : domain F) (v : seq T) : seq T :=
  let v' := resize 0 (d_size d) v in
  mkseq (fun j => (d_offset_inv d ^+ j * d_size_inv d) *: heval (d_gen_inv d ^+ j) v')
        (d_size d).

(** [Radix2EvaluationDomain::distribute_powers(&mut v, g)] (used at dfft/mod.rs:49, 279):
    multiplies entry [i] by [g^i]. *)
Definition distribute_powers (v : seq T) (g : F) : seq T :=
  (fix go (p : F) (v : seq T) := if v is x :: v' then p *: x :: go (p * g) v' else [::]) 1 v.

End Module.
End Field.
