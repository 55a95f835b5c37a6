(** secret-sharing/src/gao.rs: Gao decoding.  ark-poly's [DensePolynomial] is modelled by
    coefficient lists without trailing zeros. *)
From mathcomp Require Import all_ssreflect all_algebra.
From Verif Require Import Base ModelField ModelUtils ModelPss.
Set Implicit Arguments.
Unset Strict Implicit.
Unset Printing Implicit Defensive.
Import GRing.Theory.
Local Open Scope ring_scope.

Section DensePoly.
Variable F : fftField.

(** [DensePolynomial::from_coefficients_slice]: removes leading (trailing in the list) zeros *)
Definition dp_norm (s : seq F) : seq F :=
  foldr (fun a r => if (a == 0) && (r == [::]) then [::] else a :: r) [::] s.

(** [degree]: 0 for the zero polynomial *)
Definition dp_degree (p : seq F) : nat := (size p).-1.

Definition dp_sub (p q : seq F) : seq F :=
  dp_norm (mkseq (fun i => p`_i - q`_i) (maxn (size p) (size q))).

(** [&a * &b]: multiplication through an FFT of the product's length; panics
    ("field is not smooth enough to construct domain") when the field has no domain of that size.
    (Mixed-radix domains of fields with a small subgroup are not modelled.) *)
Definition dp_mul (p q : seq F) : res (seq F) :=
  if (p == [::]) || (q == [::]) then Ok [::]
  else let m := (size p + size q).-1 in
    let! _ := unwrap (domain_new F m) in
    Ok (dp_norm (mkseq (fun i => foldr (fun j acc => p`_j * q`_(i - j) + acc) 0 (iota 0 i.+1)) m)).

(** ark-poly long division loop: state is (quotient vector, remainder) *)
Fixpoint dp_div_loop (fuel : nat) (b : seq F) (quot rem : seq F) : seq F * seq F :=
  if fuel is fuel'.+1 then
    if (rem != [::]) && (dp_degree b <= dp_degree rem)%N then
      let c := last 0 rem * (last 0 b)^-1 in
      let k := (dp_degree rem - dp_degree b)%N in
      let rem' := dp_norm (mkseq (fun i =>
          if (k <= i)%N then rem`_i - c * b`_(i - k) else rem`_i) (size rem)) in
      dp_div_loop fuel' b (set_nth 0 quot k c) rem'
    else (quot, rem)
  else (quot, rem).

(** [divide_with_q_and_r]: panics on the zero divisor *)
Definition dp_divmod (a b : seq F) : res (seq F * seq F) :=
  if a == [::] then Ok ([::], [::])
  else if b == [::] then Panic
  else if (dp_degree a < dp_degree b)%N then Ok ([::], a)
  else let: (q, r) := dp_div_loop (size a) b (nseq (dp_degree a - dp_degree b).+1 0) a in
       Ok (dp_norm q, r).

(** gao.rs:32-42, the loop; state [(r, prev_r, s, prev_s)].  The fuel is never exhausted
    (proved in GaoProofs). *)
Fixpoint xgcd_loop (fuel : nat) (stop : nat) (r prev_r s prev_s : seq F)
  : res (seq F * seq F) :=
  if fuel is fuel'.+1 then
    if (stop <= dp_degree r)%N then
      let! qr := dp_divmod prev_r r in
      let q := qr.1 in
      let! m1 := dp_mul q r in
      let r' := dp_sub prev_r m1 in
      let! m2 := dp_mul q s in
      let s' := dp_sub prev_s m2 in
      xgcd_loop fuel' stop r' r s' s
    else Ok (r, s)
  else Panic.

(** gao.rs:11-45 [partial_xgcd] *)
Definition partial_xgcd (a b : seq F) (codelength dimension : nat) : res (seq F * seq F) :=
  let stop := ((dimension + codelength) %/ 2)%N in
  xgcd_loop (size b).+2 stop b a [:: 1] [::].

(** [domain.vanishing_polynomial().into()]: x^size - offset^size *)
Definition vanishing_poly (d : domain F) : seq F :=
  dp_norm (- d_offset d ^+ d_size d :: nseq (d_size d).-1 0 ++ [:: 1]).

(** gao.rs:47-84 [decode_to_message] *)
Definition decode_to_message (pp : pss F) (received : seq F) (codelength dimension : nat)
  : res (seq F) :=
  let r := dp_norm (ifft (T := [lmodType F of F^o]) (p_share pp) received) in
  let z := vanishing_poly (p_share pp) in
  let! q := partial_xgcd z r codelength dimension in
  let! hr := dp_divmod q.1 q.2 in
  let! _ := rassert (hr.2 == [::]) in
  Ok hr.1.

End DensePoly.
