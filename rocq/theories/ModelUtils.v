(** secret-sharing/src/utils.rs: polynomial helpers, with their loops and panics. *)
From mathcomp Require Import all_ssreflect all_algebra.
From Verif Require Import Base ModelField.
Set Implicit Arguments.
Unset Strict Implicit.
Unset Printing Implicit Defensive.
Import GRing.Theory.
Local Open Scope ring_scope.

Section Utils.
Variable F : fftField.

(** utils.rs:7-15 [eval] *)
Definition eval (p : seq F) (x : F) : F :=
  foldl (fun acc coeff => acc * x + coeff) 0 (rev p).

(** utils.rs:18-23 [eval_many] *)
Definition eval_many (p xs : seq F) : seq F := [seq eval p x | x <- xs].

(** utils.rs:47-54, the branch for [a == 1]: traverses the slice from the end, keeping the
    running remainder [c]; [mem::swap] stores the previous remainder. *)
Definition syn_div1 (p : seq F) (b : F) : seq F :=
  (foldr (fun coeff st => (coeff + b * st.1, st.1 :: st.2)) (0, [::]) p).2.

(** utils.rs:59-72, the branch for larger [a]; [copy_within] then [fill]. *)
Definition syn_div_gen (p : seq F) (a : nat) (b : F) : res (seq F) :=
  let off := (size p - a)%N in
  let! p1 := foldM (fun p i =>
      let! x := vget p i in let! y := vget p (i + a) in
      vset p i (if b == 1 then x + y else x + y * b)) p (rev (iota 0 off)) in
  let p2 := drop a p1 ++ drop (size p1 - a) p1 in
  Ok (take off p2 ++ nseq (size p2 - off) 0).

(** utils.rs:27-74 [syn_div], [syn_div_in_place] *)
Definition syn_div (p : seq F) (a : nat) (b : F) : res (seq F) :=
  let! _ := rassert (a != 0%N) in
  let! _ := rassert (b != 0) in
  let! _ := rassert (a < size p)%N in
  if a == 1%N then Ok (syn_div1 p b) else syn_div_gen p a b.

(** utils.rs:120-136 [get_zero_roots] *)
Definition get_zero_roots (xs : seq F) : res (seq F) :=
  let m := size xs in
  let! r0 := vset (nseq m.+1 0) m 1 in
  foldM (fun r i =>
      let n := (m - i.+1)%N in
      let! r1 := vset r n 0 in
      foldM (fun r j =>
          let! a := vget r j in let! b := vget r j.+1 in let! x := vget xs i in
          vset r j (a - b * x)) r1 (iota n (m - n)))
    r0 (iota 0 m).

(** [ark_ff::batch_inversion]: inverts the non-zero entries, leaves zeros. *)
Definition batch_inversion (v : seq F) : seq F := [seq x^-1 | x <- v].

Section Module.
Variable T : lmodType F.

(** utils.rs:105-113: drop trailing zeros, unless everything is zero *)
Definition truncate_zeros (r : seq T) : seq T :=
  take (head (size r) [seq i.+1 | i <- rev (iota 0 (size r)) & nth 0 r i != 0]) r.

(** utils.rs:78-116 [lagrange_interpolate] *)
Definition lagrange_interpolate (xs : seq F) (ys : seq T) : res (seq T) :=
  let! roots := get_zero_roots xs in
  let! numerators := mapM (fun x => syn_div roots 1 x) xs in
  let denominators := batch_inversion (zipmap eval numerators xs) in
  let! result := foldM (fun res i =>
      let! y := vget ys i in
      let! d := vget denominators i in
      let ysl := d *: y in
      let! nums := vget numerators i in
      mapM (fun j => let! r := vget res j in let! c := vget nums j in Ok (r + c *: ysl))
           (iota 0 (size res)))
    (nseq (size numerators) 0) (iota 0 (size ys)) in
  Ok (truncate_zeros result).

End Module.
End Utils.
