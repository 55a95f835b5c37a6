(** Statements about the local parts of the distributed transforms (C20, C21). *)
From mathcomp Require Import all_ssreflect all_algebra.
From mathcomp Require Import zify.
From Verif Require Import RingTac Base ModelField ModelUtils ModelPss ModelPack ModelFft Spec.
From Verif Require Import FieldProofs UtilsProofs PssProofs PackProofs FftProofs ExampleField.
Set Implicit Arguments.
Unset Strict Implicit.
Unset Printing Implicit Defensive.
Import GRing.Theory.
Local Open Scope ring_scope.

(*** theorems ***)

(** C20: element [i] goes to the position whose [k] bits are those of [i] in reverse order; doing it
    twice restores the vector. *)
Lemma c20_bit_reversal (A : Type) (x0 : A) (s : seq A) k : size s = (2 ^ k)%N ->
  exists r, [/\ fft_rearrange s = Ok r, size r = (2 ^ k)%N,
    (forall i j, (i < 2 ^ k)%N -> (j < 2 ^ k)%N ->
       (forall b, (b < k)%N -> Nat.testbit j b = Nat.testbit i (k - b.+1)) ->
       nth x0 r j = nth x0 s i) &
    fft_rearrange r = Ok s].
Proof.
move=> ss; rewrite (fft_rearrangeP x0 ss); eexists; split; first by [].
- by rewrite size_mkseq.
- move=> i j lt_i lt_j Hb; suff -> : j = bitrev k i by rewrite nth_mkseq ?bitrev_lt // bitrevK.
  apply: PeanoNat.Nat.bits_inj => b; case: (ltnP b k) => lt_b.
    by rewrite Hb // testbit_bitrev.
  have hi x : (x < 2 ^ k)%N -> Nat.testbit x b = false.
    move=> lt_x; rewrite -[x](PeanoNat.Nat.mod_small _ (Nat.pow 2 k)); last first.
      by rewrite -expn_pow; apply/ltP.
    by rewrite PeanoNat.Nat.mod_pow2_bits_high //; apply/leP.
  by rewrite !hi ?bitrev_lt.
- rewrite (fft_rearrangeP x0 (k := k)) ?size_mkseq //; congr Ok.
  apply: (@eq_from_nth _ x0); rewrite size_mkseq ?ss // => i lt_i.
  by rewrite !nth_mkseq ?bitrev_lt // bitrevK.
Qed.

(** C20: the multiset of entries is preserved. *)
Lemma c20_permutation (A : eqType) (s : seq A) k r : size s = (2 ^ k)%N ->
  fft_rearrange s = Ok r -> perm_eq r s.
Proof.
case: s => [|x0 s'] ss; first by move: ss (expn_gt0 2 k) => /= <-.
rewrite (fft_rearrangeP x0 ss) => -[<-]; set s := x0 :: s'.
have Es : s = map (nth x0 s) (iota 0 (2 ^ k)) by rewrite -ss -/(mkseq _ _) mkseq_nth.
rewrite [X in perm_eq _ X]Es /mkseq (map_comp (nth x0 s) (bitrev k)).
apply: perm_map; apply: uniq_perm; rewrite ?iota_uniq //.
- rewrite map_inj_in_uniq ?iota_uniq // => i j; rewrite !mem_iota !add0n /= => Hi Hj E.
  by rewrite -(bitrevK Hi) E bitrevK.
- move=> i; apply/mapP/idP => [[j _ ->]|]; rewrite mem_iota add0n /= ?bitrev_lt // => lt_i.
  by exists (bitrev k i); rewrite ?bitrevK // mem_iota add0n /= bitrev_lt.
Qed.

(** C21: rearrange, let slot [j] be the [j]-th block of the rearranged vector, apply the parties'
    stage to every slot and the king's stage to the interleaved result: this is the discrete
    Fourier transform at the successive powers of [gen]. *)
Lemma c21_split_dft (F : fftField) (pp : pss F) (gen : F) b lam (c : seq F) :
  p_l pp = (2 ^ lam)%N -> (2 ^ (b + lam))%N.-primitive_root gen -> size c = (2 ^ (b + lam))%N ->
  exists (d : seq F) (v : nat -> seq F),
  [/\ fft_rearrange c = Ok d,
    (forall j, (j < 2 ^ lam)%N -> fft1 pp (take (2 ^ b) (drop (j * 2 ^ b) d)) gen = Ok (v j)) &
    fft2 pp (mkseq (fun q => (v (q %% 2 ^ lam)%N)`_(q %/ 2 ^ lam)) (2 ^ (b + lam))) gen =
      Ok (mkseq (fun i => \sum_(e < 2 ^ (b + lam)) c`_e * gen ^+ (i * e)) (2 ^ (b + lam)))].
Proof.
move=> El pr sc; pose d := mkseq (fun i => c`_(bitrev (b + lam) i)) (2 ^ (b + lam)).
have b0 : (0 < 2 ^ b)%N by rewrite expn_gt0.
have sd j : (j < 2 ^ lam)%N -> size (take (2 ^ b) (drop (j * 2 ^ b) d)) = (2 ^ b)%N.
  move=> lt_j; rewrite size_takel // size_drop size_mkseq expnD mulnC -mulnBl.
  by apply: leq_pmull; lia.
pose v j := get_ok [::] (fft1 pp (take (2 ^ b) (drop (j * 2 ^ b) d)) gen).
have Ev j : (j < 2 ^ lam)%N -> fft1 pp (take (2 ^ b) (drop (j * 2 ^ b) d)) gen =
    Ok (mkseq (fun k => bsum gen (2 ^ lam) b k
      (nth 0 (take (2 ^ b) (drop (j * 2 ^ b) d)))) (2 ^ b)).
  move=> lt_j; apply: fft1P => //; first exact: sd.
  by move=> K EK; apply: half_root; rewrite EK.
exists d, v; split; first exact: fft_rearrangeP.
  by move=> j lt_j; rewrite /v Ev.
rewrite (@split_fft F pp gen b lam c) // ?size_mkseq //.
  congr Ok; apply: eq_map => i; rewrite /pval sc; apply: eq_bigr => e _.
  by rewrite exprM mulrC.
move=> i j lt_i lt_j; rewrite nth_mkseq; last first.
  by rewrite expnD; move: (2 ^ b)%N (2 ^ lam)%N lt_i lt_j => X Y; nia.
rewrite modnMDl (modn_small lt_j) divnMDl ?(divn_small lt_j) ?addn0 ?expn_gt0 //.
rewrite /v Ev // [get_ok _ _]/= nth_mkseq //; apply: eq_bsum => e lt_e.
rewrite nth_take // nth_drop nth_mkseq // expnD; move: (2 ^ b)%N (2 ^ lam)%N lt_e lt_j => X Y; nia.
Qed.
