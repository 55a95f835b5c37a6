(** Theorems about groth16/src/lib.rs and groth16/examples/local_groth_bench.rs. *)
From mathcomp Require Import all_ssreflect all_algebra.
From mathcomp Require Import zify.
From Verif Require Import Base ModelField ModelUtils ModelPss ModelPack ModelFft ModelNet ModelProto.
From Verif Require Import ModelDemo Spec SpecGroth.
From Verif Require Import FieldProofs UtilsProofs PssProofs DegProofs ExtProofs.
Set Implicit Arguments.
Unset Strict Implicit.
Unset Printing Implicit Defensive.
Import GRing.Theory.
Local Open Scope ring_scope.
Local Notation Fm F := [lmodType F of F^o].

Lemma doublingsE (T : zmodType) (g : T) len :
  doublings g len = Ok (mkseq (fun i => g *+ (2 ^ i)) len).
Proof.
rewrite /doublings; case: len => [|N] //=.
have H k : (k <= N)%N -> foldM (fun s i => let! x := vget s i.-1 in vset s i (x + x))
    (nseq N.+1 g) (iota 1 k) = Ok (mkseq (fun i => if (i <= k)%N then g *+ (2 ^ i) else g) N.+1).
  elim: k => [|k IH] le_k.
    congr Ok; apply: (@eq_from_nth _ 0); rewrite size_nseq ?size_mkseq // => i lt_i.
    by rewrite nth_nseq lt_i nth_mkseq // leqn0; case: eqP => [->|//]; rewrite expn0 mulr1n.
  rewrite -{1}[k.+1]addn1 iotaD foldM_cat (IH (ltnW le_k)) [rbind _ _]/= .
  rewrite (vget_nth 0) ?size_mkseq 1?ltnW // [rbind _ _]/= (vset_nth 0) ?size_mkseq //.
  cbn [rbind foldM]; rewrite add1n (nth_mkseq _ _ (leqW le_k)) leqnn -mulrnDr addnn -mul2n -expnS.
  have sz : size (set_nth 0 (mkseq (fun i => if (i <= k)%N then g *+ 2 ^ i else g) N.+1) k.+1
     (g *+ 2 ^ k.+1)) = N.+1 by rewrite size_set_nth size_mkseq; apply/maxn_idPr.
  congr Ok; apply: (@eq_from_nth _ 0); rewrite sz ?size_mkseq // => i lt_i.
  rewrite nth_set_nth /= !nth_mkseq //; case: eqP => [->|neq]; first by rewrite leqnn.
  by have -> : (i <= k.+1 = (i <= k))%N by lia.
rewrite H //; congr Ok; apply: (@eq_from_nth _ 0); rewrite !size_mkseq // => i lt_i.
by rewrite !nth_mkseq // -ltnS lt_i.
Qed.

Section Groth.
Variables (F : fftField) (cd : constraint_domain F).
  Local Notation m := (cd_m cd).
Hypotheses (ok1 : domain_ok (cd_constraint cd)) (ok2 : domain_ok (cd_constraint2 cd)).
Hypotheses (s1 : d_size (cd_constraint cd) = m) (s2 : d_size (cd_constraint2 cd) = (2 * m)%N).
Hypotheses (o1 : d_offset (cd_constraint cd) = 1).

Let coeffs (v : seq F) : seq F := ifft (cd_constraint cd) (v : seq (Fm F)).

Lemma size_coeffs v : size (coeffs v) = m.
Proof. by rewrite /coeffs -[RHS]s1; exact: (size_ifft (T := Fm F)). Qed.

Lemma coeffs_interp v : size v = m -> interpolates (d_gen (cd_constraint cd)) m v (Poly (coeffs v)).
Proof.
move=> sv; have sc := size_coeffs v.
split=> [|i lt_i]; first by rewrite -sc size_Poly.
rewrite -pval_horner -[in RHS](ifftK (T := Fm F) ok1 (v := v)) ?s1 //.
rewrite (fft_mkseq (T := Fm F)) ?s1 ?sc // nth_mkseq //.
by rewrite /element o1 mul1r.
Qed.

Lemma local_groth_hE p q w : size p = m -> size q = m -> size w = m ->
  local_groth_h cd p q w = Ok (mkseq (fun i =>
    (Poly (coeffs p) * Poly (coeffs q) - Poly (coeffs w))`_i) (2 * m)).
Proof.
move=> sp sq sw; set R := _ - _; set c := mkseq _ _.
have sc := size_coeffs.
have sz v : (size (Poly (coeffs v)) <= m)%N by rewrite -(sc v) size_Poly.
have sR : (size R <= 2 * m)%N.
  rewrite /R (leq_trans (size_add _ _)) // size_opp geq_max; apply/andP; split.
    rewrite (leq_trans (size_mul_leq _ _)) //; have := sz p; have := sz q; lia.
  by have := sz w; lia.
have Ev v : fft (cd_constraint2 cd) (ifft (cd_constraint cd) (v : seq (Fm F))) =
    mkseq (fun i => (Poly (coeffs v)).[element (cd_constraint2 cd) i]) (2 * m).
  rewrite (fft_mkseq (T := Fm F)) ?s2; last by rewrite (size_coeffs v); lia.
  by apply: eq_map => i; rewrite pval_horner.
rewrite /local_groth_h !Ev size_mkseq.
have Em1 (f : nat -> res F) (g : nat -> F) : (forall i, (i < 2 * m)%N -> f i = Ok (g i)) ->
    mapM f (iota 0 (2 * m)) = Ok (mkseq g (2 * m)).
  by move=> H; apply: mapM_ok => i0 i; rewrite size_iota => lt_i; rewrite nth_iota // add0n H.
rewrite (Em1 _ (fun i => R.[element (cd_constraint2 cd) i])); last first.
  move=> i lt_i; rewrite !(vget_nth 0) ?size_mkseq // !nth_mkseq //=.
  by rewrite /R hornerD hornerN hornerM.
cbn [rbind]; rewrite size_mkseq (Em1 _ (fun i => R.[element (cd_constraint2 cd) i])); last first.
  move=> i lt_i; rewrite !(vget_nth 0) ?size_nseq ?size_mkseq // nth_mkseq // nth_nseq lt_i /=.
  by rewrite mulr1.
cbn [rbind]; congr Ok.
have sz_c : size c = (2 * m)%N by rewrite size_mkseq.
rewrite -[RHS](fftK (T := Fm F) ok2 (c := c)) ?s2 //.
congr (ifft (T := Fm F) (cd_constraint2 cd) _).
rewrite (fft_mkseq (T := Fm F)) ?s2 ?sz_c //; apply: eq_map => i.
rewrite pval_horner; congr (_ .[_]); apply/polyP => j; rewrite coef_Poly.
case: (ltnP j (2 * m)) => lt_j; first by rewrite nth_mkseq.
by rewrite [RHS]nth_default ?sz_c // nth_default // (leq_trans sR).
Qed.

Lemma msm_sum (T : lmodType F) (f : nat -> T) (s : nat -> F) N :
  msm (mkseq f N) (mkseq s N) = Ok (\sum_(i < N) s i *: f i).
Proof.
rewrite /msm !size_mkseq eqxx foldr_sum size_zipmap !size_mkseq minnn; congr Ok.
by apply: eq_bigr => i _; rewrite (nth_zipmap _ 0 0) ?size_mkseq // !nth_mkseq.
Qed.

Lemma nseq_mkseq A (a : A) N : nseq N a = mkseq (fun _ => a) N.
Proof.
by apply: (@eq_from_nth _ a); rewrite size_nseq ?size_mkseq // => i lt_i; rewrite nth_nseq lt_i nth_mkseq.
Qed.

Lemma sum_doublings (T : lmodType F) (g : T) (a : F) N :
  \sum_(i < N) a *: (g *+ 2 ^ i) = (a * (2 ^ N - 1)%N%:R) *: g.
Proof.
elim: N => [|N IH]; first by rewrite big_ord0 expn0 subnn mulr0 scale0r.
rewrite big_ord_recr /= IH -scaler_nat scalerA -scalerDl; congr (_ *: _).
rewrite -mulrDr -natrD; congr (_ * _%:R); have : (0 < 2 ^ N)%N by rewrite expn_gt0.
by rewrite expnS; lia.
Qed.

Lemma local_grothE (G1 G2 : lmodType F) p q w (gs gu gw gh : G1) (gv : G2) a :
  size p = m -> size q = m -> size w = m ->
  let A := a * (2 ^ m - 1)%N%:R in
  local_groth cd p q w gs gu gw gh gv a =
    Ok (A *: gs, A *: gv, A *: gh + A *: gw +
        (Poly (coeffs p) * Poly (coeffs q) - Poly (coeffs w)).[2%:R] *: gu).
Proof.
move=> sp sq sw A; rewrite /local_groth local_groth_hE //; cbn [rbind].
set R := _ - _; have sR : (size R <= 2 * m)%N.
  have sz v : (size (Poly (coeffs v)) <= m)%N by rewrite -(size_coeffs v) size_Poly.
  rewrite /R (leq_trans (size_add _ _)) // size_opp geq_max; apply/andP; split.
    rewrite (leq_trans (size_mul_leq _ _)) //; have := sz p; have := sz q; lia.
  by have := sz w; lia.
rewrite !doublingsE; cbn [rbind]; rewrite size_mkseq nseq_mkseq mulnC !msm_sum; cbn [rbind].
rewrite !sum_doublings -/A; congr (Ok (_, _ + _)).
rewrite (horner_coef_wide _ sR) scaler_suml; apply: eq_bigr => i _.
by rewrite -scaler_nat scalerA natrX.
Qed.

End Groth.

(*** theorems ***)

(** C65: for a power of two the two domains of the constraint system exist exactly if the field has
    roots of unity of twice that order; then they have the sizes that the assertions ask for. *)
Lemma c65_constraint_domain (F : fftField) dbg k :
  if (k < ff_two_adicity F)%N then
    exists cd, [/\ constraint_domain_new F dbg (2 ^ k) = Ok cd, cd_m cd = (2 ^ k)%N,
      d_size (cd_constraint cd) = (2 ^ k)%N, d_size (cd_constraint2 cd) = (2 * 2 ^ k)%N &
      (2 ^ k)%N.-primitive_root (d_gen (cd_constraint cd)) /\
      (2 * 2 ^ k)%N.-primitive_root (d_gen (cd_constraint2 cd))]
  else constraint_domain_new F dbg (2 ^ k) = Panic.
Proof.
have E j : up_log 2 (2 ^ j) = j by rewrite up_expnK.
rewrite /constraint_domain_new -expnS.
case: ltnP => Hk.
  have [d1 E1] : exists d, domain_new F (2 ^ k) = Some d.
    by rewrite /domain_new /get_root_of_unity E (ltnW Hk); eexists.
  have [d2 E2] : exists d, domain_new F (2 ^ k.+1) = Some d.
    by rewrite /domain_new /get_root_of_unity E Hk; eexists.
  have [ok1 S1 _ _] := domain_new_ok E1; have [ok2 S2 _ _] := domain_new_ok E2.
  rewrite /next_pow2 E in S1; rewrite /next_pow2 E in S2.
  rewrite E1 E2; cbn [unwrap rbind]; rewrite S1 S2 !eqxx /dassert implybT; cbn [rbind].
  eexists; split; [by []|by []|by []|by []|].
  by case: ok1 => + _ _ _ _ _; case: ok2 => + _ _ _ _ _; rewrite /= S1 S2.
have -> : domain_new F (2 ^ k.+1) = None.
  by rewrite /domain_new /get_root_of_unity E leqNgt ltnS Hk.
by rewrite [unwrap None]/=; case: (domain_new F (2 ^ k)).
Qed.

(** C65: in a debug build no other size is accepted *)
Lemma c65_constraint_domain_pow2 (F : fftField) m cd :
  constraint_domain_new F true m = Ok cd -> exists k, m = (2 ^ k)%N.
Proof.
rewrite /constraint_domain_new; case E1: (domain_new F m) => [d|//]; cbn [unwrap rbind].
case: (domain_new F (2 * m)) => [d2|//]; cbn [unwrap rbind]; rewrite /dassert.
case: eqP => // Em _; have [_ S _ _] := domain_new_ok E1.
by exists (up_log 2 m); rewrite -{1}Em S.
Qed.

(** C65: the single-machine prover of the benchmark.  Whatever the three vectors of values, it comes
    to an end; its multi-scalar multiplications fit; the coefficients it multiplies with the fifth
    vector of points are those of P * Q - W, none of which is lost. *)
Lemma c65_local_groth (F : fftField) (G1 G2 : lmodType F) dbg k cd (p q w : seq F)
    (gs gu gw gh : G1) (gv : G2) (a : F) :
  constraint_domain_new F dbg (2 ^ k) = Ok cd ->
  size p = (2 ^ k)%N -> size q = (2 ^ k)%N -> size w = (2 ^ k)%N ->
  exists P Q W : {poly F},
    [/\ interpolates (d_gen (cd_constraint cd)) (2 ^ k) p P,
        interpolates (d_gen (cd_constraint cd)) (2 ^ k) q Q,
        interpolates (d_gen (cd_constraint cd)) (2 ^ k) w W,
        local_groth_h cd p q w = Ok (mkseq (fun i => (P * Q - W)`_i) (2 * 2 ^ k)) /\
          (size (P * Q - W)%R <= 2 * 2 ^ k)%N &
        let A := a * (2 ^ (2 ^ k) - 1)%N%:R in
        local_groth cd p q w gs gu gw gh gv a =
          Ok (A *: gs, A *: gv, A *: gh + A *: gw + (P * Q - W).[2%:R] *: gu)].
Proof.
have E j : up_log 2 (2 ^ j) = j by rewrite up_expnK.
rewrite /constraint_domain_new -expnS.
case E1: (domain_new F (2 ^ k)) => [d1|//]; case E2: (domain_new F (2 ^ k.+1)) => [d2|//].
have [ok1 S1 O1 _] := domain_new_ok E1; have [ok2 S2 _ _] := domain_new_ok E2.
rewrite /next_pow2 E in S1; rewrite /next_pow2 E in S2.
cbn [unwrap rbind]; rewrite S1 S2 !eqxx /dassert implybT; cbn [rbind] => Ecd.
rewrite -(Ok_inj Ecd) {Ecd} => sp sq sw.
set cd' := ConstraintDomain _ _ _; rewrite expnS in S2.
have h1 : domain_ok (cd_constraint cd') by [].
have h2 : domain_ok (cd_constraint2 cd') by [].
have h3 : d_size (cd_constraint cd') = cd_m cd' by [].
have h4 : d_size (cd_constraint2 cd') = (2 * cd_m cd')%N by [].
pose c v := Poly (ifft d1 (v : seq (Fm F)) : seq F).
exists (c p), (c q), (c w); split.
- exact: (coeffs_interp h1 h3 O1).
- exact: (coeffs_interp h1 h3 O1).
- exact: (coeffs_interp h1 h3 O1).
- rewrite expnS; split; first exact: (local_groth_hE h2 h3 h4).
  have sz v : (size (c v) <= 2 ^ k)%N.
    by rewrite (leq_trans (size_Poly _)) // -S1 (size_ifft (T := Fm F)).
  rewrite (leq_trans (size_add _ _)) // size_opp geq_max; apply/andP; split.
    rewrite (leq_trans (size_mul_leq _ _)) //; have := sz p; have := sz q; lia.
  by have := sz w; lia.
exact: (local_grothE h2 h3 h4).
Qed.

(** C65: with the values [0 .. m - 1] that the program takes for all three vectors *)
Lemma c65_local_groth_input (F : fftField) (G1 G2 : lmodType F) dbg k cd (gs gu gw gh : G1) (gv : G2) (a : F) :
  constraint_domain_new F dbg (2 ^ k) = Ok cd ->
  let x := local_groth_input cd in
  exists P : {poly F},
    [/\ (size P <= 2 ^ k)%N,
        forall i, (i < 2 ^ k)%N -> P.[d_gen (cd_constraint cd) ^+ i] = i%:R,
        size x = (2 ^ k)%N &
        let A := a * (2 ^ (2 ^ k) - 1)%N%:R in
        local_groth cd x x x gs gu gw gh gv a =
          Ok (A *: gs, A *: gv, A *: gh + A *: gw + (P * P - P).[2%:R] *: gu)].
Proof.
move=> Ecd x; have := c65_constraint_domain F dbg k; case: ifP => _; last by rewrite Ecd.
case=> cd1 []; rewrite Ecd => -[E1] Em _ _ [pr _]; rewrite -{cd1}E1 in Em pr.
have sx : size x = (2 ^ k)%N by rewrite size_mkseq Em.
have [P [Q [W [HP HQ HW _ E]]]] := c65_local_groth gs gu gw gh gv a Ecd sx sx sx.
exists P; split=> //; first by case: HP.
  by case: HP => _ HP i lt_i; rewrite HP // nth_mkseq ?Em.
by rewrite E (interp_unique pr HQ HP) (interp_unique pr HW HP).
Qed.
