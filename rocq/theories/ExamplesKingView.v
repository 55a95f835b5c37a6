(** Instances of C61 over the field of 17 elements with n = 8, l = t = 2. *)
From mathcomp Require Import all_ssreflect all_algebra.
From mathcomp Require Import zify.
From Verif Require Import Base ModelField ModelPss ModelPack ModelFft ModelNet ModelProto ModelQap.
From Verif Require Import ModelProve ModelMain Spec SpecNet SpecView SpecKing SpecProto SpecGroth SpecVerify.
From Verif Require Import ExampleField PssProofs ProtoProofs DegProofs HideThm ExamplesNet ExamplesProto.
From Verif Require Import ExamplesGroth ExamplesView PropertiesKingView.
Set Implicit Arguments.
Unset Strict Implicit.
Unset Printing Implicit Defensive.
Import GRing.Theory.
Local Open Scope ring_scope.

(** values of polynomials that [vm_compute] can compute *)
Definition hv (x : F17) (c : seq F17) : F17 := foldr (fun a v => a + x * v) 0 c.
Lemma pval_hv x (c : seq F17) : pval (T := T17) x c = hv x c.
Proof.
rewrite /pval; elim: c => [|a c IH]; first by rewrite big_ord0.
rewrite [size _]/= big_ord_recl expr0 scale1r; rewrite [hv x _]/= -/(hv x c) -IH; congr (_ + _).
by rewrite mulr_sumr; apply: eq_bigr => i _; rewrite exprS -scalerA.
Qed.
Lemma hvN x c : hv x (map -%R c) = - hv x c.
Proof. by elim: c => [|a c IH] /=; rewrite ?oppr0 // -!/(hv x _) IH mulrN opprD. Qed.

(** the shares that come from polynomials, one for each entry *)
Definition sh_poly (cs : seq (seq F17)) (p : nat) : seq F17 := [seq hv (share_pt pp2 p) c | c <- cs].
Definition sec_poly (cs : seq (seq F17)) (e j : nat) : F17 := hv (secret_pt pp2 j) (nth [::] cs e).
Lemma poly_shared d cs : all (fun c => size c <= d)%N cs ->
  vsharing (T := T17) pp2 d (size cs) (sh_poly cs) (sec_poly cs).
Proof.
move=> /allP H; split=> [p _|e lt_e]; first by rewrite size_map.
exists (nth [::] cs e); split; first by apply/H/mem_nth.
- by apply: eq_mkseq => p; rewrite (nth_map [::]) // pval_hv.
- by apply: eq_mkseq => p; rewrite pval_hv.
Qed.

(** the king and party 5 *)
Definition with_king : seq nat := [:: 0; 5]%N.
(** a polynomial that is zero for both *)
Definition zero05 : seq F17 :=
  [:: share_pt pp2 0 * share_pt pp2 5; - (share_pt pp2 0 + share_pt pp2 5); 1].
Example zero05_is : [seq hv (share_pt pp2 p) zero05 == 0 | p <- iota 0 8] =
  [:: true; false; false; false; false; true; false; false].
Proof. by vm_compute. Qed.
Definition plus05 (c : seq F17) : seq F17 := mkseq (fun i => c`_i + zero05`_i) (maxn (size c) (size zero05)).

(** two polynomials with the same upper coefficients and different secrets *)
Definition prod1 : seq (seq F17) := [:: nums [:: 1; 2; 3; 4; 5; 6; 7]%N].
Definition prod2 : seq (seq F17) := map plus05 prod1.
Lemma plus05_val x c : (2 < size c)%N -> hv x (plus05 c) = hv x c + hv x zero05.
Proof.
move=> sc; rewrite -!pval_hv /plus05 (maxn_idPl sc) /pval size_mkseq.
rewrite (big_ord_widen _ (fun i => x ^+ i *: (zero05`_i : T17)) sc) [X in _ = _ + X]big_mkcond /=.
rewrite (eq_bigr (fun i : 'I_(size c) => x ^+ i *: (c`_i : T17) + (if (i < 3)%N then x ^+ i *: (zero05`_i : T17) else 0))).
  exact: big_split.
move=> i _; rewrite nth_mkseq // (scalerDr (V := T17)); congr (_ + _); case: ltnP => // le_i.
by rewrite (nth_default _ (le_i : (size zero05 <= i)%N)) scaler0.
Qed.
Lemma agree05 cs p : all (fun c => 2 < size c)%N cs -> p \in with_king -> sh_poly cs p = sh_poly (map plus05 cs) p.
Proof.
move=> /allP H pP; rewrite /sh_poly -map_comp; apply/eq_in_map => c /H{H} /= sc.
rewrite plus05_val //; have -> : hv (share_pt pp2 p) zero05 = 0; last by rewrite addr0.
by apply/eqP; move: pP; rewrite !inE => /orP[]/eqP->; vm_compute.
Qed.
Lemma diff05 cs : all (fun c => 2 < size c)%N cs ->
  vsharing (T := T17) pp2 (2 * 2 ^ 1) (size cs)
    (fun p => zipmap (fun a b : T17 => a - b) (sh_poly cs p) (sh_poly (map plus05 cs) p))
    (fun e j => sec_poly cs e j - sec_poly (map plus05 cs) e j).
Proof.
move=> /allP H; split=> [p _|e lt_e]; first by rewrite size_zipmap !size_map minnn.
exists (map -%R zero05).
have D x c : (2 < size c)%N -> hv x c - hv x (plus05 c) = pval (T := T17) x (map -%R zero05).
  by move=> sc; rewrite plus05_val // opprD addrA subrr add0r pval_hv hvN.
have sc : (2 < size (nth [::] cs e))%N by apply/H/mem_nth.
split=> //; apply: eq_mkseq => i.
- rewrite (nth_zipmap _ 0 0) ?size_map //.
  by rewrite /sh_poly -map_comp !(nth_map [::]) //= D.
- by rewrite /sec_poly (nth_map [::]) // D.
Qed.
Example prod_secrets_differ : sec_poly prod1 0 0 != sec_poly prod2 0 0. Proof. by vm_compute. Qed.

Example c61_deg_red_instance := @C61_deg_red F17 T17 true 1 pp2 3%:R cF17 1 1 (sh_poly prod1) (sh_poly prod2) _ _ _ 7
  with_king (rnd 11) (pp2_new true) c17_ok small_m isT pp2_generator isT isT isT
  (@poly_shared 7 prod1 isT) (@poly_shared 7 prod2 isT) (@diff05 prod1 isT) (fun p => @agree05 prod1 p isT)
  (fun _ _ => gen3 _).

(** the transforms *)
Definition poly1 : seq (seq F17) := [:: nums [:: 1; 2; 3; 4]%N; nums [:: 5; 6; 7]%N].
Definition poly2 : seq (seq F17) := map plus05 poly1.
Example c61_d_fft_instance := @C61_d_fft F17 true 1 1 pp2 dom4 cF17 1 false (sh_poly poly1) (sh_poly poly2) _ _ 4
  with_king (rnd 11) (pp2_new true) dom4_new c17_ok small1 isT pp2_generator isT isT isT
  (@poly_shared 4 poly1 isT) (@poly_shared 4 poly2 isT) (@diff05 poly1 isT) (fun p => @agree05 poly1 p isT).
Example c61_d_ifft_instance := @C61_d_ifft F17 true 1 1 pp2 dom4 cF17 1 true 3%:R (sh_poly poly1) (sh_poly poly2) _ _ 4
  with_king (rnd 11) (pp2_new true) dom4_new c17_ok small1 isT pp2_generator isT isT isT
  (@poly_shared 4 poly1 isT) (@poly_shared 4 poly2 isT) (@diff05 poly1 isT) (fun p => @agree05 poly1 p isT).

(** a run in which the king's log is the store: nothing from itself, a message from every client *)
Definition klog_end := results_of (run (round 8 ++ joins 8) (init (mkseq (fun p => pthread 3
  (clogk (d_fft true pp2 8 p rev cF17 (x4 p) (masks4 p) false dom4 (rnd 11)) [::])) 8))).
Example klog_kinds : [seq (if v is Some w then map isSome w.2 else [::]) | v <- klog_end] =
  (false :: nseq 7 true) :: nseq 7 [:: true].
Proof. by vm_compute. Qed.

(** the multi-scalar multiplication: the same public base, scalars with different secrets *)
Definition base1 : seq (seq F17) := [:: nums [:: 3]%N].
Definition scal1 : seq (seq F17) := [:: nums [:: 1; 2; 3; 4]%N].
Definition scal2 : seq (seq F17) := map plus05 scal1.
Lemma msm05 : sharing (T := T17) pp2 (2 * p_l pp2)
  (mkseq (fun p => \sum_(e < 1) (sh_poly scal1 p)`_e *: ((sh_poly base1 p)`_e : T17)
                   - \sum_(e < 1) (sh_poly scal2 p)`_e *: ((sh_poly base1 p)`_e : T17)) (p_n pp2))
  (mkseq (fun j => \sum_(e < 1) sec_poly scal1 e j *: (sec_poly base1 e j : T17)
                   - \sum_(e < 1) sec_poly scal2 e j *: (sec_poly base1 e j : T17)) (p_l pp2)).
Proof.
have [_ /(_ 0%N isT) [c [sc E1 E2]]] := @diff05 scal1 isT.
exists [seq a * 3%:R | a <- c]; split; first by rewrite size_map.
  have P x : pval (T := T17) x [seq a * 3%:R | a <- c] = pval (T := T17) x c * 3%:R.
    by rewrite !pval_hv; elim: (c) => [|a c' IH] /=; rewrite ?mul0r // -!/(hv x _) IH mulrDl mulrA.
  apply: eq_mkseq_in => i lt_i; rewrite P -(mkseq_inj_in E1 lt_i) !big_ord1 /= -scalerBl.
  by rewrite /sh_poly /= -/(hv _ _) -!/(hv _ _) mulr0 addr0.
have P x : pval (T := T17) x [seq a * 3%:R | a <- c] = pval (T := T17) x c * 3%:R.
  by rewrite !pval_hv; elim: (c) => [|a c' IH] /=; rewrite ?mul0r // -!/(hv x _) IH mulrDl mulrA.
apply: eq_mkseq_in => i lt_i; rewrite P -(mkseq_inj_in E2 lt_i) !big_ord1 /= -scalerBl.
by rewrite /sec_poly /= mulr0 addr0.
Qed.
Example c61_d_msm_instance := @C61_d_msm F17 T17 true 1 pp2 3%:R cF17 1 1 (sh_poly base1) (sh_poly base1)
  (sh_poly scal1) (sh_poly scal2) _ _ _ _ _ with_king (pp2_new true) c17_ok pp2_generator isT isT isT
  (@poly_shared 4 base1 isT) (@poly_shared 4 scal1 isT) (@poly_shared 4 base1 isT) (@poly_shared 4 scal2 isT)
  msm05 (fun p H => conj erefl (@agree05 scal1 p isT H)) (fun _ => gen3 _).
Example c61_d_msm_exact_instance := @C61_d_msm_exact F17 T17 true 1 pp2 3%:R cF17 1 1 (sh_poly base1) (sh_poly base1)
  (sh_poly scal1) (sh_poly scal2) _ _ _ _ (pp2_new true) c17_ok
  (@poly_shared 4 base1 isT) (@poly_shared 4 scal1 isT) (@poly_shared 4 base1 isT) (@poly_shared 4 scal2 isT)
  erefl (@agree05 scal1 0%N isT isT).

(** a product with another upper coefficient and the same share of the king: whatever the masks, the king
    can tell the two runs apart *)
Definition prod3 : seq (seq F17) := [:: nums [:: 1; 2; 3; 4; 5; 5; 8]%N].
Example c61_deg_red_exact_instance := @C61_deg_red_exact F17 T17 true 1 pp2 3%:R cF17 1 1 (sh_poly prod1)
  (sh_poly prod3) _ _ 7 (rnd 11) (pp2_new true) c17_ok small_m isT (@poly_shared 7 prod1 isT)
  (@poly_shared 7 prod3 isT).
Example prod3_king : sh_poly prod1 0%N = sh_poly prod3 0%N. Proof. by apply/eqP; vm_compute. Qed.
Example prod3_upper sec : ~ vsharing (T := T17) pp2 (2 * 2 ^ 1) 1
  (fun p => zipmap (fun a b : T17 => a - b) (sh_poly prod1 p) (sh_poly prod3 p)) sec.
Proof.
move=> /vsharingP[_ /(_ 0%N isT)] /(@dual_shared 0%N _ _ isT); rewrite dual_valE => /eqP.
by apply/negP; vm_compute.
Qed.
Example prod3_seen values r_in r_out values' r_in' r_out' : exists masks masks' out out',
    let x0 := degred_mask_zero T17 0 in
    [/\ degred_mask_sample (T := T17) true pp2 3%:R 1 values r_in r_out = Ok masks,
        degred_mask_sample (T := T17) true pp2 3%:R 1 values' r_in' r_out' = Ok masks',
        yields (p_n pp2) true (fun ords p => clogk (deg_red (T := T17) true pp2 (p_n pp2) p (ords 0%N) cF17 (sh_poly prod1 p)
          (nth x0 masks p) (rnd 11)) [::]) out,
        yields (p_n pp2) true (fun ords p => clogk (deg_red (T := T17) true pp2 (p_n pp2) p (ords 0%N) cF17 (sh_poly prod3 p)
          (nth x0 masks' p) (rnd 11)) [::]) out' &
        nth x0 masks' 0%N = nth x0 masks 0%N -> out' 0%N <> out 0%N].
Proof.
have [ms [ms' [o [o' [H1 H2 H3 H4 H5]]]]] := c61_deg_red_exact_instance prod3_king values r_in r_out values' r_in' r_out'.
exists ms, ms', o, o'; split=> // E0 E; exact: prod3_upper (H5 E0 E).
Qed.

(** two such vectors as the inputs of a transform *)
Definition prods1 : seq (seq F17) := prod1 ++ prod1.
Definition prods3 : seq (seq F17) := prod1 ++ prod3.
Lemma prods_king : sh_poly prods1 0%N = sh_poly prods3 0%N. Proof. by apply/eqP; vm_compute. Qed.
Example c61_d_fft_exact_instance := @C61_d_fft_exact F17 true 1 1 pp2 dom4 cF17 1 false (sh_poly prods1)
  (sh_poly prods3) _ _ 7 (rnd 11) (pp2_new true) dom4_new c17_ok small1 isT (@poly_shared 7 prods1 isT)
  (@poly_shared 7 prods3 isT) prods_king.
Example c61_d_ifft_exact_instance := @C61_d_ifft_exact F17 true 1 1 pp2 dom4 cF17 1 false 3%:R (sh_poly prods1)
  (sh_poly prods3) _ _ 7 (rnd 11) (pp2_new true) dom4_new c17_ok small1 isT (@poly_shared 7 prods1 isT)
  (@poly_shared 7 prods3 isT) prods_king.
