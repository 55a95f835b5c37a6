(** Proofs about the local computations of dist-primitives/src/dfft/mod.rs. *)
From mathcomp Require Import all_ssreflect all_algebra.
From mathcomp Require Import zify.
From Verif Require Import RingTac Base ModelField ModelUtils ModelPss ModelPack ModelFft Spec.
From Verif Require Import FieldProofs UtilsProofs PssProofs PackProofs.
Set Implicit Arguments.
Unset Strict Implicit.
Unset Printing Implicit Defensive.
Import GRing.Theory.
Local Open Scope ring_scope.

(** ** Bit reversal *)

Section Bits.
Local Open Scope nat_scope.

Lemma expn_pow k : 2 ^ k = Nat.pow 2 k.
Proof. by elim: k => //= k IH; rewrite expnS IH; lia. Qed.

Lemma bitrev_lt k x : bitrev k x < 2 ^ k.
Proof.
elim: k x => [|k IH] x //=; have := IH (x %/ 2); have := ltn_pmod x (isT : 0 < 2).
rewrite expnS; case: (x %% 2) => [|[|//]] _; lia.
Qed.

Lemma bitrev_top k x : bitrev k.+1 x = 2 * bitrev k (x %% 2 ^ k) + (x %/ 2 ^ k) %% 2.
Proof.
elim: k x => [|k IH] x; first by rewrite /= divn1 expn0 addn0 muln1 muln0.
rewrite [bitrev k.+2 x]/= -/(bitrev k.+1 _) IH [bitrev k.+1 _ in RHS]/=.
rewrite modn_dvdm ?expnS ?dvdn_mulr // -divnMA divn_modl ?dvdn_mulr //.
rewrite mulKn //; lia.
Qed.

Lemma bitrevK k x : x < 2 ^ k -> bitrev k (bitrev k x) = x.
Proof.
elim: k x => [|k IH] x; first by case: x.
move=> lt_x; rewrite bitrev_top [bitrev k.+1 x]/=.
rewrite divnMDl ?expn_gt0 // modnMDl (modn_small (bitrev_lt _ _)).
rewrite [(bitrev _ _ %/ _)%N]divn_small ?bitrev_lt // addn0 IH ?modn_mod; last by rewrite ltn_divLR // mulnC -expnS.
by rewrite mulnC -divn_eq.
Qed.

Lemma bitrev0 k : bitrev k 0 = 0.
Proof. by elim: k => //= k IH; rewrite mod0n div0n IH. Qed.

Lemma land_low t k : t < 2 ^ k -> Nat.land t (2 ^ k) = 0.
Proof.
move=> lt_t; apply: PeanoNat.Nat.bits_inj => i; rewrite PeanoNat.Nat.land_spec PeanoNat.Nat.bits_0.
rewrite expn_pow PeanoNat.Nat.pow2_bits_eqb; case: PeanoNat.Nat.eqb_spec => [<-|]; last by rewrite andbF.
have -> : t = PeanoNat.Nat.modulo t (Nat.pow 2 k).
  by rewrite PeanoNat.Nat.mod_small // -expn_pow; apply/ltP.
by rewrite PeanoNat.Nat.mod_pow2_bits_high.
Qed.

Lemma lor_low t k : t < 2 ^ k -> Nat.lor t (2 ^ k) = t + 2 ^ k.
Proof.
move=> /land_low H; rewrite -PeanoNat.Nat.lxor_lor // -PeanoNat.Nat.add_nocarry_lxor //.
Qed.

Lemma land_high t k : t < 2 ^ k -> Nat.land (t + 2 ^ k) (2 ^ k) = 2 ^ k.
Proof.
move=> lt_t; rewrite -lor_low //; apply: PeanoNat.Nat.bits_inj => i.
rewrite PeanoNat.Nat.land_spec PeanoNat.Nat.lor_spec.
by case: (Nat.testbit (2 ^ k) i); rewrite ?andbT ?andbF ?orbT.
Qed.

Lemma ldiff_high t k : t < 2 ^ k -> Nat.ldiff (t + 2 ^ k) (2 ^ k) = t.
Proof.
move=> lt_t; rewrite -lor_low //; apply: PeanoNat.Nat.bits_inj => i.
have := land_low lt_t => /(f_equal (fun x => Nat.testbit x i)).
rewrite PeanoNat.Nat.ldiff_spec PeanoNat.Nat.land_spec PeanoNat.Nat.lor_spec PeanoNat.Nat.bits_0.
by case: (Nat.testbit t i); case: (Nat.testbit (2 ^ k) i).
Qed.

Lemma div2_half x : Nat.div2 x = x./2.
Proof.
suff: Nat.div2 x = x./2 /\ Nat.div2 x.+1 = x.+1./2 by case.
by elim: x => // x [E1 E2]; split=> //; rewrite [LHS]/= E1.
Qed.

Lemma odd_odd x : Nat.odd x = odd x.
Proof.
suff: Nat.odd x = odd x /\ Nat.odd x.+1 = odd x.+1 by case.
elim: x => // x [E1 E2]; split=> //; have -> : Nat.odd x.+2 = Nat.odd x by [].
by rewrite E1 /= negbK.
Qed.

Lemma testbit_bitrev k x i : i < k -> Nat.testbit (bitrev k x) i = Nat.testbit x (k - i.+1).
Proof.
elim: k x i => // k IH x i lt_i; rewrite [bitrev _ _]/= addnC.
have Hx : PeanoNat.Nat.div2 x = x %/ 2 by rewrite div2_half divn2.
have lt_b := bitrev_lt k (x %/ 2).
have [->|lt_ik] : i = k \/ i < k by lia.
  rewrite subnn PeanoNat.Nat.bit0_odd odd_odd.
  rewrite modn2; case: (odd x) => /=; last first.
    rewrite mul0n addn0 -[bitrev _ _](PeanoNat.Nat.mod_small _ (Nat.pow 2 k)).
      by rewrite PeanoNat.Nat.mod_pow2_bits_high.
    by rewrite -expn_pow; apply/ltP.
  rewrite mul1n -lor_low // PeanoNat.Nat.lor_spec expn_pow PeanoNat.Nat.pow2_bits_true.
  by rewrite orbT.
have -> : k.+1 - i.+1 = (k - i.+1).+1 by lia.
have -> : Nat.testbit x (k - i.+1).+1 = Nat.testbit (x %/ 2) (k - i.+1) by rewrite /= Hx.
rewrite -(IH _ _ lt_ik) modn2; case: (odd x) => /=; last by rewrite mul0n addn0.
rewrite mul1n -lor_low // PeanoNat.Nat.lor_spec expn_pow PeanoNat.Nat.pow2_bits_false ?orbF //.
lia.
Qed.

Lemma next_targetP k fuel p : p < 2 ^ k -> k <= fuel ->
  next_target fuel (bitrev k p) (2 ^ k)./2 = bitrev k (p.+1 %% 2 ^ k).
Proof.
elim: k fuel p => [|k IH] fuel p lt_p le_f.
  have -> : bitrev 0 p = 0 by []. by case: fuel le_f.
case: fuel le_f => // fuel le_f.
have -> : (2 ^ k.+1)./2 = 2 ^ k by rewrite expnS mul2n doubleK.
have lt_b := bitrev_lt k (p %/ 2).
have lt_q : p %/ 2 < 2 ^ k by rewrite ltn_divLR // mulnC -expnS.
have Ep : bitrev k.+1 p = bitrev k (p %/ 2) + p %% 2 * 2 ^ k by rewrite addnC.
have [E0|E1] : p %% 2 = 0 \/ p %% 2 = 1 by lia.
  rewrite Ep E0 mul0n addn0 /= land_low // eqxx lor_low // (@modn_small _ (2 ^ k.+1)); last first.
    by move: lt_p; rewrite expnS; move: (2 ^ k) => ?; lia.
  have -> : p.+1 %% 2 = 1 by lia.
  have -> : p.+1 %/ 2 = p %/ 2 by lia.
  by rewrite mul1n addnC.
rewrite Ep E1 mul1n /= land_high // expn_eq0 /= ldiff_high //.
rewrite IH //.
have -> : p.+1 %% 2 ^ k.+1 %% 2 = 0.
  by rewrite modn_dvdm ?expnS ?dvdn_mulr //; lia.
rewrite mul0n add0n; congr bitrev.
have -> : p.+1 = (p %/ 2).+1 * 2 by lia.
by rewrite expnS mulnC -muln_modr mulKn.
Qed.

End Bits.

Lemma vswap_nth A (x0 : A) s i j : (i < size s)%N -> (j < size s)%N ->
  exists s', [/\ vswap s i j = Ok s', size s' = size s &
    forall p, nth x0 s' p = if p == j then nth x0 s i else if p == i then nth x0 s j else nth x0 s p].
Proof.
move=> lt_i lt_j; rewrite /vswap !(vget_nth x0) // [rbind _ _]/= (vset_nth x0) // [rbind _ _]/=.
have sz k x : (k < size s)%N -> size (set_nth x0 s k x) = size s.
  by move=> lt_k; rewrite size_set_nth; apply/maxn_idPr.
rewrite (vset_nth x0) ?sz //; eexists; split; first by [].
- by rewrite size_set_nth sz //; apply/maxn_idPr.
- by move=> p; rewrite nth_set_nth /= nth_set_nth.
Qed.

Lemma fft_rearrangeP A (x0 : A) (s : seq A) k : size s = (2 ^ k)%N ->
  fft_rearrange s = Ok (mkseq (fun i => nth x0 s (bitrev k i)) (2 ^ k)).
Proof.
move=> ss; rewrite /fft_rearrange ss.
set f := (X in foldM X _ _).
suff H p : (p <= 2 ^ k)%N -> exists r,
   [/\ foldM f (s, 0%N) (iota 0 p) = Ok (r, bitrev k (p %% 2 ^ k)), size r = (2 ^ k)%N &
   forall i, (i < 2 ^ k)%N ->
     nth x0 r i = if (minn i (bitrev k i) < p)%N then nth x0 s (bitrev k i) else nth x0 s i].
  have [r [-> sr Hr]] := H _ (leqnn _); rewrite [rbind _ _]/=; congr Ok.
  apply: (@eq_from_nth _ x0); rewrite ?size_mkseq // sr => i lt_i.
  by rewrite Hr // nth_mkseq // gtn_min lt_i.
elim: p => [|p IH] le_p.
  by exists s; rewrite mod0n bitrev0; split=> // i lt_i.
have [r [E sr Hr]] := IH (ltnW le_p).
rewrite -addn1 iotaD foldM_cat E add0n [rbind _ _]/=.
rewrite (@modn_small p) // next_targetP //; last by apply/ltnW/ltn_expl.
have lt_b := bitrev_lt k p.
case: (ltnP p (bitrev k p)) => [lt_pb|le_bp]; last first.
  exists r; split=> //=; first by rewrite addn1.
  move=> i lt_i; rewrite Hr // addn1 ltnS.
  case: (ltngtP (minn i (bitrev k i)) p) => // Ei.
  have Hi : bitrev k i = i; last by rewrite Hi.
  have KI := bitrevK lt_i; have [Ei'|Ei'] : i = p \/ bitrev k i = p.
  - by move: Ei; rewrite /minn; case: ifP => _ ->; [left|right].
  - by move: Ei; rewrite /minn Ei'; case: ifP => //; lia.
  - move: KI; rewrite Ei' => KI; move: Ei; rewrite /minn Ei' -KI; case: ifP => // ; lia.
have [r' [E' sr' Hr']] := @vswap_nth _ x0 r (bitrev k p) p
  ltac:(by rewrite sr) ltac:(by rewrite sr).
rewrite E'; exists r'; split=> //=; [by rewrite addn1|by rewrite sr'|].
move=> i lt_i; rewrite Hr' addn1.
have KI := bitrevK lt_i; have KP := bitrevK le_p.
case: (i =P p) => [->|ne_ip].
  have -> : (minn p (bitrev k p) < p.+1)%N by rewrite gtn_min ltnSn.
  rewrite Hr // KP; case: ifP => //; rewrite gtn_min; lia.
case: (i =P bitrev k p) => [->|ne_ib].
  rewrite KP; have -> : (minn (bitrev k p) p < p.+1)%N by rewrite gtn_min ltnSn orbT.
  by rewrite Hr //; case: ifP => //; rewrite gtn_min; lia.
rewrite Hr // ltnS; case: (ltngtP (minn i (bitrev k i)) p) => // Ei.
have [Ei'|Ei'] : i = p \/ bitrev k i = p.
  by move: Ei; rewrite /minn; case: ifP => _ ->; [left|right].
- by [].
- by case: ne_ib; rewrite -Ei' KI.
Qed.

(** ** Loops *)

Lemma foldM_map S I J (f : S -> J -> res S) (h : I -> J) s is_ :
  foldM f s (map h is_) = foldM (fun s i => f s (h i)) s is_.
Proof. by elim: is_ s => //= i is_ IH s; case: (f s (h i)). Qed.

Lemma eq_foldM S I (f g : S -> I -> res S) s is_ :
  (forall s i, f s i = g s i) -> foldM f s is_ = foldM g s is_.
Proof. by move=> E; elim: is_ s => //= i is_ IH s; rewrite E; case: (g s i) => //= s'. Qed.

Lemma foldM_nested S I J (h : S -> I -> J -> res S) s is_ js :
  foldM (fun s i => foldM (fun s j => h s i j) s js) s is_ =
  foldM (fun s (p : I * J) => h s p.1 p.2) s [seq (i, j) | i <- is_, j <- js].
Proof.
elim: is_ s => //= i is_ IH s; rewrite foldM_cat foldM_map.
by rewrite {1}/rbind; case: (foldM _ _ _) => //= s'.
Qed.

Lemma foldM_factor (R : ringType) S (g : S -> R -> nat -> res S) s (fs : R) m :
  foldM (fun (st : S * R) k => let: (s, f) := st in let! s := g s f k in Ok (s, f * fs))
        (s, fs) (iota 0 m) =
  (let! s := foldM (fun s k => g s (fs ^+ k.+1) k) s (iota 0 m) in Ok (s, fs ^+ m.+1)).
Proof.
rewrite -[X in (s, X)](expr1 fs) -[in m.+1](add0n m); move: 0%N => a; elim: m a s => [|m IH] a s.
  by rewrite addn0.
rewrite /= {1 2}/rbind; case: (g s (fs ^+ a.+1) a) => //= s'.
by rewrite -exprSr IH addSnnS.
Qed.

Lemma foldM_writes A (I : eqType) (x0 : A) (f : seq A -> I -> res (seq A)) (a b : I -> nat)
    (u v : I -> A) (s : seq A) (its : seq I) :
  (forall r i, i \in its -> size r = size s ->
     nth x0 r (a i) = nth x0 s (a i) -> nth x0 r (b i) = nth x0 s (b i) ->
     f r i = Ok (set_nth x0 (set_nth x0 r (a i) (u i)) (b i) (v i))) ->
  (forall i, i \in its -> [/\ (a i < size s)%N, (b i < size s)%N & a i != b i]) ->
  uniq its ->
  (forall i j, i \in its -> j \in its -> i != j ->
     [/\ a i != a j, a i != b j, b i != a j & b i != b j]) ->
  exists r, [/\ foldM f s its = Ok r, size r = size s,
    (forall i, i \in its -> nth x0 r (a i) = u i /\ nth x0 r (b i) = v i) &
    (forall p, (forall i, i \in its -> p != a i /\ p != b i) -> nth x0 r p = nth x0 s p)].
Proof.
elim: its s => [|i its IH] s Hf Hab u_i Hd; first by exists s.
have ii : i \in i :: its by rewrite inE eqxx.
have [ai bi ne_ab] := Hab i ii.
rewrite /= Hf // [rbind _ _]/=; set s1 := set_nth _ _ _ _.
have ss1 : size s1 = size s.
  have sz t k x : (k < size t)%N -> size (set_nth x0 t k x) = size t.
    by move=> lt_k; rewrite size_set_nth; apply/maxn_idPr.
  by rewrite /s1 !sz // ?sz.
have Hs1 p : nth x0 s1 p = if p == b i then v i else if p == a i then u i else nth x0 s p.
  by rewrite /s1 nth_set_nth /= nth_set_nth.
case/andP: u_i => ni u_i.
have Hs1' j : j \in its -> nth x0 s1 (a j) = nth x0 s (a j) /\ nth x0 s1 (b j) = nth x0 s (b j).
  move=> ji; have jj : j \in i :: its by rewrite inE ji orbT.
  have ne : j != i by apply: contraNneq ni => <-.
  have [n1 n2 n3 n4] := Hd _ _ jj ii ne.
  by rewrite !Hs1 (negPf n1) (negPf n2) (negPf n3) (negPf n4).
have [|||| r [E sr Hr1 Hr2]] := IH s1.
- move=> r j ji; rewrite ss1 => sr; have [-> ->] := Hs1' j ji => E1 E2.
  by apply: Hf; rewrite // inE ji orbT.
- by move=> j ji; rewrite ss1; apply: Hab; rewrite inE ji orbT.
- exact: u_i.
- by move=> j k ji ki; apply: Hd; rewrite inE ?ji ?ki orbT.
exists r; split; rewrite ?sr //.
- move=> j; rewrite inE; case: eqP => [-> _|_ /= ji]; last exact: Hr1.
  have D k : k \in its -> [/\ a i != a k, a i != b k, b i != a k & b i != b k].
    move=> ki; apply: Hd => //; first by rewrite inE ki orbT.
    by apply: contraNneq ni => ->.
  rewrite !Hr2; try by move=> k /D[].
  by rewrite !Hs1 !eqxx (negPf ne_ab).
- move=> p Hp; rewrite Hr2; last by move=> k ki; apply: Hp; rewrite inE ki orbT.
  by have [n1 n2] := Hp i ii; rewrite Hs1 (negPf n1) (negPf n2).
Qed.

Lemma range_incl_revE a b : range_incl_rev a.+1 (b + a) = mkseq (fun d => a + b - d)%N b.
Proof.
rewrite /range_incl_rev; have -> : ((b + a).+1 - a.+1 = b)%N by lia.
apply: (@eq_from_nth _ 0%N); rewrite size_rev size_iota ?size_mkseq // => i lt_i.
by rewrite nth_rev size_iota // nth_iota ?nth_mkseq //; lia.
Qed.

(** ** The butterfly stages *)

Section Stages.
Variable F : fftField.
Add Field FF : (stdlib_field F).
Variables (pp : pss F) (lam : nat).
Hypothesis El : p_l pp = (2 ^ lam)%N.
Implicit Types (px s : seq F).

(** sum computed by [d] stages *)
Definition bsum (gen : F) (stride d k : nat) (x : nat -> F) : F :=
  \sum_(e < 2 ^ d) gen ^+ (stride * k.+1 * bitrev d e) * x e.

Lemma bsumS gen stride d k x :
  bsum gen stride d.+1 k x =
  bsum gen (2 * stride) d k x +
  gen ^+ (stride * k.+1) * bsum gen (2 * stride) d k (fun e => x (2 ^ d + e)%N).
Proof.
rewrite /bsum; have -> : (2 ^ d.+1 = 2 ^ d + 2 ^ d)%N by rewrite expnS; lia.
rewrite big_split_ord /=; congr (_ + _).
- apply: eq_bigr => e _; congr (_ ^+ _ * _).
  rewrite -/(bitrev d.+1 e) bitrev_top modn_small // divn_small // mod0n addn0; lia.
- rewrite big_distrr /=; apply: eq_bigr => e _; rewrite mulrA -exprD; congr (_ ^+ _ * _).
  rewrite -/(bitrev d.+1 _) bitrev_top -[X in (X + e)%N]mul1n modnMDl modn_small //.
  by rewrite divnMDl ?expn_gt0 // divn_small // addn0 modn_small //; lia.
Qed.

Lemma bsum_shift gen stride d k x per :
  gen ^+ (stride * per) = 1 -> bsum gen stride d (k + per) x = bsum gen stride d k x.
Proof.
move=> H; apply: eq_bigr => e _; congr (_ * _).
have -> : (stride * (k + per).+1 * bitrev d e = stride * k.+1 * bitrev d e +
           stride * per * bitrev d e)%N by lia.
by rewrite exprD [X in _ * X]exprM H expr1n mulr1.
Qed.

Lemma eq_bsum gen stride d k x y : (forall e, (e < 2 ^ d)%N -> x e = y e) ->
  bsum gen stride d k x = bsum gen stride d k y.
Proof. by move=> E; apply: eq_bigr => e _; rewrite E. Qed.

(** one stage of [fft1] *)
Lemma fft1_stage (r : seq F) (fs : F) c d : size r = (2 ^ (c + d).+1)%N ->
  exists r', [/\ foldM (fun px (p : nat * nat) =>
       let! x := vget px (2 * p.2 * 2 ^ d + p.1) in
       let! y := vget px ((2 * p.2 + 1) * 2 ^ d + p.1) in
       let y := y * fs ^+ p.1.+1 in
       let! px := vset px (p.2 * (2 * 2 ^ d) + p.1) (x + y) in
       vset px (p.2 * (2 * 2 ^ d) + p.1 + 2 ^ d) (x - y)) r
     [seq (k, j) | k <- iota 0 (2 ^ d), j <- iota 0 (2 ^ c)] = Ok r', size r' = size r &
   forall k j, (k < 2 ^ d)%N -> (j < 2 ^ c)%N ->
     r'`_(j * 2 ^ d.+1 + k) = r`_((2 * j) * 2 ^ d + k) + fs ^+ k.+1 * r`_((2 * j).+1 * 2 ^ d + k) /\
     r'`_(j * 2 ^ d.+1 + (k + 2 ^ d)) =
       r`_((2 * j) * 2 ^ d + k) - fs ^+ k.+1 * r`_((2 * j).+1 * 2 ^ d + k)].
Proof.
move=> sr.
pose a (p : nat * nat) := (2 * p.2 * 2 ^ d + p.1)%N.
pose b (p : nat * nat) := ((2 * p.2).+1 * 2 ^ d + p.1)%N.
set its := [seq _ | k <- _, j <- _]; set body := (X in foldM X _ _).
have its_mem p : p \in its -> (p.1 < 2 ^ d)%N /\ (p.2 < 2 ^ c)%N.
  by case/allpairsP => -[k j] /= [+ + ->]; rewrite !mem_iota !add0n.
have Es : (2 ^ (c + d).+1 = 2 * 2 ^ c * 2 ^ d)%N by rewrite expnS expnD mulnA.
have d0 : (0 < 2 ^ d)%N by rewrite expn_gt0.
have [||||r' [E sr' H1 H2]] := @foldM_writes F _ 0 body a b
  (fun p => r`_(a p) + fs ^+ p.1.+1 * r`_(b p)) (fun p => r`_(a p) - fs ^+ p.1.+1 * r`_(b p)) r its.
- move=> r0 p /its_mem [lt1 lt2] s0 Ea Eb.
  have la : (a p < size r0)%N.
    rewrite s0 sr Es /a; move: lt1 lt2; move: p.1 p.2 (2 ^ c)%N (2 ^ d)%N => k j C D; nia.
  have lb : (b p < size r0)%N.
    rewrite s0 sr Es /b; move: lt1 lt2; move: p.1 p.2 (2 ^ c)%N (2 ^ d)%N => k j C D; nia.
  rewrite /body -/(a p).
  have -> : ((2 * p.2 + 1) * 2 ^ d + p.1 = b p)%N by rewrite /b addn1.
  have -> : (p.2 * (2 * 2 ^ d) + p.1 = a p)%N by rewrite /a; move: p.1 p.2 (2 ^ d)%N => k j D; nia.
  have -> : (a p + 2 ^ d = b p)%N by rewrite /a /b; move: p.1 p.2 (2 ^ d)%N => k j D; nia.
  rewrite (vget_nth 0) // [rbind _ _]/= (vget_nth 0) // [rbind _ _]/=.
  rewrite (vset_nth 0) // [rbind _ _]/= (vset_nth 0); last first.
    by rewrite size_set_nth; apply: leq_trans lb (leq_maxr _ _).
  by rewrite Ea Eb mulrC.
- move=> p /its_mem [lt1 lt2]; rewrite sr Es /a /b; case: p lt1 lt2 => k j /=.
  move: (2 ^ c)%N (2 ^ d)%N d0 => C D D0 lt1 lt2; split; [nia|nia|].
  apply/eqP; nia.
- by apply: allpairs_uniq; rewrite ?iota_uniq // => -[? ?] [? ?].
- move=> [k j] [k' j'] /its_mem /= [lt1 lt2] /its_mem /= [lt1' lt2'] ne; rewrite /a /b /=.
  have ne' : k != k' \/ j != j'.
    by apply/orP; move: ne; rewrite xpair_eqE negb_and.
  have M q q' : (q * 2 ^ d + k = q' * 2 ^ d + k')%N -> q = q' /\ k = k'.
    move=> E; have := f_equal (fun x => x %% 2 ^ d)%N E; have := f_equal (fun x => x %/ 2 ^ d)%N E.
    by rewrite !modnMDl !divnMDl // !modn_small // !divn_small // !addn0.
  by split; apply/eqP => /M [E1 E2]; case: ne' => /eqP; lia.
exists r'; split=> // k j lt_k lt_j.
have kj : (k, j) \in its by apply/allpairsP; exists (k, j); rewrite !mem_iota !add0n.
have [<- <-] := H1 _ kj; split; congr nth; rewrite /a /b /= expnS; move: (2 ^ d)%N => D; nia.
Qed.

(** closed form of [fft1] on a vector of [2^b] entries *)
Lemma fft1P (px : seq F) gen b : size px = (2 ^ b)%N ->
  (forall K, K.+1 = (b + lam)%N -> gen ^+ (2 ^ K) = -1) ->
  fft1 pp px gen = Ok (mkseq (fun k => bsum gen (2 ^ lam) b k (nth 0 px)) (2 ^ b)).
Proof.
move=> sp Hg; rewrite /fft1 sp El -expnD /log2 !up_expnK // range_incl_revE.
set f := (X in foldM X _ _); rewrite /mkseq foldM_map.
suff H D : (D <= b)%N -> exists r,
  [/\ foldM (fun s d => f s (lam + b - d)%N) px (iota 0 D) = Ok r, size r = (2 ^ b)%N &
   forall q k, (q < 2 ^ (b - D))%N -> (k < 2 ^ D)%N ->
     r`_(q * 2 ^ D + k) =
       bsum gen (2 ^ (lam + b - D)) D k (fun e => px`_(q * 2 ^ D + e))].
  have [r [-> sr Hr]] := H b (leqnn b); congr Ok.
  apply: (@eq_from_nth _ 0); rewrite ?size_mkseq // sr => k lt_k.
  rewrite nth_mkseq // -[in LHS](add0n k) -[in LHS](mul0n (2 ^ b)%N) Hr ?subnn //.
  by rewrite addnK; apply: eq_bsum => e _; rewrite mul0n.
elim: D => [|D IH] le_D.
  exists px; split=> //= q [|//] _ _; rewrite /bsum big_ord1 /= muln0 expr0 mul1r.
  by rewrite addn0.
have [r [E sr Hr]] := IH (ltnW le_D); rewrite -addn1 iotaD foldM_cat E add0n [rbind _ _]/=.
set c := (b - D.+1)%N; have Eb : (b = c + D.+1)%N by rewrite /c; lia.
have Ei : (lam + b - D = (lam + c).+1)%N by lia.
rewrite Ei /f.
have -> : (2 ^ (b + lam) %/ 2 ^ (lam + c).+1 = 2 ^ D)%N.
  rewrite -expnB //; [congr expn; lia|lia].
have -> : (2 ^ (lam + c).+1.-1 %/ 2 ^ lam = 2 ^ c)%N by rewrite /= expnD mulKn ?expn_gt0.
rewrite [(lam + c).+1.-1]/= (foldM_factor (fun px f k => foldM (fun px j =>
   let! x := vget px (2 * j * 2 ^ D + k) in
   let! y := vget px ((2 * j + 1) * 2 ^ D + k) in
   let y := y * f in
   let! px := vset px (j * (2 * 2 ^ D) + k) (x + y) in
   vset px (j * (2 * 2 ^ D) + k + 2 ^ D) (x - y)) px (iota 0 (2 ^ c)))).
rewrite foldM_nested.
have [|r' [-> sr' Hr']] := @fft1_stage r (gen ^+ (2 ^ (lam + c))) c D.
  by rewrite sr Eb addnS.
exists r'; split=> //; first by rewrite sr' sr.
rewrite addn1 => q k lt_q lt_k.
have -> : (lam + b - D.+1 = lam + c)%N by lia.
rewrite bsumS -expnS -Ei.
have Hlo k' : (k' < 2 ^ D)%N -> bsum gen (2 ^ (lam + b - D)) D k' (fun e => px`_(q * 2 ^ D.+1 + e))
   = r`_(2 * q * 2 ^ D + k').
  move=> lt_k'; rewrite Hr //; last first.
    have -> : (b - D = c.+1)%N by lia.
    by rewrite expnS ltn_pmul2l.
  by apply: eq_bsum => e _; congr (px`_(_ + _)); rewrite expnS; lia.
have Hhi k' : (k' < 2 ^ D)%N ->
   bsum gen (2 ^ (lam + b - D)) D k' (fun e => px`_(q * 2 ^ D.+1 + (2 ^ D + e)))
   = r`_((2 * q).+1 * 2 ^ D + k').
  move=> lt_k'; rewrite Hr //; last first.
    have -> : (b - D = c.+1)%N by lia.
    by move: lt_q; rewrite expnS -/c; lia.
  apply: eq_bsum => e _; congr (px`_ _); rewrite expnS; move: (2 ^ D)%N => X; lia.
have [Hk|Hk] := ltnP k (2 ^ D)%N.
  by rewrite Hlo // Hhi // (Hr' k q Hk lt_q).1 exprM.
have Ek : k = (k - 2 ^ D + 2 ^ D)%N by lia.
have lt_k' : (k - 2 ^ D < 2 ^ D)%N by move: lt_k; rewrite expnS; lia.
have G1 : gen ^+ (2 ^ (lam + c) * 2 ^ D) = -1 by rewrite -expnD; apply: Hg; lia.
have G2 : gen ^+ (2 ^ (lam + b - D) * 2 ^ D) = 1.
  by rewrite Ei expnS -mulnA mulnC exprM G1 sqrrN expr1n.
rewrite Ek !bsum_shift // Hlo // Hhi // (Hr' _ q lt_k' lt_q).2.
rewrite -addSn mulnDr exprD G1 mulrN1 mulNr; congr (_ - _ * _).
by rewrite exprM.
Qed.

(** one stage of [fft2] *)
Lemma fft2_stage (s r : seq F) (fs : F) P C : size s = (2 * P * C)%N -> size r = size s ->
  exists r', [/\ foldM (fun s2 (p : nat * nat) =>
       let! x := vget s (p.1 * (2 * C) + 2 * p.2) in
       let! y := vget s (p.1 * (2 * C) + 2 * p.2 + 1) in
       let y := y * fs ^+ p.1.+1 in
       let! s2 := vset s2 (p.1 * C + p.2) (x + y) in
       vset s2 ((p.1 + P) * C + p.2) (x - y)) r
     [seq (k, j) | k <- iota 0 P, j <- iota 0 C] = Ok r', size r' = size s &
   forall k j, (k < P)%N -> (j < C)%N ->
     r'`_(k * C + j) = s`_(k * (2 * C) + 2 * j) + fs ^+ k.+1 * s`_(k * (2 * C) + (2 * j).+1) /\
     r'`_((k + P) * C + j) =
       s`_(k * (2 * C) + 2 * j) - fs ^+ k.+1 * s`_(k * (2 * C) + (2 * j).+1)].
Proof.
move=> ss sr.
pose a (p : nat * nat) := (p.1 * C + p.2)%N.
pose b (p : nat * nat) := ((p.1 + P) * C + p.2)%N.
pose x (p : nat * nat) := s`_(p.1 * (2 * C) + 2 * p.2).
pose y (p : nat * nat) := s`_(p.1 * (2 * C) + (2 * p.2).+1).
set its := [seq _ | k <- _, j <- _]; set body := (X in foldM X _ _).
have its_mem p : p \in its -> (p.1 < P)%N /\ (p.2 < C)%N.
  by case/allpairsP => -[k j] /= [+ + ->]; rewrite !mem_iota !add0n.
have [||||r' [E sr' H1 H2]] := @foldM_writes F _ 0 body a b
  (fun p => x p + fs ^+ p.1.+1 * y p) (fun p => x p - fs ^+ p.1.+1 * y p) r its.
- move=> r0 p /its_mem [lt1 lt2] s0 Ea Eb.
  have la : (a p < size r0)%N.
    rewrite s0 sr ss /a; move: lt1 lt2; move: p.1 p.2 => k j; nia.
  have lb : (b p < size r0)%N.
    rewrite s0 sr ss /b; move: lt1 lt2; move: p.1 p.2 => k j; nia.
  have lx : (p.1 * (2 * C) + 2 * p.2 < size s)%N.
    rewrite ss; move: lt1 lt2; move: p.1 p.2 => k j; nia.
  have ly : ((p.1 * (2 * C) + 2 * p.2 + 1) < size s)%N.
    rewrite ss; move: lt1 lt2; move: p.1 p.2 => k j; nia.
  rewrite /body -/(a p) -/(b p).
  rewrite (vget_nth 0) // [rbind _ _]/= (vget_nth 0) // [rbind _ _]/=.
  rewrite (vset_nth 0) // [rbind _ _]/= (vset_nth 0); last first.
    by rewrite size_set_nth; apply: leq_trans lb (leq_maxr _ _).
  by rewrite -/(x p) -addnA addn1 -/(y p) mulrC.
- move=> p /its_mem [lt1 lt2]; rewrite sr ss /a /b; case: p lt1 lt2 => k j /=.
  move=> lt1 lt2; split; [nia|nia|].
  apply/eqP; nia.
- by apply: allpairs_uniq; rewrite ?iota_uniq // => -[? ?] [? ?].
- move=> [k j] [k' j'] /its_mem /= [lt1 lt2] /its_mem /= [lt1' lt2'] ne; rewrite /a /b /=.
  have ne' : k != k' \/ j != j'.
    by apply/orP; move: ne; rewrite xpair_eqE negb_and.
  have M q q' : (q * C + j = q' * C + j')%N -> q = q' /\ j = j'.
    have C0 : (0 < C)%N by apply: leq_ltn_trans lt2.
    move=> E; have := f_equal (fun x => x %% C)%N E; have := f_equal (fun x => x %/ C)%N E.
    by rewrite !modnMDl !divnMDl // !modn_small // !divn_small // !addn0.
  by split; apply/eqP => /M [E1 E2]; case: ne' => /eqP; lia.
exists r'; split=> //; first by rewrite sr'.
move=> k j lt_k lt_j.
have kj : (k, j) \in its by apply/allpairsP; exists (k, j); rewrite !mem_iota !add0n.
by have [<- <-] := H1 _ kj.
Qed.

(** the loop of [fft2], whatever is in the second vector at the start *)
Definition fft2_from (s1 s2 : seq F) (gen : F) (dom_size : nat) : res (seq F) :=
  let! st := foldM (fun (st : seq F * seq F) i =>
      let: (s1, s2) := st in
      let poly_size := (dom_size %/ 2 ^ i)%N in
      let factor_stride := gen ^+ (2 ^ i.-1) in
      let! st' := foldM (fun (st : seq F * F) k =>
          let: (s2, factor) := st in
          let! s2 := foldM (fun s2 j =>
              let! x := vget s1 (k * 2 ^ i + 2 * j) in
              let! y := vget s1 (k * 2 ^ i + 2 * j + 1) in
              let y := y * factor in
              let! s2 := vset s2 (k * 2 ^ i.-1 + j) (x + y) in
              vset s2 ((k + poly_size) * 2 ^ i.-1 + j) (x - y))
            s2 (iota 0 (2 ^ i.-1)) in
          Ok (s2, factor * factor_stride))
        (s2, factor_stride) (iota 0 poly_size) in
      Ok (st'.1, s1))
    (s1, s2) (range_incl_rev 1 (log2 (p_l pp))) in
  rotate_right1 st.1.

Lemma fft2_fromP (s s' : seq F) gen mbyl : size s = (mbyl * 2 ^ lam)%N -> size s' = size s ->
  (0 < mbyl)%N ->
  (forall K, K.+1 = lam -> gen ^+ (mbyl * 2 ^ K) = -1) ->
  fft2_from s s' gen (size s) = Ok (rotr 1 (mkseq (fun k =>
     bsum gen 1 lam k (fun e => s`_(k %% mbyl * 2 ^ lam + e))) (mbyl * 2 ^ lam))).
Proof.
move=> ss ss' m0 Hg; rewrite /fft2_from El /log2 up_expnK // -{1}[lam]addn0 range_incl_revE /mkseq foldM_map.
set f := (X in foldM X _ _).
suff H D : (D <= lam)%N -> exists r r2,
  [/\ foldM f (s, s') (iota 0 D) = Ok (r, r2),
   size r = size s, size r2 = size s &
   forall k q, (k < mbyl * 2 ^ D)%N -> (q < 2 ^ (lam - D))%N ->
     r`_(k * 2 ^ (lam - D) + q) =
       bsum gen (2 ^ (lam - D)) D k (fun e => s`_(k %% mbyl * 2 ^ lam + q * 2 ^ D + e))].
  have [r [r2 [-> sr sr2 Hr]]] := H lam (leqnn _).
  rewrite [rbind _ _]/= /rotate_right1 sr ss muln_gt0 m0 expn_gt0 [rbind _ _]/=; congr (Ok (rotr _ _)).
  apply: (@eq_from_nth _ 0); rewrite ?size_map ?size_iota sr ss // => k lt_k.
  rewrite (nth_map 0%N) ?size_iota // nth_iota // add0n.
  have := Hr k 0%N; rewrite subnn expn0 muln1 addn0 => -> //.
  by apply: eq_bsum => e _; rewrite mul0n addn0.
elim: D => [|D IH] le_D.
  exists s, s'; split=> // k q.
  rewrite muln1 subn0 => lt_k lt_q; rewrite /bsum big_ord1 /= muln0 expr0 mul1r.
  by rewrite modn_small // muln1 addn0.
have [r [r2 [E sr sr2 Hr]]] := IH (ltnW le_D).
rewrite -addn1 iotaD foldM_cat E add0n [rbind _ _]/=.
set c := (lam - D.+1)%N; have Ei : (lam - D = c.+1)%N by lia.
have -> : (0 + lam - D = c.+1)%N by lia.
have EP : (size s %/ 2 ^ c.+1 = mbyl * 2 ^ D)%N.
  rewrite ss; have -> : (lam = D + c.+1)%N by lia.
  by rewrite expnD mulnA mulnK ?expn_gt0.
rewrite EP; set P := (mbyl * 2 ^ D)%N.
rewrite [c.+1.-1]/= (foldM_factor (fun s2 f k => foldM (fun s2 j =>
   let! x := vget r (k * 2 ^ c.+1 + 2 * j) in
   let! y := vget r (k * 2 ^ c.+1 + 2 * j + 1) in
   let y := y * f in
   let! s2 := vset s2 (k * 2 ^ c + j) (x + y) in
   vset s2 ((k + P) * 2 ^ c + j) (x - y)) s2 (iota 0 (2 ^ c)))).
rewrite foldM_nested expnS.
have EsP : size r = (2 * P * 2 ^ c)%N.
  rewrite sr ss /P; have -> : (lam = D + c.+1)%N by lia.
  by rewrite expnD expnS; lia.
have [|r' [-> sr' Hr']] := @fft2_stage r r2 (gen ^+ (2 ^ c)) P (2 ^ c)%N EsP.
  by rewrite sr sr2.
exists r', r; split=> //; first by rewrite sr' sr.
rewrite addn1 => k q; rewrite expnS -/c => lt_k lt_q.
rewrite bsumS -expnS -Ei.
have Hlo k' : (k' < P)%N ->
   bsum gen (2 ^ (lam - D)) D k' (fun e => s`_(k' %% mbyl * 2 ^ lam + q * (2 * 2 ^ D) + e))
   = r`_(k' * (2 * 2 ^ c) + 2 * q).
  move=> lt_k'; rewrite -[(2 * 2 ^ c)%N]expnS -Ei Hr //; last by rewrite Ei expnS; lia.
  by apply: eq_bsum => e _; congr (s`_(_ + _ + _)); lia.
have Hhi k' : (k' < P)%N ->
   bsum gen (2 ^ (lam - D)) D k' (fun e => s`_(k' %% mbyl * 2 ^ lam + q * (2 * 2 ^ D) + (2 ^ D + e)))
   = r`_(k' * (2 * 2 ^ c) + (2 * q).+1).
  move=> lt_k'; rewrite -[(2 * 2 ^ c)%N]expnS -Ei Hr //; last by rewrite Ei expnS; lia.
  apply: eq_bsum => e _; congr (s`_ _); move: (2 ^ D)%N (k' %% mbyl * 2 ^ lam)%N => X Y; lia.
have [Hk|Hk] := ltnP k P.
  by rewrite Hlo // Hhi // (Hr' k q Hk lt_q).1 exprM.
have Ek : k = (k - P + P)%N by lia.
have lt_k' : (k - P < P)%N by move: lt_k; rewrite /P; lia.
have G1 : gen ^+ (2 ^ c * P) = -1.
  rewrite /P mulnC -mulnA -expnD; apply: Hg; lia.
have G2 : gen ^+ (2 ^ (lam - D) * P) = 1.
  by rewrite Ei expnS -mulnA mulnC exprM G1 sqrrN expr1n.
rewrite Ek !bsum_shift //.
have -> : ((k - P + P) %% mbyl = (k - P) %% mbyl)%N by rewrite {2}/P addnC mulnC modnMDl.
rewrite Hlo // Hhi // (Hr' _ q lt_k' lt_q).2.
rewrite -addSn mulnDr exprD G1 mulrN1 mulNr; congr (_ - _ * _).
by rewrite exprM.
Qed.

(** closed form of [fft2] on a vector of [mbyl * l] entries *)
Lemma fft2P (s : seq F) gen mbyl : size s = (mbyl * 2 ^ lam)%N -> (0 < mbyl)%N ->
  (forall K, K.+1 = lam -> gen ^+ (mbyl * 2 ^ K) = -1) ->
  fft2 pp s gen = Ok (rotr 1 (mkseq (fun k =>
     bsum gen 1 lam k (fun e => s`_(k %% mbyl * 2 ^ lam + e))) (mbyl * 2 ^ lam))).
Proof. by move=> ss m0 Hg; apply: (@fft2_fromP s (nseq (size s) 0)) => //; rewrite size_nseq. Qed.

End Stages.

(** ** The split transform is the DFT *)

Lemma bitrev_split b lam j e : (e < 2 ^ b)%N ->
  bitrev (b + lam) (j * 2 ^ b + e) = (2 ^ lam * bitrev b e + bitrev lam j)%N.
Proof.
elim: b e => [|b IH] e lt_e.
  have -> : e = 0%N by case: e lt_e.
  by rewrite addn0 muln1 muln0.
rewrite addSn [bitrev b.+1 e]/= [bitrev (b + lam).+1 _]/=.
have E : (j * 2 ^ b.+1 + e = (j * 2 ^ b) * 2 + e)%N by rewrite expnS; lia.
rewrite E modnMDl divnMDl // IH; last by rewrite ltn_divLR // mulnC -expnS.
by rewrite expnD; lia.
Qed.

Section Split.
Variable F : fftField.
Add Field FF : (stdlib_field F).
Implicit Types (c s : seq F) (gen : F).

Lemma big_split_blocks (A : zmodType) a b (f : nat -> A) :
  \sum_(d < a * b) f d = \sum_(j < a) \sum_(e < b) f (j * b + e)%N.
Proof.
elim: a => [|a IH]; first by rewrite mul0n !big_ord0.
rewrite big_ord_recr /= -IH mulSn addnC big_split_ord /=; congr (_ + _).
Qed.

Lemma half_root gen K : (2 ^ K.+1)%N.-primitive_root gen -> gen ^+ (2 ^ K) = -1.
Proof.
move=> pr; have := prim_expr_order pr; rewrite expnSr exprM => /eqP.
rewrite sqrf_eq1 => /orP[|/eqP //].
rewrite -(prim_order_dvd pr) => /dvdn_leq; rewrite expn_gt0 => /(_ isT).
have : (0 < 2 ^ K)%N by rewrite expn_gt0.
by rewrite expnS; lia.
Qed.

Lemma bsum_compose gen b lam k (D : nat -> F) : gen ^+ (2 ^ (b + lam)) = 1 ->
  bsum gen 1 lam k (fun j => bsum gen (2 ^ lam) b (k %% 2 ^ b) (fun e => D (j * 2 ^ b + e)%N)) =
  bsum gen 1 (b + lam) k D.
Proof.
move=> G; rewrite /bsum; have E : (2 ^ (b + lam) = 2 ^ lam * 2 ^ b)%N by rewrite addnC expnD.
rewrite [in RHS]E (big_split_blocks _ _ (fun d => gen ^+ (1 * k.+1 * bitrev (b + lam) d) * D d)).
apply: eq_bigr => j _.
rewrite big_distrr /=; apply: eq_bigr => e _; rewrite mulrA -exprD; congr (_ * _).
rewrite bitrev_split // {3}(divn_eq k (2 ^ b)) !mul1n.
set R := bitrev lam _; set S := bitrev b _; set m := (k %% 2 ^ b)%N; set q := (k %/ 2 ^ b)%N.
have -> : ((q * 2 ^ b + m).+1 * (2 ^ lam * S + R) =
  (2 ^ (b + lam)) * (q * S) + ((q * 2 ^ b + m).+1 * R + 2 ^ lam * m.+1 * S))%N.
  by rewrite expnD; lia.
by rewrite [RHS]exprD exprM G expr1n mul1r /m /q -divn_eq.
Qed.

Lemma bsum_bitrev gen K k c : size c = (2 ^ K)%N ->
  bsum gen 1 K k (fun i => c`_(bitrev K i)) = pval (gen ^+ k.+1) (c : seq F^o).
Proof.
move=> sc; rewrite /bsum /pval sc.
pose h (i : 'I_(2 ^ K)) := Ordinal (bitrev_lt K i).
have hK : involutive h by move=> i; apply: val_inj; rewrite /= bitrevK.
rewrite [RHS](reindex_inj (inv_inj hK)); apply: eq_bigr => i _ /=.
by rewrite mul1n exprM.
Qed.

Lemma rotr_mkseq gen K c : gen ^+ (2 ^ K) = 1 ->
  rotr 1 (mkseq (fun k => pval (gen ^+ k.+1) (c : seq F^o)) (2 ^ K)) =
  mkseq (fun k => pval (gen ^+ k) (c : seq F^o)) (2 ^ K).
Proof.
move=> G; have m0 : (0 < 2 ^ K)%N by rewrite expn_gt0.
case: (2 ^ K)%N m0 G => // m _ G.
rewrite /rotr /rot size_mkseq subn1 /=.
have -> : mkseq (fun k => pval (gen ^+ k.+1) (c : seq F^o)) m.+1 =
  rcons (mkseq (fun k => pval (gen ^+ k.+1) (c : seq F^o)) m) (pval (gen ^+ m.+1) (c : seq F^o)).
  by rewrite /mkseq -addn1 iotaD map_cat cats1 add0n addn1.
rewrite -cats1 drop_size_cat ?size_mkseq // take_size_cat ?size_mkseq // G.
rewrite /mkseq /= expr0; congr (_ :: _).
by rewrite -[1%N]addn0 iotaDl -map_comp; apply: eq_map => i /=; rewrite add1n.
Qed.

(** The king's stage on the parties' stages: [D] is the bit-reversed coefficient vector. *)
Lemma split_fft (pp : pss F) gen b lam c s : p_l pp = (2 ^ lam)%N ->
  (2 ^ (b + lam))%N.-primitive_root gen -> size c = (2 ^ (b + lam))%N ->
  size s = (2 ^ (b + lam))%N ->
  (forall i j, (i < 2 ^ b)%N -> (j < 2 ^ lam)%N ->
     s`_(i * 2 ^ lam + j) =
     bsum gen (2 ^ lam) b i (fun e => c`_(bitrev (b + lam) (j * 2 ^ b + e)))) ->
  fft2 pp s gen = Ok (mkseq (fun i => pval (gen ^+ i) (c : seq F^o)) (2 ^ (b + lam))).
Proof.
move=> El pr sc ss Hs; have G := prim_expr_order pr.
rewrite (@fft2P F pp lam El s gen (2 ^ b)) ?expn_gt0 //; first last.
- move=> K EK; rewrite -expnD; apply: half_root.
  by have -> : ((b + K).+1 = b + lam)%N by rewrite -addnS EK.
- by rewrite -expnD.
rewrite -expnD -rotr_mkseq //; congr (Ok (rotr _ _)); apply: eq_map => k.
rewrite -(bsum_bitrev _ _ sc) -bsum_compose //; apply: eq_bsum => j lt_j.
by rewrite Hs // ltn_pmod ?expn_gt0.
Qed.

End Split.
