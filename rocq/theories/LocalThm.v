(** Theorems about dist-primitives/examples/local_dfft_test.rs. *)
From mathcomp Require Import all_ssreflect all_algebra.
From mathcomp Require Import zify.
From Verif Require Import Base ModelField ModelUtils ModelPss ModelPack ModelFft ModelNet ModelProto.
From Verif Require Import ModelDemo Spec.
From Verif Require Import FieldProofs UtilsProofs PssProofs PackProofs FftProofs.
From Verif Require Import PpProofs ProtoThm.
Set Implicit Arguments.
Unset Strict Implicit.
Unset Printing Implicit Defensive.
Import GRing.Theory.
Local Open Scope ring_scope.
Local Notation Fm F := [lmodType F of F^o].

Section Slots.
Variables (F : fftField) (l m : nat).

Definition grid (s : seq (seq F)) : Prop :=
  size s = m /\ forall a, (a < m)%N -> size (nth [::] s a) = l.

(** slot [i] of every row *)
Definition col (i : nat) (s : seq (seq F)) : seq F := [seq row`_i | row <- s].

Lemma size_col i s : grid s -> size (col i s) = m.
Proof. by case=> <- _; rewrite size_map. Qed.

Lemma nth_col i s a : grid s -> (a < m)%N -> (col i s)`_a = (nth [::] s a)`_i.
Proof. by case=> E _ lt_a; rewrite (nth_map [::]) // E. Qed.

Lemma eq_col i s s' : grid s -> grid s' ->
  (forall a, (a < m)%N -> (nth [::] s a)`_i = (nth [::] s' a)`_i) -> col i s = col i s'.
Proof.
move=> g g' E; apply: (@eq_from_nth _ 0); rewrite !size_col // => a lt_a.
by rewrite !nth_col // E.
Qed.

(** [f] does to every slot what [g] does to a vector, as long as [g] succeeds *)
Definition slotwise (f : seq (seq F) -> res (seq (seq F))) (g : seq F -> res (seq F)) : Prop :=
  forall s r, grid s -> (forall i, (i < l)%N -> g (col i s) = Ok (r i)) ->
  exists s', [/\ f s = Ok s', grid s' & forall i, (i < l)%N -> col i s' = r i].

Lemma slotwise_ext f f' g g' : (forall s, f s = f' s) -> (forall s, g s = g' s) ->
  slotwise f g -> slotwise f' g'.
Proof.
move=> Ef Eg H s r gs Hr; rewrite -Ef; apply: H => // i lt_i; by rewrite Eg Hr.
Qed.

Lemma slotwise_fold I (f : seq (seq F) -> I -> res (seq (seq F))) (g : seq F -> I -> res (seq F)) (js : seq I) :
  (forall j, slotwise (f^~ j) (g^~ j)) ->
  slotwise (fun s => foldM f s js) (fun s => foldM g s js).
Proof.
move=> H; elim: js => [|j js IH] s r gs Hr; first by exists s; split=> // i /Hr[].
pose r1 i := get_ok [::] (g (col i s) j).
have H1 i : (i < l)%N -> g (col i s) j = Ok (r1 i) /\ foldM g (r1 i) js = Ok (r i).
  by move=> /Hr /=; rewrite /r1; case: (g _ _).
have [s1 [E1 g1 C1]] := H j s r1 gs (fun i lt_i => (H1 i lt_i).1).
rewrite /= E1 [rbind _ _]/=; apply: IH => // i lt_i; rewrite C1 //; exact: (H1 i lt_i).2.
Qed.

Lemma vset2P s a i v : grid s -> (a < m)%N -> (i < l)%N -> exists s',
  [/\ vset2 s a i v = Ok s', grid s' &
      forall b j, (nth [::] s' b)`_j = if (b == a) && (j == i) then v else (nth [::] s b)`_j].
Proof.
move=> gs lt_a lt_i; have [sz rows] := gs.
have sa : size (nth [::] s a) = l by apply: rows.
rewrite /vset2 (vget_nth [::]) ?sz // [rbind _ _]/= (vset_nth 0) ?sa // [rbind _ _]/=.
rewrite (vset_nth [::]) ?sz //; eexists; split; first by [].
  split; first by rewrite size_set_nth sz; apply/maxn_idPr.
  move=> b lt_b; rewrite nth_set_nth /=; case: eqP => _; last exact: rows.
  by rewrite size_set_nth sa; apply/maxn_idPr.
move=> b j; rewrite nth_set_nth /=; case: eqP => [->|_] //=.
by rewrite nth_set_nth /=; case: eqP.
Qed.

Lemma vget2P s a i : grid s -> (a < m)%N -> (i < l)%N -> vget2 s a i = Ok (nth [::] s a)`_i.
Proof.
move=> [sz rows] lt_a lt_i; rewrite /vget2 (vget_nth [::]) ?sz // [rbind _ _]/=.
by rewrite (vget_nth 0) ?rows.
Qed.

Lemma vget_lt A (s : seq A) a v : vget s a = Ok v -> (a < size s)%N.
Proof.
by rewrite /vget; elim: s a => [|x s IH] [|a] //=; rewrite ltnS; apply: IH.
Qed.

(** one butterfly on all slots *)
Lemma slotwise_butterfly a b a' b' factor : (0 < l)%N ->
  slotwise (fun s => foldM (fun s1 ii =>
      let! x := vget2 s1 a ii in
      let! y := vget2 s1 b ii in
      let y := y * factor in
      let! s1 := vset2 s1 a' ii (x + y) in
      vset2 s1 b' ii (x - y)) s (iota 0 l))
    (fun px =>
      let! x := vget px a in
      let! y := vget px b in
      let y := y * factor in
      let! px := vset px a' (x + y) in
      vset px b' (x - y)).
Proof.
move=> l0 s r gs Hr.
have [la lb la' lb'] : [/\ (a < m)%N, (b < m)%N, (a' < m)%N & (b' < m)%N].
  have := Hr 0%N l0; have sc := size_col 0 gs.
  case Ea: (vget _ a) => [x|//|//]; have := vget_lt Ea; rewrite sc => la /=.
  case Eb: (vget _ b) => [y|//|//]; have := vget_lt Eb; rewrite sc => lb /=.
  rewrite /vset sc; case: (ltnP a' m) => // la' /=; rewrite size_set_nth sc.
  by rewrite (maxn_idPr _) //; case: (ltnP b' m).
pose X i := (nth [::] s a)`_i; pose Y i := (nth [::] s b)`_i * factor.
have Er i : (i < l)%N -> r i = set_nth 0 (set_nth 0 (col i s) a' (X i + Y i)) b' (X i - Y i).
  move=> lt_i; have := Hr i lt_i; have sc := size_col i gs.
  rewrite (vget_nth 0) ?sc // [rbind _ _]/= (vget_nth 0) ?sc // [rbind _ _]/=.
  rewrite (vset_nth 0) ?sc // [rbind _ _]/= (vset_nth 0) => [E|].
    by rewrite -(Ok_inj E) !nth_col.
  by rewrite size_set_nth sc (maxn_idPr _).
have H k : (k <= l)%N -> exists s', [/\ foldM (fun s1 ii =>
      let! x := vget2 s1 a ii in
      let! y := vget2 s1 b ii in
      let y := y * factor in
      let! s1 := vset2 s1 a' ii (x + y) in
      vset2 s1 b' ii (x - y)) s (iota 0 k) = Ok s', grid s' &
    forall c j, (nth [::] s' c)`_j = if (j < k)%N then
       (if c == b' then X j - Y j else if c == a' then X j + Y j else (nth [::] s c)`_j)
       else (nth [::] s c)`_j].
  elim: k => [|k IH] le_k; first by exists s.
  have [s1 [E1 g1 H1]] := IH (ltnW le_k).
  rewrite -addn1 iotaD foldM_cat E1 add0n [rbind _ _]/= !vget2P // [rbind _ _]/=.
  rewrite !H1 ltnn -/(X k) -/(Y k).
  have [s2 [E2 g2 H2]] := vset2P (X k + Y k) g1 la' le_k.
  have [s3 [E3 g3 H3]] := vset2P (X k - Y k) g2 lb' le_k.
  rewrite E2 /= E3; exists s3; split=> // c j; rewrite H3 H2 H1 addn1 ltnS [(j <= k)%N]leq_eqVlt.
  by case: (j =P k) => [->|_] /=; rewrite ?ltnn; case: (c == b'); case: (c == a').
have [s' [E g' H']] := H l (leqnn _).
exists s'; split=> // i lt_i; rewrite Er //.
apply: (@eq_from_nth _ 0); rewrite size_col //.
  by rewrite !size_set_nth size_col // !(maxn_idPr _).
move=> c lt_c; rewrite nth_col // H' lt_i nth_set_nth /=; case: eqP => // _.
by rewrite nth_set_nth /=; case: eqP => // _; rewrite nth_col.
Qed.

End Slots.

Section Local.
Variables (F : fftField) (pp : pss F) (dom : domain F) (b lam : nat).
Hypotheses (El : p_l pp = (2 ^ lam)%N) (Es : d_size dom = (2 ^ (b + lam))%N) (Eo : d_offset dom = 1).
Hypothesis pr : (2 ^ (b + lam))%N.-primitive_root (d_gen dom).
  Local Notation l := (p_l pp).
  Local Notation m := (2 ^ b)%N.
  Local Notation gen := (d_gen dom).

Let l0 : (0 < l)%N. Proof. by rewrite El expn_gt0. Qed.
Let Eml : d_size dom = (m * l)%N. Proof. by rewrite Es El expnD. Qed.

Lemma elementE i : element dom i = gen ^+ i.
Proof. by rewrite /element Eo mul1r. Qed.

Lemma local_fft1_slots s r : grid l m s ->
  (forall i, (i < l)%N -> fft1 pp (col i s) gen = Ok (r i)) ->
  exists s', [/\ local_fft1 pp dom s = Ok s', grid l m s' & forall i, (i < l)%N -> col i s' = r i].
Proof.
move=> gs Hr; rewrite /local_fft1 Eml.
have {}Hr i : (i < l)%N -> _ := Hr i.
set js := range_incl_rev _ _.
pose body P fs (px : seq F) k := foldM (fun px j =>
              let! x := vget px (2 * j * P + k) in
              let! y := vget px ((2 * j + 1) * P + k) in
              let y := y * fs in
              let! px := vset px (j * (2 * P) + k) (x + y) in
              vset px (j * (2 * P) + k + P) (x - y)) px.
pose g (px : seq F) i :=
  foldM (fun px k => body ((m * l) %/ 2 ^ i)%N ((gen ^+ (2 ^ i.-1)) ^+ k.+1) px k (iota 0 (2 ^ i.-1 %/ l)))
    px (iota 0 ((m * l) %/ 2 ^ i)).
set f := (X in foldM X _ _).
apply: (@slotwise_fold F l m _ f g) => //.
  move=> i; rewrite /f /g.
  pose fb (s1 : seq (seq F)) fs k := foldM (fun s1 j => foldM (fun s1 ii =>
                let! x := vget2 s1 (2 * j * ((m * l) %/ 2 ^ i) + k) ii in
                let! y := vget2 s1 ((2 * j + 1) * ((m * l) %/ 2 ^ i) + k) ii in
                let y := y * fs in
                let! s1 := vset2 s1 (j * (2 * ((m * l) %/ 2 ^ i)) + k) ii (x + y) in
                vset2 s1 (j * (2 * ((m * l) %/ 2 ^ i)) + k + ((m * l) %/ 2 ^ i)) ii (x - y))
              s1 (iota 0 l))
            s1 (iota 0 (2 ^ i.-1 %/ l)).
  apply: (@slotwise_ext F l m (fun s => foldM (fun s1 k => fb s1 ((gen ^+ (2 ^ i.-1)) ^+ k.+1) k) s
     (iota 0 ((m * l) %/ 2 ^ i)))) => [s1|s1|].
  - by rewrite elementE (foldM_factor fb); case: (foldM _ _ _).
  - by [].
  apply: slotwise_fold => k; apply: slotwise_fold => j; exact: slotwise_butterfly.
move=> i lt_i; rewrite -(Hr i lt_i) /fft1 (size_col _ gs) -/js.
apply: eq_foldM => px j; rewrite /g.
pose gb (px : seq F) fs k := body ((m * l) %/ 2 ^ j)%N fs px k (iota 0 (2 ^ j.-1 %/ l)).
by rewrite (foldM_factor gb); case: (foldM _ _ _).
Qed.

Lemma local_fft2E sx : size sx = d_size dom -> local_fft2 pp dom sx = fft2_from pp sx sx gen (size sx).
Proof.
move=> ss; rewrite /local_fft2 /fft2_from ss; congr rbind.
by apply: eq_foldM => -[s1 s2] i; rewrite elementE.
Qed.

(** the program, for every vector of coefficients *)
Lemma local_dfftP (x : seq F) : size x = d_size dom ->
  local_dfft_test pp dom x = Ok (fft dom (x : seq (Fm F))).
Proof.
move=> sx; have sx' : size x = (2 ^ (b + lam))%N by rewrite sx.
rewrite /local_dfft_test /rassert l0 (fft_rearrangeP 0 sx').
set d := mkseq _ _; cbn [rbind].
have Em : (d_size dom %/ l)%N = m by rewrite Eml mulnK.
rewrite Em; set px := mkseq _ m.
have sd : size d = (m * l)%N by rewrite size_mkseq El expnD.
have m0 : (0 < m)%N by rewrite expn_gt0.
have Epx e : (e < m)%N -> nth [::] px e = mkseq (fun j => d`_(e + j * m)) l.
  move=> lt_e; rewrite nth_mkseq // (step_by_spec 0) // size_drop sd.
  have -> : div_ceil (m * l - e) m = l.
    rewrite /div_ceil; have -> : (m * l - e + m.-1 = l * m + (m.-1 - e))%N.
      by move: l0 m0 lt_e; move: (p_l pp) m => L M; nia.
    by rewrite divnMDl // divn_small; lia.
  by apply: eq_map => j; rewrite nth_drop.
have gp : grid l m px by split; [rewrite size_mkseq|move=> a lt_a; rewrite Epx // size_mkseq].
pose r j := mkseq (fun k => bsum gen (2 ^ lam) b k (nth 0 (col j px))) m.
have [|s1 [-> g1 Hs1]] := local_fft1_slots gp (r := r).
  move=> i lt_i; apply: fft1P => //; first exact: size_col gp.
  by move=> K EK; apply: half_root; rewrite EK.
cbn [rbind]; have [ss1 rows1] := g1.
have Es1 : s1 = mkseq (nth [::] s1) m by rewrite -ss1 mkseq_nth.
have -> : mapM (vget s1) (iota 0 m) = Ok s1.
  rewrite [in RHS]Es1; apply: mapM_ok => i0 i; rewrite size_iota => lt_i.
  by rewrite nth_iota // add0n (vget_nth [::]) ?ss1.
cbn [rbind].
have Ef : flatten s1 = mkseq (fun q => (nth [::] s1 (q %/ l))`_(q %% l)) (m * l).
  rewrite -(@flatten_mkseq_blocks _ 0 l m (fun e j => (nth [::] s1 e)`_j)) //.
  congr flatten; apply: (@eq_from_nth _ [::]); rewrite ?size_mkseq // ss1 => e lt_e.
  by rewrite nth_mkseq // -{1}(rows1 e lt_e) mkseq_nth.
have sf : size (flatten s1) = (2 ^ (b + lam))%N by rewrite Ef size_mkseq El expnD.
have Hf i j : (i < 2 ^ b)%N -> (j < 2 ^ lam)%N -> (flatten s1)`_(i * 2 ^ lam + j) =
     bsum gen (2 ^ lam) b i (fun e => x`_(bitrev (b + lam) (j * 2 ^ b + e))).
  move=> lt_i; rewrite -El => lt_j; rewrite Ef nth_mkseq; last first.
    by move: lt_i lt_j; move: (2 ^ b)%N (p_l pp) => X Y; nia.
  rewrite modnMDl (modn_small lt_j) divnMDl // (divn_small lt_j) addn0.
  rewrite -(nth_col j g1) // Hs1 // nth_mkseq // El; apply: eq_bsum => e lt_e.
  rewrite (nth_col _ gp) // Epx // nth_mkseq // nth_mkseq; first by congr (x`_ (bitrev _ _)); lia.
  by move: lt_e lt_j; rewrite El expnD; move: (2 ^ b)%N (2 ^ lam)%N => X Y; nia.
have E2 := split_fft El pr sx' sf Hf.
rewrite local_fft2E ?sf //.
have -> : fft2_from pp (flatten s1) (flatten s1) gen (2 ^ (b + lam)) = fft2 pp (flatten s1) gen.
  rewrite -sf (fft2_fromP El (mbyl := m)) // ?(fft2P El (mbyl := m)) // ?sf -?expnD //.
    move=> K EK; rewrite -expnD; apply: half_root.
    by have -> : ((b + K).+1 = b + lam)%N by rewrite -addnS EK.
  move=> K EK; rewrite -expnD; apply: half_root.
  by have -> : ((b + K).+1 = b + lam)%N by rewrite -addnS EK.
rewrite E2; cbn [rbind].
have -> : fft dom (x : seq (Fm F)) = mkseq (fun i => pval (gen ^+ i) (x : seq F^o)) (2 ^ (b + lam)).
  by rewrite fft_mkseq ?sx // Es; apply: eq_map => i; rewrite elementE.
by rewrite eqxx.
Qed.

End Local.

(*** theorems ***)

(** C64: the single-machine rendition of the two stages computes the transform; the assertion at
    the end of the program holds *)
Lemma c64_local_dfft (F : fftField) dbg lam b (pp : pss F) dom (x : seq F) :
  pss_new F dbg (2 ^ lam) = Ok pp -> domain_new F (2 ^ (b + lam)) = Some dom ->
  size x = (2 ^ (b + lam))%N ->
  local_dfft_test pp dom x =
    Ok (mkseq (fun i => \sum_(e < 2 ^ (b + lam)) x`_e * d_gen dom ^+ (i * e)) (2 ^ (b + lam))).
Proof.
move=> new Edom sx; have [[pr _ _ _ _ _] H2 H3 _] := domain_new_ok Edom.
rewrite next_pow2_expn in H2; rewrite H2 in pr.
rewrite (local_dfftP (pss_new_l new) H2 H3 pr) ?H2 //; congr Ok.
rewrite fft_mkseq ?sx ?H2 //; apply: eq_map => i; rewrite elementE // /pval sx.
by apply: eq_bigr => e _; rewrite exprM mulrC.
Qed.
