(** Proofs about the QAP and its sharing. *)
From mathcomp Require Import all_ssreflect all_algebra.
From mathcomp Require Import zify.
From Verif Require Import RingTac Base ModelField ModelUtils ModelPss ModelPack ModelFft ModelNet.
From Verif Require Import ModelProto ModelQap Spec SpecNet SpecProto SpecGroth.
From Verif Require Import FieldProofs UtilsProofs PssProofs PackProofs FftProofs ProtoProofs.
Set Implicit Arguments.
Unset Strict Implicit.
Unset Printing Implicit Defensive.
Import GRing.Theory.
Local Open Scope ring_scope.

Section Qap.
Variable F : fftField.

Lemma evaluate_constraintP (row : seq (F * nat)) z : row_below (size z) row ->
  evaluate_constraint row z = Ok (row_value row z).
Proof.
rewrite /evaluate_constraint /row_value => Hr.
suff H acc : foldM (fun sum (t : F * nat) => let! val := vget z t.2 in Ok (sum + val * t.1)) acc row
    = Ok (acc + \sum_(t <- row) t.1 * z`_t.2) by rewrite H add0r.
elim: row acc Hr => [|t row IH] acc /=; first by rewrite big_nil addr0.
case/andP=> lt_t Hr; rewrite (vget_nth 0) //= IH // big_cons addrA.
by rewrite [z`_t.2 * t.1]mulrC.
Qed.

Lemma evaluate_constraint_panic (row : seq (F * nat)) z : ~~ row_below (size z) row ->
  evaluate_constraint row z = Panic.
Proof.
rewrite /evaluate_constraint; elim: row 0 => [|t row IH] acc //=.
rewrite negb_and -leqNgt; case: (ltnP t.2 (size z)) => [lt_t|le_t] /=; last by rewrite vget_panic.
by rewrite (vget_nth 0) //=; apply: IH.
Qed.

Lemma evaluate_constraint_nerr (row : seq (F * nat)) z e : evaluate_constraint row z <> Err e.
Proof.
by case H: (row_below (size z) row); [rewrite evaluate_constraintP|rewrite evaluate_constraint_panic // H].
Qed.

Lemma least_pow2P x : least_pow2 x (next_pow2 x).
Proof.
exists (up_log 2 x); split=> //; first exact: up_logP.
by move=> k'; apply: up_log_min.
Qed.

(** the loop over the constraints *)
Section Rows.
Variables (z : seq F) (ra rb : seq (seq (F * nat))).
Let body := fun (ab : seq F * seq F) i =>
  let! at_i := vget ra i in
  let! bt_i := vget rb i in
  let! va := evaluate_constraint at_i z in
  let! a := vset ab.1 i va in
  let! vb := evaluate_constraint bt_i z in
  let! b := vset ab.2 i vb in
  Ok (a, b).

Lemma rows_loop N m : size ra = m -> size rb = m -> (m <= N)%N ->
  all (row_below (size z)) ra -> all (row_below (size z)) rb ->
  forall k, (k <= m)%N -> foldM body (nseq N 0, nseq N 0) (iota 0 k) =
    Ok (mkseq (fun i => if (i < k)%N then row_value (nth [::] ra i) z else 0) N,
        mkseq (fun i => if (i < k)%N then row_value (nth [::] rb i) z else 0) N).
Proof.
move=> sa sb le_m Ha Hb; elim=> [|k IH] le_k.
  congr (Ok (_, _)); apply: (@eq_from_nth _ 0); rewrite size_nseq ?size_mkseq // => i lt_i;
  by rewrite nth_nseq lt_i nth_mkseq.
rewrite -addn1 iotaD foldM_cat IH; last by lia.
rewrite [rbind (Ok _) _]/= add0n /= /body (vget_nth [::]) ?sa // (vget_nth [::]) ?sb //=.
rewrite evaluate_constraintP; last by apply: (allP Ha); rewrite mem_nth ?sa.
rewrite [rbind (Ok _) _]/= (vset_nth 0) ?size_mkseq /=; last by lia.
rewrite evaluate_constraintP; last by apply: (allP Hb); rewrite mem_nth ?sb.
rewrite [rbind (Ok _) _]/= (vset_nth 0) ?size_mkseq /=; last by lia.
by congr (Ok (_, _)); apply: (@eq_from_nth _ 0);
  rewrite size_set_nth ?size_mkseq ?(maxn_idPr _) //; try lia; move=> i lt_i;
  rewrite nth_set_nth /= !nth_mkseq //;
  (case: (i =P k) => [->|ne]; first by rewrite addn1 ltnSn);
  (have -> : (i < k + 1)%N = (i < k)%N by lia).
Qed.

Lemma rows_panic N m i : (i < m)%N -> (i < size ra)%N -> (i < size rb)%N ->
  (m <= size ra)%N -> (m <= size rb)%N -> (m <= N)%N ->
  ~~ (row_below (size z) (nth [::] ra i) && row_below (size z) (nth [::] rb i)) ->
  foldM body (nseq N 0, nseq N 0) (iota 0 m) = Panic.
Proof.
move=> lt_i ia ib ma mb mN bad.
have -> : iota 0 m = iota 0 i ++ i :: iota i.+1 (m - i.+1).
  by rewrite -[i :: _]/(iota (0 + i) (m - i.+1).+1) -iotaD; congr (iota _ _); lia.
have P (ab : seq F * seq F) j : size ab.1 = N -> size ab.2 = N -> (j < m)%N ->
    (exists ab', [/\ body ab j = Ok ab', size ab'.1 = N & size ab'.2 = N]) \/ body ab j = Panic.
  move=> s1 s2 jm; rewrite /body (vget_nth [::]) ?(leq_trans jm) // (vget_nth [::]) ?(leq_trans jm) //=.
  case E1: (evaluate_constraint (nth [::] ra j) z) => [va|e|] /=; [|by case: (evaluate_constraint_nerr E1)|by right].
  rewrite (vset_nth 0) ?s1 ?(leq_trans jm) //=.
  case E2: (evaluate_constraint (nth [::] rb j) z) => [vb|e|] /=; [|by case: (evaluate_constraint_nerr E2)|by right].
  rewrite (vset_nth 0) ?s2 ?(leq_trans jm) //=; left; eexists; split; first by [].
    by rewrite size_set_nth s1; apply/maxn_idPr; lia.
  by rewrite size_set_nth s2; apply/maxn_idPr; lia.
have run k : (k <= m)%N ->
    (exists ab, [/\ foldM body (nseq N 0, nseq N 0) (iota 0 k) = Ok ab, size ab.1 = N & size ab.2 = N])
    \/ foldM body (nseq N 0, nseq N 0) (iota 0 k) = Panic.
  elim: k => [|k IH] km; first by left; exists (nseq N 0, nseq N 0); rewrite !size_nseq.
  rewrite -addn1 iotaD foldM_cat; case: IH => [|[ab [-> s1 s2]]|->]; [by lia| |by right].
  rewrite add0n /=; case: (P ab k s1 s2 km) => [[ab' [-> s1' s2']]|->]; last by right.
  by left; exists ab'.
rewrite foldM_cat; case: (run i (ltnW lt_i)) => [[ab [-> s1 s2]]|->] //.
suff E : body ab i = Panic by rewrite /= E.
rewrite /body (vget_nth [::]) // (vget_nth [::]) //=.
case E1: (row_below (size z) (nth [::] ra i)) bad => /= bad; last by rewrite evaluate_constraint_panic ?E1.
rewrite evaluate_constraintP //= (vset_nth 0) ?s1 ?(leq_trans lt_i) //=.
by rewrite evaluate_constraint_panic.
Qed.

End Rows.

Definition qap_a (m : matrices F) (z : seq F) (N : nat) : seq F := mkseq (fun i =>
  if (i < cm_num_constraints m)%N then row_value (nth [::] (cm_a m) i) z
  else if (i < cm_num_constraints m + num_instance_variables m)%N
       then z`_(i - cm_num_constraints m) else 0) N.
Definition qap_b (m : matrices F) (z : seq F) (N : nat) : seq F := mkseq (fun i =>
  if (i < cm_num_constraints m)%N then row_value (nth [::] (cm_b m) i) z else 0) N.
Definition qap_c (m : matrices F) (z : seq F) (N : nat) : seq F := mkseq (fun i =>
  if (i < cm_num_constraints m)%N
  then row_value (nth [::] (cm_a m) i) z * row_value (nth [::] (cm_b m) i) z else 0) N.

Lemma qapP (m : matrices F) z dom :
  domain_new F (cm_num_constraints m + num_instance_variables m) = Some dom ->
  size (cm_a m) = cm_num_constraints m -> size (cm_b m) = cm_num_constraints m ->
  (num_instance_variables m <= size z)%N ->
  all (row_below (size z)) (cm_a m) -> all (row_below (size z)) (cm_b m) ->
  qap m z = Ok (Qap (num_instance_variables m) (cm_num_constraints m) (qap_a m z (d_size dom))
                    (qap_b m z (d_size dom)) (qap_c m z (d_size dom)) dom).
Proof.
move=> Ed sa sb le_z Ha Hb; rewrite /qap Ed [rbind (Ok _) _]/=.
have [_ Es _ _] := domain_new_ok Ed.
have le_N : (cm_num_constraints m + num_instance_variables m <= d_size dom)%N.
  by rewrite Es; have [k [_]] := least_pow2P (cm_num_constraints m + num_instance_variables m).
rewrite {1}/rassert (leq_trans _ le_N) ?leq_addr // [rbind (Ok _) _]/= sa sb !minnn.
rewrite (@rows_loop z (cm_a m) (cm_b m) (d_size dom) (cm_num_constraints m)) //; last by lia.
rewrite [rbind (Ok _) _]/= {1}/rassert le_z [rbind (Ok _) _]/= size_mkseq {1}/rassert le_N.
rewrite [rbind (Ok _) _]/=.
set f := (X in foldM X _ _); set a0 := mkseq _ _.
have sa0 : size a0 = d_size dom by rewrite size_mkseq.
set nc := cm_num_constraints m; set ni := num_instance_variables m.
have le_z' : (ni <= size z)%N by []; have le_N' : (nc + ni <= d_size dom)%N by [].
have loop_a k : (k <= ni)%N -> foldM f a0 (iota 0 k) = Ok (mkseq (fun i =>
    if (i < nc)%N then row_value (nth [::] (cm_a m) i) z
    else if (i < nc + k)%N then z`_(i - nc) else 0) (d_size dom)).
  elim: k => [|k IH] le_k.
    congr Ok; apply: eq_map => i; rewrite addn0 /nc; case: ltnP => //.
  rewrite -addn1 iotaD foldM_cat IH; last by lia.
  rewrite [rbind (Ok _) _]/= add0n /= /f (vget_nth 0); last exact: leq_trans le_z'.
  rewrite [rbind (Ok _) _]/= (vset_nth 0) ?size_mkseq /=; last by lia.
  congr Ok; apply: (@eq_from_nth _ 0); rewrite size_set_nth ?size_mkseq ?(maxn_idPr _) //; try lia.
  move=> i lt_i; rewrite nth_set_nth /= !nth_mkseq //.
  case: (i =P (nc + k)%N) => [->|ne]; first by rewrite ltnNge leq_addr /= addn1 addnS ltnSn addKn.
  by case: ifP => // _; congr (if _ then _ else _); lia.
rewrite loop_a // [rbind (Ok _) _]/=.
set g := (X in foldM X _ _).
have [||r [Er sr Hr]] := @foldM_up _ 0 g (fun i => row_value (nth [::] (cm_a m) i) z *
    row_value (nth [::] (cm_b m) i) z) (nseq (d_size dom) 0) 0 nc.
- move=> r j /andP[_ lt_j] sr _; rewrite size_nseq in sr; rewrite /g.
  have lj : (j < d_size dom)%N by lia.
  rewrite (vget_nth 0) ?size_mkseq //= (vget_nth 0) ?size_mkseq //= !nth_mkseq //.
  by rewrite add0n in lt_j; rewrite lt_j (vset_nth 0) // sr.
- by rewrite size_nseq; lia.
rewrite Er [rbind (Ok _) _]/=; congr (Ok (Qap _ _ _ _ _ _)).
apply: (@eq_from_nth _ 0); rewrite sr size_nseq ?size_mkseq // => i lt_i.
by rewrite Hr nth_nseq nth_mkseq // lt_i.
Qed.

End Qap.

Lemma mapM_nth I A (f : I -> res A) js r j0 r0 i : mapM f js = Ok r -> (i < size js)%N ->
  f (nth j0 js i) = Ok (nth r0 r i).
Proof.
elim: js r i => [|j js IH] r i //=.
case E: (f j) => [a|//|//] /=; case E': (mapM f js) => [r'|//|//] /= [<-].
by case: i => [|i] //= lt_i; apply: IH.
Qed.

Lemma transpose_columns A (shs : seq (seq A)) (out : nat -> seq A) n :
  transpose shs = Ok (mkseq out n) ->
  forall i, (i < n)%N -> mapM (fun row => vget row i) shs = Ok (out i).
Proof.
rewrite /transpose; case: (rassert _) => [?|//|//] /=; case: (vget shs 0) => [r0|//|//] /=.
case: (vget r0 0) => [?|//|//] /= E i lt_i.
have := size_mapM E; rewrite size_mkseq size_iota => En.
have := mapM_nth 0%N [::] E (i := i); rewrite size_iota -En => /(_ lt_i).
by rewrite nth_iota -?En // add0n nth_mkseq.
Qed.

Section Pss.
Variable F : fftField.
  Local Notation Fm := [lmodType F of F^o].
Variables (pp : pss F) (ok : pp_ok pp) (lam b : nat).
Hypothesis El : p_l pp = (2 ^ lam)%N.

Lemma qap_pack_columns dbg (v : seq F) r : size v = (2 ^ (b + lam))%N ->
  exists packed out, [/\ qap_pack dbg pp v r = Ok packed,
    forall i, (i < p_n pp)%N -> mapM (fun x => vget x i) packed = Ok (out i) &
    vsharing (T := Fm) pp (2 * p_l pp) (2 ^ b) out (strides (T := Fm) b (b + lam) v)].
Proof.
move=> sv; rewrite /qap_pack (fft_rearrangeP 0 sv) [rbind (Ok _) _]/=.
set w := mkseq _ _.
have sw : size w = (2 ^ b * p_l pp)%N by rewrite size_mkseq El expnD.
have m0 : (0 < 2 ^ b)%N by rewrite expn_gt0.
have [out [E Hv]] := pack_strided_deal (T := Fm) ok dbg r m0 sw.
have [packed -> Et] := rbind_ok E.
exists packed, out; split=> //; first exact: transpose_columns Et.
apply: vsharing_ext Hv => // e j lt_e lt_j; rewrite /strides nth_mkseq //.
rewrite El in lt_j; rewrite expnD.
by move: lt_e lt_j; generalize (2 ^ lam)%N (2 ^ b)%N => x y; nia.
Qed.

Lemma qap_pssP dbg (q : qap_t F) r :
  size (q_a q) = (2 ^ (b + lam))%N -> size (q_b q) = (2 ^ (b + lam))%N ->
  size (q_c q) = (2 ^ (b + lam))%N ->
  exists xa xb xc : nat -> seq F, [/\
    qap_pss dbg pp q r = Ok (mkseq (fun p => Qap (num_inputs q) (num_constraints q)
                                      (xa p) (xb p) (xc p) (q_domain q)) (p_n pp)),
    vsharing (T := Fm) pp (2 * p_l pp) (2 ^ b) xa (strides (T := Fm) b (b + lam) (q_a q)),
    vsharing (T := Fm) pp (2 * p_l pp) (2 ^ b) xb (strides (T := Fm) b (b + lam) (q_b q)) &
    vsharing (T := Fm) pp (2 * p_l pp) (2 ^ b) xc (strides (T := Fm) b (b + lam) (q_c q))].
Proof.
move=> sa sb sc; rewrite /qap_pss.
have [pa [xa [-> Ca Ha]]] := qap_pack_columns dbg r sa.
set r1 := rskip _ _; have [pb [xb [-> Cb Hb]]] := qap_pack_columns dbg r1 sb.
set r2 := rskip _ _; have [pc [xc [-> Cc Hc]]] := qap_pack_columns dbg r2 sc.
exists xa, xb, xc; split=> //; rewrite [rbind (Ok _) _]/=.
rewrite (mapM_ok (g := fun p => Qap (num_inputs q) (num_constraints q) (xa p) (xb p) (xc p)
  (q_domain q))) // => i0 k; rewrite size_iota => lt_k.
by rewrite nth_iota // add0n Ca // Cb // Cc.
Qed.

(** a domain with fewer than [l] points: nothing is shared *)
Lemma qap_pss_small dbg (q : qap_t F) r k : (0 < p_l pp)%N -> (2 ^ k < p_l pp)%N ->
  size (q_a q) = (2 ^ k)%N -> size (q_b q) = (2 ^ k)%N -> size (q_c q) = (2 ^ k)%N ->
  qap_pss dbg pp q r = Ok (nseq (p_n pp) (Qap (num_inputs q) (num_constraints q)
                                             [::] [::] [::] (q_domain q))).
Proof.
move=> l0 lt_k sa sb sc; rewrite /qap_pss.
have E (v : seq F) r' : size v = (2 ^ k)%N -> qap_pack dbg pp v r' = Ok [::].
  move=> sv; rewrite /qap_pack (fft_rearrangeP 0 sv) [rbind (Ok _) _]/=.
  by rewrite /pack_strided /rassert l0 [rbind (Ok _) _]/= size_mkseq divn_small.
rewrite !E //= (mapM_ok (g := fun=> Qap (num_inputs q) (num_constraints q)
                                             [::] [::] [::] (q_domain q))) //.
congr Ok; transitivity (nseq (size (iota 0 (p_n pp))) (Qap (num_inputs q) (num_constraints q)
  [::] [::] [::] (q_domain q))); last by rewrite size_iota.
by elim: (iota _ _) => //= j js ->.
Qed.

End Pss.
