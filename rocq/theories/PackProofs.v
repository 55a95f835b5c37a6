(** Proofs about dist-primitives/src/utils/pack.rs. *)
From mathcomp Require Import all_ssreflect all_algebra.
From mathcomp Require Import zify.
From Verif Require Import RingTac Base ModelField ModelUtils ModelPss ModelPack Spec.
From Verif Require Import FieldProofs UtilsProofs PssProofs.
Set Implicit Arguments.
Unset Strict Implicit.
Unset Printing Implicit Defensive.
Import GRing.Theory.
Local Open Scope ring_scope.

Lemma mapM_panic I B (f : I -> res B) (js : seq I) k i0 :
  (forall i e, f i <> Err e) -> (k < size js)%N -> f (nth i0 js k) = Panic -> mapM f js = Panic.
Proof.
move=> nE; elim: js k => [|j js IH] [|k] //= lt_k; first by move=> ->.
by move=> E; case Ej: (f j) => [b|e|] //=; [rewrite (IH k)|case: (nE j e)].
Qed.

Lemma vget_nerr B (s : seq B) i e : vget s i <> Err e.
Proof. by rewrite /vget; case: (drop i s). Qed.

Lemma mapM_nerr I B (f : I -> res B) (js : seq I) e :
  (forall i e, f i <> Err e) -> mapM f js <> Err e.
Proof.
move=> nE; elim: js => //= j js; case Ej: (f j) => [b|e'|] //=; last by case: (nE j e').
by case: (mapM f js) => //= e' H [E]; apply: H; rewrite E.
Qed.

Section Transpose.
Variable A : Type.
Implicit Types (m : seq (seq A)).

(** [m] has [rows] rows of length [cols] *)
Definition rect (rows cols : nat) m : Prop :=
  size m = rows /\ forall i, (i < rows)%N -> size (nth [::] m i) = cols.

Lemma transpose_rect (x0 : A) rows cols m : (0 < rows)%N -> (0 < cols)%N -> rect rows cols m ->
  transpose m = Ok (mkseq (fun c => mkseq (fun r => nth x0 (nth [::] m r) c) rows) cols).
Proof.
move=> r0 c0 [sm Hm]; rewrite /transpose sm r0 /rassert [rbind _ _]/=.
rewrite (vget_nth [::]) ?sm // [rbind _ _]/= (vget_nth x0) ?Hm // [rbind _ _]/=.
rewrite (@mapM_ok _ _ _ (fun c => mkseq (fun r => nth x0 (nth [::] m r) c) rows)) //.
move=> i0 c; rewrite size_iota => lt_c; rewrite nth_iota // add0n.
rewrite (@mapM_ok _ _ _ (fun row => nth x0 row c)); last first.
  move=> j0 j; rewrite sm => lt_j; rewrite (set_nth_default [::]) ?sm //.
  by rewrite (vget_nth x0) // Hm.
congr Ok; apply: (@eq_from_nth _ x0); rewrite size_map ?size_mkseq // sm => j lt_j.
by rewrite (nth_map [::]) ?sm // nth_mkseq.
Qed.

Lemma rect_mkseq (f : nat -> nat -> A) rows cols :
  rect rows cols (mkseq (fun r => mkseq (f r) cols) rows).
Proof. by split=> [|i lt_i]; rewrite ?size_mkseq // nth_mkseq // size_mkseq. Qed.

Lemma rect_eq (x0 : A) rows cols m : rect rows cols m ->
  m = mkseq (fun r => mkseq (fun c => nth x0 (nth [::] m r) c) cols) rows.
Proof.
move=> [sm Hm]; apply: (@eq_from_nth _ [::]); rewrite ?size_mkseq // sm => i lt_i.
rewrite nth_mkseq //; apply: (@eq_from_nth _ x0); rewrite ?size_mkseq Hm // => j lt_j.
by rewrite nth_mkseq.
Qed.

End Transpose.

Section PackVec.
Variable F : fftField.
Variable T : lmodType F.
Variables (pp : pss F) (ok : pp_ok pp).
Local Notation l := (p_l pp).
Local Notation n := (p_n pp).

Lemma size_nth_chunks (s : seq T) m i : size s = (m * l)%N -> (i < m)%N ->
  size (nth [::] (chunks l s) i) = l.
Proof.
move=> ss lt_i; rewrite nth_chunks ?ss ?div_ceil_mul ?(pp_l_gt0 ok) //.
rewrite size_take size_drop ss -mulnBl.
have : (l <= (m - i) * l)%N by apply: leq_pmull; lia.
by case: ltnP => //; lia.
Qed.

(** [pack_vec]: sharing of every chunk *)
Lemma pack_vec_sharing dbg (secrets : seq T) r m : size secrets = (m * l)%N ->
  exists shares, [/\ pack_vec dbg pp secrets r = Ok shares, rect m n shares &
    forall i, (i < m)%N ->
      sharing pp (2 * l) (nth [::] shares i) (nth [::] (chunks l secrets) i)].
Proof.
move=> ss; rewrite /pack_vec /rassert (pp_l_gt0 ok) [rbind _ _]/=.
rewrite /dassert ss modnMl eqxx implybT [rbind _ _]/=.
rewrite size_chunks ss div_ceil_mul ?(pp_l_gt0 ok) //.
set cs := chunks _ _.
have scs : size cs = m by rewrite size_chunks ss div_ceil_mul ?(pp_l_gt0 ok).
have Hcs i : (i < m)%N -> size (nth [::] cs i) = l by move=> lt_i; exact: (size_nth_chunks ss).
pose sh i := get_ok [::] (pack dbg pp (nth [::] cs i) (rskip (i * p_t pp) r)).
exists (mkseq sh m); split.
- apply: mapM_ok => i0 i; rewrite size_iota => lt_i; rewrite nth_iota // add0n.
  rewrite (vget_nth [::]) ?scs // [rbind _ _]/=.
  have [s [E _ _]] := pack_sharing ok dbg (rskip (i * p_t pp) r) (Hcs i lt_i).
  by rewrite /sh E.
- split=> [|i lt_i]; first by rewrite size_mkseq.
  rewrite nth_mkseq // /sh.
  by have [s [-> sz _]] := pack_sharing ok dbg (rskip (i * p_t pp) r) (Hcs i lt_i).
- move=> i lt_i; rewrite nth_mkseq // /sh.
  by have [s [-> _ H]] := pack_sharing ok dbg (rskip (i * p_t pp) r) (Hcs i lt_i).
Qed.

Lemma flatten_chunks (s : seq T) m : size s = (m * l)%N -> flatten (chunks l s) = s.
Proof.
move=> ss; have l0 := pp_l_gt0 ok; rewrite /chunks ss div_ceil_mul //.
elim: m s ss => [|m IH] s ss; first by case: s ss.
rewrite /= mul0n drop0 -[in RHS](cat_take_drop l s); congr (_ ++ _).
rewrite -[in RHS](IH (drop l s)); last by rewrite size_drop ss; lia.
rewrite -[1%N]addn0 iotaDl -map_comp; congr flatten; apply: eq_map => i /=.
by rewrite drop_drop add1n mulSn addnC.
Qed.

(** release builds: a short chunk is completed with random values, then zeros *)
Lemma pack_short (s : seq T) r : (size s <= l)%N ->
  exists shares, [/\ pack false pp s r = Ok shares, size shares = n &
    sharing pp (2 * l) shares (take l (s ++ mkseq r l))].
Proof.
move=> le_s; rewrite /pack (ppt ok).
pose v := resize 0 (2 * l) (s ++ mkseq r l).
have sv : size v = (2 * l)%N by rewrite size_resize.
have s1 : size (take l v) = l by rewrite size_takel // sv; lia.
have s2 : size (drop l v) = l by rewrite size_drop sv; lia.
have [sh [E sz H]] := pack_pts_sharing ok false s1 s2; exists sh; split=> //.
- rewrite -E /pack_pts /dassert !implyFb /= cat_take_drop.
  by rewrite -(ifft_resize _ (s ++ mkseq r l)) (pp_secret_size ok).
- suff <- : take l v = take l (s ++ mkseq r l) by [].
  have le_l : (l <= size (s ++ mkseq r l))%N by rewrite size_cat size_mkseq; lia.
  apply: (@eq_from_nth _ 0); first by rewrite s1 size_takel.
  rewrite s1 => i lt_i; rewrite !nth_take // nth_resize.
  by rewrite ifT //; lia.
Qed.

End PackVec.
