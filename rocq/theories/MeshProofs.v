(** The local test network: everybody gets connected to everybody. *)
From mathcomp Require Import all_ssreflect.
From mathcomp Require Import zify.
From Verif Require Import Base ModelNet ModelWire ModelSetup SpecNet SpecWire.
Set Implicit Arguments.
Unset Strict Implicit.
Unset Printing Implicit Defensive.

Section Mesh.
Variable n : nat.
Implicit Types (m : mesh).

(** [hist q]: the parties that have opened a connection to [q], in the order of opening *)
Definition mesh_inv (hist : nat -> seq nat) m : Prop := [/\
  [/\ size (made m) = n, size (taken m) = n, size (pending m) = n & size (table m) = n],
  forall p, p < n -> size (nth [::] (table m) p) = n,
  forall p, p < n -> nth 0 (made m) p <= outbound n p,
  forall q, q < n -> [/\ uniq (hist q), nth 0 (taken m) q <= size (hist q),
    nth [::] (pending m) q = drop (nth 0 (taken m) q) (hist q) &
    forall o, (o \in hist q) = (o < q <= o + nth 0 (made m) o)] &
  forall p q, p < n -> q < n -> nth None (nth [::] (table m) p) q =
    if p < q then (if q <= p + nth 0 (made m) p then Some p else None)
    else if q \in take (nth 0 (taken m) p) (hist p) then Some q else None].

Lemma mesh_inv_new : mesh_inv (fun _ => [::]) (mesh_new n).
Proof.
split=> /=.
- by rewrite !size_nseq.
- by move=> p pn; rewrite nth_nseq pn size_nseq.
- by move=> p pn; rewrite nth_nseq pn.
- move=> q qn; rewrite !nth_nseq qn; split=> // o; rewrite in_nil nth_nseq if_same; lia.
move=> p q pn qn; rewrite !nth_nseq pn nth_nseq qn addn0; case: ifP => // pq; by rewrite leqNgt pq.
Qed.

Lemma hist_size hist m q : mesh_inv hist m -> q < n -> size (hist q) <= q.
Proof.
case=> _ _ _ H _ qn; have [U _ _ Ho] := H q qn.
have /(uniq_leq_size U) : {subset hist q <= iota 0 q}.
  by move=> o; rewrite Ho mem_iota; lia.
by rewrite size_iota.
Qed.

Lemma mesh_step_inv hist a m m' : mesh_inv hist m -> step_mesh n a m = Some m' ->
  exists hist', mesh_inv hist' m'.
Proof.
case=> -[s1 s2 s3 s4] Sr Hm Hq Ht; case: a => p /=; case: ifP => // /andP[pn lt_c].
- have Ep : p + nth 0 (made m) p + 1 = (p + nth 0 (made m) p).+1 by rewrite addn1.
  rewrite Ep; move: lt_c; set c := nth 0 (made m) p; set t := (p + c).+1 => lt_c.
  have tn : t < n by rewrite /t; move: lt_c; rewrite /outbound; lia.
  have [U Hle Ep' Ho] := Hq t tn.
  case=> <-; exists (fun q => if q == t then rcons (hist t) p else hist q); split=> /=.
  + by rewrite !size_set_nth s1 s2 s3 s4; split=> //; lia.
  + move=> q qn; rewrite nth_set_nth /=; case: eqP => [_|_]; last exact: Sr.
    by rewrite size_set_nth Sr //; lia.
  + by move=> q qn; rewrite nth_set_nth /=; case: eqP => [->|_]; [|exact: Hm].
  + move=> q qn; rewrite nth_set_nth /=; case: eqP => [->|/eqP qt].
      split.
      * by rewrite rcons_uniq U Ho -/c /t andbT; lia.
      * by rewrite size_rcons; lia.
      * by rewrite Ep' drop_rcons.
      move=> o; rewrite mem_rcons inE Ho nth_set_nth /=; case: eqP => [->|_] //=.
      by rewrite /t; lia.
    have [U' Hle' Ep'' Ho'] := Hq q qn; split=> // o; rewrite Ho' nth_set_nth /=.
    case: eqP => [->|_] //; rewrite -/c; move: qt; rewrite /t; lia.
  move=> q r qn rn; rewrite /set_stream !nth_set_nth /=.
  case: (altP (q =P p)) => [Eq|qp].
    subst q; have -> : (p == t) = false by rewrite /t; lia.
    rewrite nth_set_nth /=; case: (altP (r =P t)) => [->|rt].
      by rewrite addnS leqnn (leq_addr c p : p < t).
    rewrite Ht // -/c; case: ltnP => // pr; congr (if _ then _ else _).
    by move: rt; rewrite /t; lia.
  rewrite Ht //; case: ltnP => // rq; case: eqP => // E.
  by subst q; rewrite -cats1 takel_cat.
case Ep: (nth [::] (pending m) p) => [|o qs] //= [<-].
have [U Hle Ep' Ho] := Hq p pn.
have lt_t : nth 0 (taken m) p < size (hist p).
  by rewrite ltnNge; apply/negP => /drop_oversize Ed; rewrite Ep' Ed in Ep.
have Eo : o = nth 0 (hist p) (nth 0 (taken m) p).
  by rewrite -[in RHS](addn0 (nth 0 (taken m) p)) -nth_drop -Ep' Ep.
have oI : o < p.
  by have := Ho o; rewrite {1}Eo mem_nth // => /esym /andP[].
exists hist; split=> /=.
- by rewrite !size_set_nth s1 s2 s3 s4; split=> //; lia.
- move=> q qn; rewrite nth_set_nth /=; case: eqP => [_|_]; last exact: Sr.
  by rewrite size_set_nth Sr //; lia.
- by [].
- move=> q qn; have [U' Hle' Ep'' Ho'] := Hq q qn.
  rewrite !nth_set_nth /=; case: eqP => [E|//]; subst q; split=> //.
  by move: Ep; rewrite Ep' (drop_nth 0) // => -[].
move=> q r qn rn; rewrite /set_stream !nth_set_nth /=.
case: (altP (q =P p)) => [E|//]; last by rewrite Ht.
subst q; rewrite nth_set_nth /= Ht // (take_nth 0 lt_t) mem_rcons inE -Eo.
case: (altP (r =P o)) => [->|ro] //=.
by have -> : (p < o) = false by lia.
Qed.

Lemma mesh_run_inv hist s m m' : mesh_inv hist m -> run_mesh n s m = Some m' ->
  exists hist', mesh_inv hist' m'.
Proof.
elim: s hist m => [|a s IH] hist m Hi /=; first by case=> <-; exists hist.
by case E: (step_mesh n a m) => [m1|] // R; have [h1 Hi1] := mesh_step_inv Hi E; apply: IH Hi1 R.
Qed.

Lemma sumn_set s p : p < size s -> sumn (set_nth 0 s p (nth 0 s p).+1) = (sumn s).+1.
Proof.
elim: s p => [|x s IH] [|p] //= ps.
by rewrite IH // addnS.
Qed.

Lemma mesh_step_count hist a m m' : mesh_inv hist m -> step_mesh n a m = Some m' ->
  sumn (made m') + sumn (taken m') = (sumn (made m) + sumn (taken m)).+1.
Proof.
case=> -[s1 s2 _ _] _ _ _ _; case: a => p /=; case: ifP => // /andP[pn _].
  by case=> <- /=; rewrite sumn_set ?s1.
by case: (nth [::] (pending m) p) => // o qs [<-] /=; rewrite sumn_set ?s2 // addnS.
Qed.

Lemma mesh_run_count hist s m m' : mesh_inv hist m -> run_mesh n s m = Some m' ->
  sumn (made m') + sumn (taken m') = size s + (sumn (made m) + sumn (taken m)).
Proof.
elim: s hist m => [|a s IH] hist m Hi /=; first by case=> <-.
case E: (step_mesh n a m) => [m1|] // R; have [h1 Hi1] := mesh_step_inv Hi E.
by rewrite (IH _ _ Hi1 R) (mesh_step_count Hi E) addnS.
Qed.

Lemma sumn_mkseq (f : nat -> nat) k : sumn (mkseq f k) = \sum_(i < k) f i.
Proof. by rewrite /mkseq sumnE big_map -(subn0 k) -/(index_iota _ _) big_mkord subn0. Qed.

Lemma total_steps : sumn (mkseq (outbound n) n) + sumn (mkseq inbound n) = n * (n - 1).
Proof.
rewrite !sumn_mkseq -big_split /= (eq_bigr (fun _ => n - 1)) => [|i _].
  by rewrite sum_nat_const card_ord.
by rewrite /outbound /inbound; have := ltn_ord i; lia.
Qed.

(** a party that can go no further has everything *)
Lemma mesh_stuck hist m : mesh_inv hist m -> (forall a, step_mesh n a m = None) ->
  [/\ full_mesh n (table m), made m = mkseq (outbound n) n & taken m = mkseq inbound n].
Proof.
move=> Hi St; have Hsz q := hist_size Hi (q := q); case: Hi => -[s1 s2 s3 s4] Sr Hm Hq Ht.
have Em p : p < n -> nth 0 (made m) p = outbound n p.
  move=> pn; apply/eqP; rewrite eqn_leq Hm //= leqNgt; apply/negP => lt.
  by have := St (Connect p); rewrite /= pn lt.
have hI q o : q < n -> (o \in hist q) = (o < q).
  move=> qn; have [_ _ _ ->] := Hq q qn; case: (ltnP o q) => //= oq.
  by rewrite Em /outbound; lia.
have Sh q : q < n -> size (hist q) = q.
  move=> qn; have [U _ _ _] := Hq q qn.
  have : perm_eq (hist q) (iota 0 q).
    by apply: uniq_perm => // [|o]; rewrite ?iota_uniq // hI // mem_iota.
  by move/perm_size; rewrite size_iota.
have Et q : q < n -> nth 0 (taken m) q = q.
  move=> qn; have [_ le_t Ep _] := Hq q qn; apply/eqP; rewrite eqn_leq (leq_trans le_t) ?Sh //=.
  rewrite leqNgt; apply/negP => lt; have := St (Accept q); rewrite /= qn /inbound lt Ep.
  by rewrite (drop_nth 0) ?Sh.
split.
- move=> p q pn qn; rewrite Ht // Em // Et //; case: (ltngtP p q) => [pq|qp|->].
  + by have -> : q <= p + outbound n p by rewrite /outbound; lia.
  + by rewrite take_oversize ?Sh // hI // qp.
  by rewrite take_oversize ?Sh // hI // ltnn.
- by apply: (@eq_from_nth _ 0); rewrite ?size_mkseq // s1 => p pn; rewrite nth_mkseq // Em.
by apply: (@eq_from_nth _ 0); rewrite ?size_mkseq // s2 => p pn; rewrite nth_mkseq // Et.
Qed.

Lemma mesh_bound hist m : mesh_inv hist m -> sumn (made m) + sumn (taken m) <= n * (n - 1).
Proof.
move=> Hi; have Hsz q := hist_size Hi (q := q); case: Hi => -[s1 s2 _ _] _ Hm Hq _.
have E s (f : nat -> nat) : size s = n -> (forall p, p < n -> nth 0 s p <= f p) ->
    sumn s <= sumn (mkseq f n).
  move=> ss H; rewrite -{1}(mkseq_nth 0 s) ss !sumn_mkseq; apply: leq_sum => i _; exact: H.
rewrite -total_steps leq_add // E // => p pn.
by have [_ le_t _ _] := Hq p pn; apply: leq_trans le_t (Hsz p pn).
Qed.

(** either a step is possible or not *)
Lemma mesh_next m : (exists a, step_mesh n a m) \/ (forall a, step_mesh n a m = None).
Proof.
pose acts := [seq Connect p | p <- iota 0 n] ++ [seq Accept p | p <- iota 0 n].
case: (boolP (has (fun a => isSome (step_mesh n a m)) acts)) => H.
  left; elim: acts H => //= a acts IH /orP[Ha|/IH//]; by exists a.
right=> a; move: H; rewrite has_cat !has_map negb_or => /andP[/hasPn H1 /hasPn H2].
have E : ~~ isSome (step_mesh n a m) -> step_mesh n a m = None by case: (step_mesh n a m).
case: a E => p E; case: (ltnP p n) => pn; try by rewrite /= ltnNge pn.
  by apply: E; apply: (H1 p); rewrite mem_iota.
by apply: E; apply: (H2 p); rewrite mem_iota.
Qed.

Lemma mesh_completes hist m : mesh_inv hist m -> exists s m', [/\ run_mesh n s m = Some m',
  forall a, step_mesh n a m' = None & exists hist', mesh_inv hist' m'].
Proof.
move E: (n * (n - 1) - (sumn (made m) + sumn (taken m))) => d.
elim: d hist m E => [|d IH] hist m E Hi.
  case: (mesh_next m) => [[a]|H]; last by exists [::], m; split => //; exists hist.
  case Ea: (step_mesh n a m) => [m1|] // _; have [h1 Hi1] := mesh_step_inv Hi Ea.
  have := mesh_bound Hi1; have := mesh_step_count Hi Ea; lia.
case: (mesh_next m) => [[a]|H]; last by exists [::], m; split => //; exists hist.
case Ea: (step_mesh n a m) => [m1|] // _; have [h1 Hi1] := mesh_step_inv Hi Ea.
have [|s [m' [R St Hi']]] := IH h1 m1 _ Hi1; first by have := mesh_step_count Hi Ea; lia.
by exists (a :: s), m'; rewrite /= Ea.
Qed.

End Mesh.
