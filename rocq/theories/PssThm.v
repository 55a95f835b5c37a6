(** Statements about packed secret sharing (C01-C10). *)
From mathcomp Require Import all_ssreflect all_algebra.
From mathcomp Require Import zify.
From Verif Require Import RingTac Base ModelField ModelUtils ModelPss Spec.
From Verif Require Import FieldProofs UtilsProofs PssProofs ExampleField.
Set Implicit Arguments.
Unset Strict Implicit.
Unset Printing Implicit Defensive.
Import GRing.Theory.
Local Open Scope ring_scope.

Section Aux.
Variables (F : fftField) (T : lmodType F) (pp : pss F).
Hypothesis ok : pp_ok pp.

Lemma sharing_zero d : sharing pp d (nseq (p_n pp) (0 : T)) (nseq (p_l pp) 0).
Proof.
exists [::]; split=> //; apply: (@eq_from_nth _ 0); rewrite size_nseq ?size_mkseq // => i lt_i;
  by rewrite nth_nseq lt_i nth_mkseq // /pval big_ord0.
Qed.

Lemma sharing_add d (sh1 sec1 sh2 sec2 : seq T) :
  sharing pp d sh1 sec1 -> sharing pp d sh2 sec2 ->
  sharing pp d (zipmap (fun x y => x + y) sh1 sh2) (zipmap (fun x y => x + y) sec1 sec2).
Proof.
move=> H1 H2; have := sharing_lin 1 H1 H2.
by rewrite !(@eq_zipmap _ _ _ (fun x y : T => 1 *: x + y) (fun x y => x + y)) // => x y;
   rewrite scale1r.
Qed.

Lemma sharing_sub d (sh1 sec1 sh2 sec2 : seq T) :
  sharing pp d sh1 sec1 -> sharing pp d sh2 sec2 ->
  sharing pp d (zipmap (fun x y => x - y) sh1 sh2) (zipmap (fun x y => x - y) sec1 sec2).
Proof.
move=> H1 H2; have := sharing_lin (-1) H2 H1.
rewrite ![zipmap (fun x y => x - y) _ _]zipmap_swap.
by rewrite !(@eq_zipmap _ _ _ (fun x y : T => -1 *: x + y) (fun x y => y - x)) // => x y;
   rewrite scaleN1r addrC.
Qed.

Lemma sharing_scale d (a : F) (sh sec : seq T) : sharing pp d sh sec ->
  sharing pp d [seq a *: x | x <- sh] [seq a *: x | x <- sec].
Proof.
move=> H; have [s1 e1] := sharing_size H.
have := sharing_lin a H (sharing_zero d); rewrite -s1 -e1 !zipmap_nseq.
have E (s : seq T) : [seq a *: x + 0 | x <- s] = [seq a *: x | x <- s].
  by apply: eq_map => x; rewrite addr0.
by rewrite !E.
Qed.

(** packing is affine in (secrets, randomness) *)
Lemma pack_pts_add dbg (s1 r1 s2 r2 sh1 sh2 : seq T) :
  size s1 = p_l pp -> size r1 = p_l pp -> size s2 = p_l pp -> size r2 = p_l pp ->
  pack_pts dbg pp s1 r1 = Ok sh1 -> pack_pts dbg pp s2 r2 = Ok sh2 ->
  pack_pts dbg pp (zipmap (fun x y => x + y) s1 s2) (zipmap (fun x y => x + y) r1 r2) =
  Ok (zipmap (fun x y => x + y) sh1 sh2).
Proof.
move=> ss1 sr1 ss2 sr2.
have [c1 [sc1 -> F1]] := pack_pts_encode ok dbg ss1 sr1.
have [c2 [sc2 -> F2]] := pack_pts_encode ok dbg ss2 sr2.
move=> [<-] [<-].
have ss : size (zipmap (fun x y => x + y) s1 s2) = p_l pp by rewrite size_zipmap ss1 ss2 minnn.
have sr : size (zipmap (fun x y => x + y) r1 r2) = p_l pp by rewrite size_zipmap sr1 sr2 minnn.
have [c [sc -> Fc]] := pack_pts_encode ok dbg ss sr; congr Ok.
pose c' := mkseq (fun i => 1 *: c1`_i + c2`_i) (2 * p_l pp).
have le1 : (size c1 <= 2 * p_l pp)%N by rewrite sc1.
have le2 : (size c2 <= 2 * p_l pp)%N by rewrite sc2.
have Ec : c = c'.
  have okS := pp_secret_ok ok; have sS := pp_secret_size ok.
  rewrite -(fftK okS (c := c)) ?sS // -(fftK okS (c := c')) ?sS ?size_mkseq //; congr ifft.
  have F12 : fft (p_secret pp) c' =
      zipmap (fun x y => x + y) (fft (p_secret pp) c1) (fft (p_secret pp) c2).
    rewrite !fft_mkseq ?sS ?size_mkseq //.
    apply: (@eq_from_nth _ 0); rewrite ?size_zipmap !size_mkseq ?minnn // => i lt_i.
    by rewrite (nth_zipmap _ 0 0) ?size_mkseq // !nth_mkseq // pval_lin // scale1r.
  by rewrite Fc F12 F1 F2 /zipmap zip_cat ?ss1 ?ss2 // map_cat.
rewrite Ec; apply: (@eq_from_nth _ 0); rewrite ?size_zipmap !size_encode ?minnn // => i lt_i.
by rewrite (nth_zipmap _ 0 0) ?size_encode // !nth_encode // pval_lin // scale1r.
Qed.

End Aux.

Lemma extend_parties (P : seq nat) m n0 : uniq P -> all (fun q => q < n0)%N P ->
  (size P <= m <= n0)%N ->
  exists Q, [/\ uniq (P ++ Q), all (fun q => q < n0)%N (P ++ Q) & size (P ++ Q) = m].
Proof.
move=> u_P lt_P /andP[le_m le_n].
pose R := [seq q <- iota 0 n0 | q \notin P].
have sR : (n0 - size P <= size R)%N.
  rewrite /R size_filter.
  have : (size [seq q <- iota 0 n0 | q \in P] <= size P)%N.
    apply: uniq_leq_size; first by rewrite filter_uniq // iota_uniq.
    by move=> q; rewrite mem_filter => /andP[].
  have := count_predC (mem P) (iota 0 n0); rewrite size_iota !size_filter.
  have -> : count (fun q => q \notin P) (iota 0 n0) = count (predC (mem P)) (iota 0 n0).
    exact: eq_count.
  have -> : count (fun q => q \in P) (iota 0 n0) = count (mem P) (iota 0 n0).
    exact: eq_count.
  lia.
exists (take (m - size P) R); split.
- rewrite cat_uniq u_P take_uniq ?filter_uniq ?iota_uniq // andbT /=.
  by apply/hasPn => q /mem_take; rewrite mem_filter => /andP[].
- rewrite all_cat lt_P /=; apply/allP => q /mem_take.
  by rewrite mem_filter mem_iota => /and3P[].
- rewrite size_cat size_takel ?subnKC //; apply: leq_trans sR; exact: leq_sub2r.
Qed.

(*** theorems ***)

(** C01: packing then unpacking returns the secrets; one share per party. *)
Lemma c01_pack_unpack (F : fftField) (T : lmodType F) dbg k pp (secrets : seq T) (r : rng T) :
  pss_new F dbg (2 ^ k) = Ok pp -> size secrets = (2 ^ k)%N ->
  exists shares, [/\ pack dbg pp secrets r = Ok shares, size shares = (4 * 2 ^ k)%N,
     p_n pp = (4 * 2 ^ k)%N & unpack pp shares = secrets].
Proof.
move=> new ss; have ok := pss_new_ok new.
have El : p_l pp = (2 ^ k)%N.
  move: new; rewrite /pss_new; do ![case: (dassert _ _) => [[]|//|//]; rewrite [rbind _ _]/=
    | case: (unwrap _) => [?|//|//]; rewrite [rbind _ _]/=].
  by case=> <-.
rewrite -El in ss *; have [shares [E sz H]] := pack_sharing ok dbg r ss.
exists shares; split=> //; rewrite ?sz ?(ppn ok) //.
exact: unpack_sharing H.
Qed.

(** C01: the shares are those of a polynomial with at most l+t coefficients. *)
Lemma c01_pack_is_shamir (F : fftField) (T : lmodType F) dbg k pp (secrets : seq T) (r : rng T) :
  pss_new F dbg (2 ^ k) = Ok pp -> size secrets = p_l pp ->
  exists2 shares, pack dbg pp secrets r = Ok shares &
    sharing pp (p_l pp + p_t pp) shares secrets.
Proof.
move=> /pss_new_ok ok ss; have [shares [E _ H]] := pack_sharing ok dbg r ss.
by exists shares => //; rewrite (ppt ok) addnn -mul2n.
Qed.

(** C02: more than 2(t+l-1) shares of distinct parties reconstruct, in any order. *)
Lemma c02_lagrange_unpack (F : fftField) (T : lmodType F) dbg k pp (secrets : seq T) (r : rng T)
    shares (parties : seq nat) :
  pss_new F dbg (2 ^ k) = Ok pp -> size secrets = p_l pp ->
  pack dbg pp secrets r = Ok shares ->
  uniq parties -> all (fun q => q < p_n pp)%N parties ->
  (2 * (p_t pp + p_l pp - 1) < size parties)%N ->
  lagrange_unpack dbg pp [seq shares`_q | q <- parties] parties = Ok secrets.
Proof.
move=> /pss_new_ok ok ss E u_p lt_p le_p.
have H := pack_ok_sharing ok ss E; rewrite (ppt ok) in le_p.
have := pp_l_gt0 ok => l0.
by apply: (lagrange_unpack_sharing ok H) => //; lia.
Qed.

(** C02: in release builds any l+t shares of a fresh packing suffice. *)
Lemma c02_lagrange_unpack_release (F : fftField) (T : lmodType F) k pp (secrets : seq T)
    (r : rng T) shares (parties : seq nat) :
  pss_new F false (2 ^ k) = Ok pp -> size secrets = p_l pp ->
  pack false pp secrets r = Ok shares ->
  uniq parties -> all (fun q => q < p_n pp)%N parties ->
  (p_l pp + p_t pp <= size parties)%N ->
  lagrange_unpack false pp [seq shares`_q | q <- parties] parties = Ok secrets.
Proof.
move=> /pss_new_ok ok ss E u_p lt_p le_p.
have H := pack_ok_sharing ok ss E; rewrite (ppt ok) in le_p.
by apply: (lagrange_unpack_sharing ok H) => //; lia.
Qed.

(** C02: [unpack_missing_shares] with some shares missing, in any order. *)
Lemma c02_missing_some (F : fftField) (T : lmodType F) dbg k pp (secrets : seq T) (r : rng T)
    shares (parties : seq nat) :
  pss_new F dbg (2 ^ k) = Ok pp -> size secrets = p_l pp ->
  pack dbg pp secrets r = Ok shares ->
  uniq parties -> all (fun q => q < p_n pp)%N parties ->
  (2 * (p_t pp + p_l pp - 1) < size parties < p_n pp)%N ->
  unpack_missing_shares dbg pp [seq shares`_q | q <- parties] parties = Ok secrets.
Proof.
move=> /pss_new_ok ok ss E u_p lt_p /andP[le_p lt_n].
have H := pack_ok_sharing ok ss E; rewrite (ppt ok) in le_p.
have := pp_l_gt0 ok => l0.
by apply: (unpack_missing_partial ok H) => //; lia.
Qed.

(** C02: [unpack_missing_shares] with all shares in party order. *)
Lemma c02_missing_none (F : fftField) (T : lmodType F) dbg k pp (secrets : seq T) (r : rng T)
    shares :
  pss_new F dbg (2 ^ k) = Ok pp -> size secrets = p_l pp ->
  pack dbg pp secrets r = Ok shares ->
  unpack_missing_shares dbg pp shares (iota 0 (p_n pp)) = Ok secrets.
Proof.
move=> /pss_new_ok ok ss E.
have H := pack_ok_sharing ok ss E; have := pp_l_gt0 ok => l0.
apply: (unpack_missing_full ok H); rewrite ?size_iota // (ppn ok).
by case: dbg {E}; lia.
Qed.

(** C02: the claim "in any order" does not extend to the full set: with all n shares in another
    order than party order the party ids are ignored. *)
Lemma c02_full_set_permuted_refuted : exists (F : fftField) (T : lmodType F) k pp
    (secrets : seq T) (r : rng T) shares (parties : seq nat),
  [/\ pss_new F false (2 ^ k) = Ok pp, pack false pp secrets r = Ok shares,
      perm_eq parties (iota 0 (p_n pp)) &
      unpack_missing_shares false pp [seq shares`_q | q <- parties] parties <> Ok secrets].
Proof.
pose sec : seq T17 := [:: 1; 2%:R].
pose sh := get_ok [::] (pack false pp2 sec (fun i => i%:R)).
pose ps := [:: 1; 0; 2; 3; 4; 5; 6; 7]%N.
exists F17, T17, 1%N, pp2, sec, (fun i => i%:R), sh, ps; split.
- exact: pp2_new.
- by apply: get_okP; vm_compute.
- by vm_compute.
- move=> H; have : (get_ok [::] (unpack_missing_shares false pp2 [seq sh`_q | q <- ps] ps) == sec)
    = false by vm_compute.
  by rewrite H eqxx.
Qed.

(** C03: deterministic packing, release builds: missing secrets are zeros. *)
Lemma c03_det_pack_release (F : fftField) (T : lmodType F) k pp (secrets : seq T) :
  pss_new F false (2 ^ k) = Ok pp -> (size secrets <= p_l pp)%N ->
  exists shares, [/\ det_pack false pp secrets = Ok shares, size shares = p_n pp,
    unpack pp shares = secrets ++ nseq (p_l pp - size secrets) 0 &
    pack false pp (secrets ++ nseq (p_l pp - size secrets) 0) (fun=> 0) = Ok shares].
Proof.
move=> /pss_new_ok ok ss.
have s1 : size (secrets ++ nseq (p_l pp - size secrets) 0) = p_l pp.
  by rewrite size_cat size_nseq subnKC.
rewrite (det_pack_release ok ss) /pack.
have [shares [E sz H]] := pack_pts_sharing ok false s1 (size_nseq (p_l pp) (0 : T)).
have -> : mkseq (fun=> 0 : T) (p_t pp) = nseq (p_l pp) 0.
  rewrite (ppt ok); apply: (@eq_from_nth _ 0); rewrite ?size_mkseq ?size_nseq // => i lt_i.
  by rewrite nth_mkseq // nth_nseq lt_i.
by exists shares; split=> //; exact: unpack_sharing H.
Qed.

(** C03: with exactly l secrets debug and release builds agree. *)
Lemma c03_det_pack (F : fftField) (T : lmodType F) dbg k pp (secrets : seq T) :
  pss_new F dbg (2 ^ k) = Ok pp -> size secrets = p_l pp ->
  exists shares, [/\ det_pack dbg pp secrets = Ok shares, size shares = p_n pp &
    unpack pp shares = secrets].
Proof.
move=> /pss_new_ok ok ss; rewrite (det_pack_full ok _ ss).
have [shares [E sz H]] := pack_pts_sharing ok dbg ss (size_nseq (p_l pp) (0 : T)).
by exists shares; split=> //; exact: unpack_sharing H.
Qed.

(** C03: debug builds reject any other number of secrets. *)
Lemma c03_det_pack_debug (F : fftField) (T : lmodType F) pp (secrets : seq T) :
  size secrets != p_l pp -> det_pack true pp secrets = Panic.
Proof. by move=> /negPf ss; rewrite /det_pack /dassert ss. Qed.

(** C04: share-wise products reconstruct to the slot-wise products, from all shares. *)
Lemma c04_product_unpack2 (F : fftField) (T : lmodType F) dbg k pp (a : seq F^o) (b : seq T)
    (ra : rng F^o) (rb : rng T) sa sb :
  pss_new F dbg (2 ^ k) = Ok pp -> size a = p_l pp -> size b = p_l pp ->
  pack dbg pp a ra = Ok sa -> pack dbg pp b rb = Ok sb ->
  let prod := zipmap (fun x y => x *: y) sa sb in
  unpack2 dbg pp prod = Ok (zipmap (fun x y => x *: y) a b) /\
  unpack_missing_shares dbg pp prod (iota 0 (p_n pp)) = Ok (zipmap (fun x y => x *: y) a b).
Proof.
move=> /pss_new_ok ok la lb Ea Eb prod; have l0 := pp_l_gt0 ok.
have Ha := pack_ok_sharing ok la Ea; have Hb := pack_ok_sharing ok lb Eb.
have Hm := sharing_mul (d2 := 2 * p_l pp) _ Ha Hb.
have H := Hm ltac:(lia); have Hd : ((2 * p_l pp + 2 * p_l pp).-1 + dbg <= p_n pp)%N.
  by rewrite (ppn ok); case: (dbg); lia.
split; first exact: unpack2_sharing Hd H.
by apply: (unpack_missing_full ok H Hd); rewrite size_iota.
Qed.

(** C04: ... and from all but one party's products, in any order. *)
Lemma c04_product_one_missing (F : fftField) (T : lmodType F) dbg k pp (a : seq F^o) (b : seq T)
    (ra : rng F^o) (rb : rng T) sa sb (parties : seq nat) :
  pss_new F dbg (2 ^ k) = Ok pp -> size a = p_l pp -> size b = p_l pp ->
  pack dbg pp a ra = Ok sa -> pack dbg pp b rb = Ok sb ->
  uniq parties -> all (fun q => q < p_n pp)%N parties -> (p_n pp).-1 = size parties ->
  let prod := zipmap (fun x y => x *: y) sa sb in
  unpack_missing_shares dbg pp [seq prod`_q | q <- parties] parties =
  Ok (zipmap (fun x y => x *: y) a b).
Proof.
move=> /pss_new_ok ok la lb Ea Eb u_p lt_p sp prod; have l0 := pp_l_gt0 ok.
have Ha := pack_ok_sharing ok la Ea; have Hb := pack_ok_sharing ok lb Eb.
have Hm := sharing_mul (d2 := 2 * p_l pp) _ Ha Hb.
have H := Hm ltac:(lia); rewrite (ppn ok) in sp.
by apply: (unpack_missing_partial ok H) => //; rewrite ?(ppn ok); lia.
Qed.

(** C05: sharing is linear. *)
Lemma c05_linear (F : fftField) (T : lmodType F) dbg k pp (a b : seq T) (ra rb : rng T) sa sb
    (x : F) :
  pss_new F dbg (2 ^ k) = Ok pp -> size a = p_l pp -> size b = p_l pp ->
  pack dbg pp a ra = Ok sa -> pack dbg pp b rb = Ok sb ->
  [/\ unpack pp (zipmap (fun x y => x + y) sa sb) = zipmap (fun x y => x + y) a b,
      unpack pp (zipmap (fun x y => x - y) sa sb) = zipmap (fun x y => x - y) a b &
      unpack pp [seq x *: y | y <- sa] = [seq x *: y | y <- a]].
Proof.
move=> /pss_new_ok ok la lb Ea Eb.
have Ha := pack_ok_sharing ok la Ea; have Hb := pack_ok_sharing ok lb Eb.
split; apply: (unpack_sharing ok).
- exact: sharing_add.
- exact: sharing_sub.
- exact: sharing_scale.
Qed.

(** C06: any t parties: every view arises from exactly one choice of the random points. *)
Lemma c06_views_uniform (F : fftField) (T : lmodType F) dbg k pp (P : seq nat)
    (secrets targets : seq T) :
  pss_new F dbg (2 ^ k) = Ok pp -> ff_generator F ^+ p_n pp != 1 ->
  uniq P -> all (fun q => q < p_n pp)%N P -> size P = p_t pp ->
  size secrets = p_l pp -> size targets = p_t pp ->
  exists! rands : seq T, size rands = p_t pp /\
    exists2 shares, pack_pts dbg pp secrets rands = Ok shares &
                    [seq shares`_q | q <- P] = targets.
Proof.
move=> /pss_new_ok ok gn u_P lt_P; rewrite (ppt ok) => sP ss st.
have [rands sr [shares E Et]] := privacy_exists ok dbg gn u_P lt_P sP ss st.
exists rands; split; first by split=> //; exists shares.
move=> rands' [sr' [shares' E' Et']].
by apply: (privacy_unique ok gn u_P lt_P sP ss sr sr' E E'); rewrite Et Et'.
Qed.

(** C06: at most t parties: for any two secret vectors there is a bijection (a translation) of
    the randomness under which their views coincide. *)
Lemma c06_views_independent (F : fftField) (T : lmodType F) dbg k pp (P : seq nat)
    (secrets secrets' : seq T) :
  pss_new F dbg (2 ^ k) = Ok pp -> ff_generator F ^+ p_n pp != 1 ->
  uniq P -> all (fun q => q < p_n pp)%N P -> (size P <= p_t pp)%N ->
  size secrets = p_l pp -> size secrets' = p_l pp ->
  exists delta : seq T, size delta = p_t pp /\
    forall rands shares, size rands = p_t pp -> pack_pts dbg pp secrets rands = Ok shares ->
    exists2 shares', pack_pts dbg pp secrets' (zipmap (fun x y => x + y) rands delta) = Ok shares' &
                     [seq shares'`_q | q <- P] = [seq shares`_q | q <- P].
Proof.
move=> /pss_new_ok ok gn u_P lt_P; rewrite (ppt ok) => sP ss ss'.
have [|Q [u_Q lt_Q sQ]] := @extend_parties P (p_l pp) (p_n pp) u_P lt_P.
  by rewrite sP (ppn ok); lia.
pose diff := zipmap (fun x y => x - y) secrets' secrets.
have sd : size diff = p_l pp by rewrite size_zipmap ss ss' minnn.
have [delta sdl [shd Ed Etd]] := privacy_exists ok dbg gn u_Q lt_Q sQ sd (size_nseq (p_l pp) 0).
exists delta; split=> // rands shares sr E.
have := pack_pts_add ok ss sr sd sdl E Ed.
have -> : zipmap (fun x y => x + y) secrets diff = secrets'.
  apply: (@eq_from_nth _ 0); rewrite size_zipmap ss sd minnn // => i lt_i.
  rewrite (nth_zipmap _ 0 0) ?ss ?sd // (nth_zipmap _ 0 0) ?ss ?ss' //.
  by rewrite addrC subrK.
move=> E'; exists (zipmap (fun x y => x + y) shares shd) => //.
have [c [sc Ec _]] := pack_pts_encode ok dbg ss sr.
have [cd [scd Ecd _]] := pack_pts_encode ok dbg sd sdl.
have s1 : size shares = p_n pp by move: E; rewrite Ec => -[<-]; rewrite size_mkseq.
have s2 : size shd = p_n pp by move: Ed; rewrite Ecd => -[<-]; rewrite size_mkseq.
apply/eq_in_map => q q_P; have lt_q := allP lt_P _ q_P.
rewrite (nth_zipmap _ 0 0) ?s1 ?s2 //.
suff -> : shd`_q = 0 by rewrite addr0.
have q_Q : q \in P ++ Q by rewrite mem_cat q_P.
have lt_i : (index q (P ++ Q) < p_l pp)%N by rewrite -sQ index_mem.
have := congr1 (fun s : seq T => s`_(index q (P ++ Q))) Etd.
rewrite (nth_map 0%N) ?sQ // nth_index // nth_nseq lt_i => ->.
by [].
Qed.

(** C07: successful parameter construction for powers of two. *)
Lemma c07_new (F : fftField) dbg k : (k.+2 <= ff_two_adicity F)%N ->
  exists pp, [/\ pss_new F dbg (2 ^ k) = Ok pp,
    [/\ p_l pp = 2 ^ k, p_t pp = 2 ^ k & p_n pp = 4 * 2 ^ k]%N,
    [/\ size (elements (p_share pp)) = 4 * 2 ^ k, size (elements (p_secret pp)) = 2 * 2 ^ k &
        size (elements (p_secret2 pp)) = 4 * 2 ^ k]%N,
    [/\ uniq (elements (p_share pp)), uniq (elements (p_secret pp)) &
        (forall j, element (p_secret pp) j = element (p_secret2 pp) (2 * j))] &
    ff_generator F ^+ (4 * 2 ^ k) != 1 ->
      ~~ has (mem (elements (p_share pp))) (elements (p_secret pp))].
Proof.
move=> le_k; have [pp E] := pss_new_succeeds dbg le_k; exists pp.
have ok := pss_new_ok E.
have El : p_l pp = (2 ^ k)%N.
  move: E; rewrite /pss_new; do ![case: (dassert _ _) => [[]|//|//]; rewrite [rbind _ _]/=
    | case: (unwrap _) => [?|//|//]; rewrite [rbind _ _]/=].
  by case=> <-.
rewrite !size_mkseq (pp_share_size ok) (pp_secret_size ok) (pp_secret2_size ok) (ppt ok) (ppn ok).
rewrite El; split=> //.
  split.
  - rewrite map_inj_in_uniq ?iota_uniq // => i j; rewrite !mem_iota !add0n /= => lt_i lt_j /eqP.
    by rewrite !(element_share ok) share_pt_eq -?(share_size ok) // => /eqP.
  - rewrite map_inj_in_uniq ?iota_uniq // => i j; rewrite !mem_iota !add0n /= => lt_i lt_j /eqP.
    by rewrite !(element_secret ok) secret_pt_eq -?(pp_secret_size ok) // => /eqP.
  - by move=> j; rewrite (element_secret ok) -(element_secret2 ok) mulnC.
move=> gn; apply/hasPn => x /mapP[j _ ->]; apply/mapP => -[i _ /eqP].
rewrite (element_share ok) (element_secret ok); apply/negP.
by apply: secret_share_disjoint; rewrite // (ppn ok) El.
Qed.

(** C07: the constructor panics if the field's two-adicity is too small. *)
Lemma c07_small_field (F : fftField) dbg l : (ff_two_adicity F < up_log 2 (4 * l))%N ->
  pss_new F dbg l = Panic.
Proof. exact: pss_new_small_field. Qed.

(** C08: false of release builds: l = 3 is accepted but the twelve parties' shares do not
    determine the secrets by [unpack] nor [unpack_missing_shares]. *)
Lemma c08_non_power_of_two_refuted : exists (F : fftField) (T : lmodType F) l pp
    (secrets : seq T) (r : rng T) shares,
  [/\ pss_new F false l = Ok pp, size secrets = l, pack false pp secrets r = Ok shares,
      unpack pp (take (p_n pp) shares) <> secrets &
      unpack_missing_shares false pp (take (p_n pp) shares) (iota 0 (p_n pp)) <> Ok secrets].
Proof.
pose pp := get_ok (Pss 0 0 0 (Domain 0 0 0 0 0 0) (Domain 0 0 0 0 0 0) (Domain 0 0 0 0 0 0))
  (pss_new F97 false 3).
pose sec : seq T97 := [:: 1; 2%:R; 3%:R].
pose sh := get_ok [::] (pack false pp sec (fun i => i%:R)).
exists F97, T97, 3%N, pp, sec, (fun i => i%:R), sh; split.
- by apply: get_okP; vm_compute.
- by [].
- by apply: get_okP; vm_compute.
- move=> H; have : (unpack pp (take (p_n pp) sh) == sec) = false by vm_compute.
  by rewrite H eqxx.
- move=> H.
  have : (get_ok [::] (unpack_missing_shares false pp (take (p_n pp) sh) (iota 0 (p_n pp))) == sec)
    = false by vm_compute.
  by rewrite H eqxx.
Qed.

(** C08: debug builds accept only powers of two. *)
Lemma c08_debug_rejects (F : fftField) l pp :
  pss_new F true l = Ok pp -> exists k, l = (2 ^ k)%N.
Proof. exact: pss_new_debug_pow2. Qed.

(** C09: false of release builds: with too few shares a wrong value is returned. *)
Lemma c09_too_few_shares_refuted : exists (F : fftField) (T : lmodType F) k pp
    (a : seq T) (ra : rng T) sa (parties : seq nat) out,
  [/\ pss_new F false (2 ^ k) = Ok pp, size a = p_l pp, pack false pp a ra = Ok sa,
      [/\ uniq parties, all (fun q => q < p_n pp)%N parties,
          (p_t pp <= size parties)%N & (size parties <= 2 * (p_t pp + p_l pp - 1))%N] &
      unpack_missing_shares false pp [seq sa`_q | q <- parties] parties = Ok out /\ out <> a].
Proof.
pose a : seq T17 := [:: 1; 2%:R].
pose sa := get_ok [::] (pack false pp2 a (fun i => i%:R)).
pose ps := [:: 0; 1; 2]%N.
pose out := get_ok [::] (unpack_missing_shares false pp2 [seq sa`_q | q <- ps] ps).
exists F17, T17, 1%N, pp2, a, (fun i => i%:R), sa, ps, out; split.
- exact: pp2_new.
- by vm_compute.
- by apply: get_okP; vm_compute.
- by split; vm_compute.
- split; first by apply: get_okP; vm_compute.
  move=> H; have : (out == a) = false by vm_compute.
  by rewrite H eqxx.
Qed.

(** C09: what holds: debug builds reject too few shares. *)
Lemma c09_debug_rejects (F : fftField) (T : lmodType F) pp (shares : seq T) (parties : seq nat) :
  (size parties <= 2 * (p_t pp + p_l pp - 1))%N ->
  lagrange_unpack true pp shares parties = Panic.
Proof.
move=> le_p; rewrite /lagrange_unpack /dassert /=.
by case: eqP => //= _; case: (0 < _)%N => //=; rewrite ltnNge le_p.
Qed.

(** C10: passing n copies of r to [pack] (sha256.rs) gives every party r itself in release
    builds and panics in debug builds. *)
Lemma c10_overlong_leaks (F : fftField) (T : lmodType F) k pp (x : T) (r : rng T) :
  pss_new F false (2 ^ k) = Ok pp ->
  pack false pp (nseq (p_n pp) x) r = Ok (nseq (p_n pp) x) /\
  pack true pp (nseq (p_n pp) x) r = Panic.
Proof.
move=> /pss_new_ok ok; have l0 := pp_l_gt0 ok; split.
  apply: (pack_overlong ok); rewrite ?size_nseq (ppn ok); first by lia.
  rewrite take_nseq; last by lia.
  by apply/allP => y /nseqP[->] _ /=.
rewrite /pack /pack_pts /dassert size_nseq (ppn ok).
by have -> : (4 * p_l pp == p_l pp)%N = false by apply/eqP; lia.
Qed.

(** C10: hence the claim is false: a single party's share determines r. *)
Lemma c10_hiding_refuted : exists (F : fftField) (T : lmodType F) k pp (x y : T),
  [/\ pss_new F false (2 ^ k) = Ok pp, ff_generator F ^+ p_n pp != 1, (1 <= p_t pp)%N &
   forall (rx ry : rng T) (q : nat) sx sy, (q < p_n pp)%N ->
     pack false pp (nseq (p_n pp) x) rx = Ok sx -> pack false pp (nseq (p_n pp) y) ry = Ok sy ->
     sx`_q <> sy`_q].
Proof.
exists F17, T17, 1%N, pp2, 0, 1; split; [exact: pp2_new|by vm_compute|by vm_compute|].
move=> rx ry q sx sy lt_q; have new := pp2_new false.
have [E0 _] := c10_overlong_leaks (0 : T17) rx new.
have [E1 _] := c10_overlong_leaks (1 : T17) ry new.
rewrite E0 E1 => S0 S1.
have -> : sx = nseq (p_n pp2) 0 by exact/esym/Ok_inj.
have -> : sy = nseq (p_n pp2) 1 by exact/esym/Ok_inj.
rewrite !nth_nseq lt_q => H.
have : ((0 : T17) == 1) = false by vm_compute.
by rewrite H eqxx.
Qed.
