(** The rounds of lib.rs and ser_net.rs as king protocols. *)
From mathcomp Require Import all_ssreflect.
From mathcomp Require Import zify.
From Verif Require Import Base ModelNet SpecNet NetProofs KingProofs.
Set Implicit Arguments.
Unset Strict Implicit.
Unset Printing Implicit Defensive.

(** ** Serialization *)

Lemma size_le_bytes k x : size (le_bytes k x) = k.
Proof. by elim: k x => //= k IH x; rewrite IH. Qed.

Lemma le_bytesK k x : x < 256 ^ k -> le_value (le_bytes k x) = x.
Proof.
elim: k x => [|k IH] x /=; first by rewrite expn0; case: x.
rewrite expnS => lx; rewrite IH; first by rewrite {3}(divn_eq x 256); lia.
by rewrite ltn_divLR // mulnC.
Qed.

Section Vec.
Variables (T : Type) (c : codec T) (m : nat).
Hypothesis cok : codec_ok c m.

Lemma size_enc_seq (s : seq T) : size (flatten (map (enc c) s)) = size s * m.
Proof.
by case: cok => H _ _; elim: s => //= x s IH; rewrite size_cat IH H mulSn.
Qed.

Lemma dec_seqK (s : seq T) rest : dec_seq c (size s) (flatten (map (enc c) s) ++ rest) = Some (s, rest).
Proof.
by case: cok => _ H _; elim: s => //= x s IH; rewrite -catA H IH.
Qed.

Lemma size_enc_vec (s : seq T) : size (enc (vec_codec c) s) = 8 + size s * m.
Proof. by rewrite /= -size_enc_seq. Qed.

Lemma le8K x : x < 256 ^ 8 -> le_value (le_bytes 8 x) = x.
Proof. exact: (@le_bytesK 8). Qed.

Lemma dec_vecK (s : seq T) rest : size s < 256 ^ 8 ->
  dec (vec_codec c) (enc (vec_codec c) s ++ rest) = Some (s, rest).
Proof.
move=> ss; rewrite /vec_codec; cbn [enc dec].
rewrite -catA size_cat size_le_bytes; have -> : (8 + size (flatten (map (enc c) s) ++ rest) < 8) = false by lia.
by rewrite take_size_cat ?drop_size_cat ?size_le_bytes // le8K // dec_seqK.
Qed.

Lemma decode_vec (s : seq T) : size s < 256 ^ 8 ->
  decode (vec_codec c) (enc (vec_codec c) s) = Ok s.
Proof. by move=> ss; rewrite /decode -[enc _ s]cats0 dec_vecK. Qed.

Lemma dec_seq_short (s : seq T) k : k < size s * m ->
  dec_seq c (size s) (take k (flatten (map (enc c) s))) = None.
Proof.
case: cok => H1 H2 H3; elim: s k => [|x s IH] k /=; first by rewrite mul0n.
rewrite mulSn take_cat H1 => lk; case: (ltnP k m) => km.
  by rewrite H3 // size_take H1 km.
by rewrite H2 IH //; lia.
Qed.

Lemma dec_vec_short (s : seq T) k : size s < 256 ^ 8 -> k < 8 + size s * m ->
  dec (vec_codec c) (take k (enc (vec_codec c) s)) = None.
Proof.
move=> ss lk; rewrite /vec_codec; cbn [enc dec].
case: (ltnP k 8) => k8.
  by rewrite size_takel ?k8 // size_cat size_le_bytes (leq_trans (ltnW k8)) // leq_addr.
rewrite take_cat size_le_bytes [k < 8]ltnNge k8 [~~ true]/= size_cat size_le_bytes.
have -> : (8 + size (take (k - 8) (flatten [seq enc c i | i <- s])) < 8) = false by lia.
by rewrite take_size_cat ?drop_size_cat ?size_le_bytes // le8K // dec_seq_short //; lia.
Qed.

End Vec.

(** ** King rounds *)

Lemma king_send_ok outs m ids : (forall i, i \in ids -> i < size outs /\ size (nth [::] outs i) = m) ->
  king_send outs m ids = sends (nth [::] outs) ids (CRet (Ok tt)).
Proof.
elim: ids => //= i ids IH H; have [li si] := H i (mem_head _ _).
rewrite (vget_nth [::]) //= si eqxx /= IH // => j jI; apply: H; by rewrite inE jI orbT.
Qed.

Lemma king_send_cat outs m ids1 ids2 :
  king_send outs m (ids1 ++ ids2) = cbind (king_send outs m ids1) (fun _ => king_send outs m ids2).
Proof.
elim: ids1 => //= i ids IH; case: (vget outs i) => //= b; case: ifP => //= _; by rewrite IH.
Qed.

Lemma crokss_prefix n outs i : 0 < i <= n ->
  (forall j, j < i -> j < size outs /\ size (nth [::] outs j) = size (nth [::] outs 0)) ->
  client_receive_or_king_send n 0 (Some outs) =
  sends (nth [::] outs) (iota 1 i.-1)
    (cbind (king_send outs (size (nth [::] outs 0)) (iota i (n - i))) (fun _ => clift (vget outs 0))).
Proof.
case: i => // i /= li H; have [s0 _] := H 0 isT.
rewrite /client_receive_or_king_send /= (vget_nth [::]) //=.
have -> : [seq p <- iota 0 n | p != 0] = iota 1 i ++ iota i.+1 (n - i.+1).
  rewrite -iotaD; case: n li => //= n li; have -> : i + (n.+1 - i.+1) = n by lia.
  by apply/all_filterP/allP => j; rewrite mem_iota; lia.
rewrite king_send_cat king_send_ok ?cbind_sends //= => j; rewrite mem_iota => jI.
by apply: H; lia.
Qed.

Lemma crokss_king n outs : 0 < n -> n <= size outs ->
  (forall i, i < n -> size (nth [::] outs i) = size (nth [::] outs 0)) ->
  client_receive_or_king_send n 0 (Some outs) =
  sends (nth [::] outs) (iota 1 n.-1) (CRet (Ok (nth [::] outs 0))).
Proof.
move=> n0 so H; rewrite (@crokss_prefix n outs n) ?n0 ?leqnn //; last by move=> j jn; split; [lia|apply: H].
by rewrite subnn /= (vget_nth [::]) //; lia.
Qed.

(** the ids that are heard when [d] is silent *)
Definition heard (n d : nat) : seq nat := [seq i <- iota 0 n | i != d].

Lemma store_ids_without n msgs (b : bytes) d : 0 < n -> d != 0 ->
  let st := set_nth None (store_without n msgs d) 0 (Some b) in
  store_ids st = heard n d.
Proof.
move=> n0 d0 /=; rewrite /store_ids size_set_nth size_mkseq (maxn_idPr _) //.
apply: eq_in_filter => i; rewrite mem_iota add0n => /andP[_ il].
rewrite nth_set_nth /=; case: eqP => [->|/eqP i0] /=; first by rewrite eq_sym.
by rewrite nth_mkseq // (negbTE i0) /=; case: (i == d).
Qed.

Lemma store_get_without n msgs d i : 0 < n -> i < n -> i != d ->
  store_get (set_nth None (store_without n msgs d) 0 (Some (msgs 0))) i = msgs i.
Proof.
move=> n0 il id; rewrite /store_get nth_set_nth /=; case: eqP => [->//|/eqP i0].
by rewrite nth_mkseq // (negbTE i0) (negbTE id).
Qed.

Lemma heard_all n d : n <= d -> heard n d = iota 0 n.
Proof.
by move=> nd; apply/all_filterP/allP => i; rewrite mem_iota => iI; apply/negP => /eqP; lia.
Qed.

Lemma size_heard n d : d < n -> size (heard n d) = n.-1.
Proof.
move=> dn; rewrite /heard size_filter.
have := count_predC (pred1 d) (iota 0 n).
rewrite size_iota count_uniq_mem ?iota_uniq // mem_iota add0n dn /=.
by rewrite (eq_count (a2 := fun i => i != d)) //; lia.
Qed.

(** what the king receives *)
Definition received_from (T : Type) (x : nat -> T) (n d : nat) (ord : hash_order) : received T :=
  if d < n then Received [seq x i | i <- ord (heard n d)] (ord (heard n d))
  else Received (mkseq x n) (iota 0 n).

Lemma csokr_king T (c : codec T) n ord (x : nat -> T) thr d K :
  0 < n -> d != 0 -> hash_ok ord -> thr <= n.-1 ->
  (forall i, i < n -> decode c (enc c (x i)) = Ok (x i)) ->
  csokr_ser c n 0 ord (x 0) thr = CGather (nseq n None) K ->
  K (store_without n (fun i => enc c (x i)) d) = CRet (Ok (Some (received_from x n d ord))).
Proof.
move=> n0 d0 Ho Ht Hd; rewrite /csokr_ser /client_send_or_king_receive /= => -[<-].
set msgs := fun i => enc c (x i).
have E0 : nth None (store_without n msgs d) 0 = None by rewrite nth_mkseq.
rewrite E0 /= -/(msgs 0).
rewrite [store_ids _]store_ids_without // /received_from; case: (ltnP d n) => dn.
  rewrite size_heard //; have -> : (n.-1 == n) = false by lia.
  rewrite /=; set ids := ord (heard n d).
  have Hin i : i \in ids -> i < n /\ i != d.
    by rewrite (perm_mem (Ho _)) mem_filter mem_iota add0n => /andP[-> /andP[_ ->]].
  set rs := pmap _ _.
  have -> : rs = [seq (i, x i) | i <- ids].
    rewrite /rs; elim: (ids) Hin => //= i s IH Hin.
    have [il id] := Hin i (mem_head _ _).
    rewrite store_get_without // Hd //= IH // => j jI; apply: Hin; by rewrite inE jI orbT.
  rewrite size_map (perm_size (Ho _)) size_heard // ltnNge Ht /=.
  by rewrite -!map_comp /= (eq_map (f2 := x)) // (eq_map (f2 := id)) ?map_id.
rewrite heard_all // size_iota eqxx /=.
have -> : [seq store_get (set_nth None (store_without n msgs d) 0 (Some (msgs 0))) x0 | x0 <- iota 0 n]
   = [seq enc c (x i) | i <- iota 0 n].
  apply/eq_in_map => i; rewrite mem_iota add0n => /andP[_ il].
  by rewrite store_get_without //; apply/eqP; lia.
have -> : mapM (decode c) [seq enc c (x i) | i <- iota 0 n] = Ok (mkseq x n).
  have : {subset iota 0 n <= iota 0 n} by [].
  rewrite /mkseq; elim: {1 3 4}(iota 0 n) => //= i s IH Hs.
  rewrite Hd; last by have := Hs i (mem_head _ _); rewrite mem_iota; lia.
  by rewrite /= IH // => j jI; apply: Hs; rewrite inE jI orbT.
by [].
Qed.

(** [Option::map] with a computation that may panic *)
Lemma king_round T U (c : codec T) (c' : codec U) n (dok : pred nat) ord (x : nat -> T) thr
    (king : received T -> res (seq U)) (ans : nat -> U) B (R : nat -> U -> cproc B) vals :
  0 < n -> (forall d, dok d -> d != 0) -> hash_ok ord -> thr <= n.-1 ->
  (forall i, i < n -> decode c (enc c (x i)) = Ok (x i)) ->
  (forall i, i < n -> decode c' (enc c' (ans i)) = Ok (ans i)) ->
  (forall i, i < n -> size (enc c' (ans i)) = size (enc c' (ans 0))) ->
  (forall d, dok d -> king (received_from x n d ord) = Ok (mkseq ans n)) ->
  king_prog n dok (fun p => R p (ans p)) vals ->
  king_prog n dok (fun p =>
    do! rs := csokr_ser c n p ord (x p) thr in
    do! outs := clift (if rs is Some r then rmap Some (king r) else Ok None) in
    do! v := crokss_ser c' n p outs in R p v) vals.
Proof.
move=> n0 dok0 Ho Ht Hd Hd' Hs Hk HR.
set outs := [seq enc c' a | a <- mkseq ans n].
have so : size outs = n by rewrite size_map size_mkseq.
have no i : i < n -> nth [::] outs i = enc c' (ans i).
  by move=> il; rewrite (nth_map (ans 0)) ?size_mkseq // nth_mkseq.
pose C p (v : U) := R p v.
pose P1 p := if p == 0 then sends (nth [::] outs) (iota 1 n.-1) (R 0 (ans 0))
             else CRecv 0 (fun b => cbind (clift (decode c' b)) (R p)).
case E: (csokr_ser c n 0 ord (x 0) thr) => [|||st K|] //.
have Est : st = nseq n None by move: E => [<-].
rewrite Est in E.
apply: (@KP_gather _ _ _ _ _ (fun p => enc c (x p))
  (fun st => cbind (K st) (fun rs =>
    do! outs := clift (if rs is Some r then rmap Some (king r) else Ok None) in
    do! v := crokss_ser c' n 0 outs in R 0 v)) P1).
- by rewrite E.
- move=> p pI; have p0 : (p == 0) = false by lia.
  by rewrite /csokr_ser /client_send_or_king_receive /P1 p0 /= /crokss_ser /= p0.
- move=> d dd; rewrite (csokr_king n0 (dok0 d dd) Ho Ht Hd E) /= Hk //= /crokss_ser.
  rewrite [omap _ _]/= -/outs crokss_king ?so //; last by move=> i il; rewrite !no ?Hs.
  by rewrite !cbind_sends /= no // Hd'.
apply: (@KP_scatter _ _ _ _ _ (nth [::] outs)
          (fun p b => cbind (clift (decode c' b)) (R p)) (fun p => R p (ans p))) => //.
- by move=> p pI; rewrite /P1; have -> : (p == 0) = false by lia.
by move=> p /andP[_ pn]; rewrite no //= Hd'.
Qed.
