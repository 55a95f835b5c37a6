(** Rounds in which the clients send arbitrary bytes. *)
From mathcomp Require Import all_ssreflect all_algebra.
From mathcomp Require Import zify.
From Verif Require Import Base ModelField ModelPss ModelPack ModelFft ModelNet ModelProto Spec SpecNet.
From Verif Require Import SpecProto SpecTamper SpecBytes NetProofs KingProofs KingFail RoundProofs SetupProofs.
From Verif Require Import FewProofs FieldProofs UtilsProofs PssProofs PackProofs FftProofs ProtoProofs.
From Verif Require Import DegProofs TamperProofs TamperFft ModelNet.
Set Implicit Arguments.
Unset Strict Implicit.
Unset Printing Implicit Defensive.

Section Round.
Variables (T U B : Type) (c : codec T) (c' : codec U) (n sid : nat) (ord : hash_order).
Variables (x : nat -> T) (thr : nat) (king : received T -> res (seq U)) (R : nat -> U -> cproc B).
Variable w : nat -> bytes.
Hypothesis n_gt0 : 0 < n.
Hypothesis x0K : decode c (enc c (x 0)) = Ok (x 0).

Definition serial_round p : cproc B :=
  do! rs := csokr_ser c n p ord (x p) thr in
  do! outs := clift (king_map king rs) in
  do! v := crokss_ser c' n p outs in R p v.

(** what arrives *)
Definition arrived (p : nat) : bytes := if p == 0 then enc c (x 0) else w p.

Let rest (o : option (received T)) : cproc B :=
  do! outs := clift (king_map king o) in do! v := crokss_ser c' n 0 outs in R 0 v.

Lemma king_bytes K d : csokr_ser c n 0 ord (x 0) thr = CGather (nseq n None) K -> n <= d ->
  K (store_without n w d) =
  do! ret := clift (mapM (decode c) (mkseq arrived n)) in
  clift (Ok (Some (Received ret (iota 0 n)))).
Proof.
rewrite /csokr_ser /client_send_or_king_receive /= => -[<-] nd.
have E0 : nth None (store_without n w d) 0 = None by rewrite nth_mkseq.
have d0 : d != 0 by lia.
rewrite E0 [odflt _ None]/= [store_ids _]store_ids_without // heard_all // size_iota eqxx /=.
congr (cbind (clift (mapM _ _)) _); apply/eq_in_map => i; rewrite mem_iota add0n => /andP[_ il].
rewrite /store_get nth_set_nth /= /arrived; case: (i =P 0) => //= /eqP i0.
by rewrite nth_mkseq // (negbTE i0); have -> : (i == d) = false by lia.
Qed.

Lemma round_king : exists K, csokr_ser c n 0 ord (x 0) thr = CGather (nseq n None) K.
Proof. by eexists. Qed.

Lemma sending_client p : 0 < p < n -> sending w p (serial_round p) =
  CSend 0 (w p) (CRecv 0 (fun b => do! v := clift (decode c' b) in R p v)).
Proof. by case: p => // p _. Qed.

Lemma mapM_decode (b : nat -> bytes) (y : nat -> T) k :
  (forall i, i < k -> decode c (b i) = Ok (y i)) -> mapM (decode c) (mkseq b k) = Ok (mkseq y k).
Proof.
move=> H; rewrite /mkseq; have : forall i, i \in iota 0 k -> decode c (b i) = Ok (y i).
  by move=> i; rewrite mem_iota => /andP[_]; apply: H.
elim: (iota 0 k) => //= i s IH Hs; rewrite Hs ?mem_head //= IH // => j jI.
by apply: Hs; rewrite inE jI orbT.
Qed.

Lemma mapM_undecodable (b : nat -> bytes) k p : p < k -> decode c (b p) = Err Generic ->
  mapM (decode c) (mkseq b k) = Err Generic.
Proof.
move=> pk Hp; have : p \in iota 0 k by rewrite mem_iota.
rewrite /mkseq; elim: (iota 0 k) => //= i s IH; rewrite inE => /orP[/eqP<-|/IH H]; first by rewrite Hp.
by rewrite /decode; case: (dec c (b i)) => [[v r]|] //=; rewrite H.
Qed.

Lemma king_rest K d : csokr_ser c n 0 ord (x 0) thr = CGather (nseq n None) K -> n <= d ->
  cbind (K (store_without n w d)) rest =
  cbind (clift (mapM (decode c) (mkseq arrived n))) (fun ret => rest (Some (Received ret (iota 0 n)))).
Proof. by move=> E nd; rewrite (king_bytes E nd); case: (mapM _ _). Qed.

(** the king stops with [v] *)
Lemma bytes_fail v : stopped (CRet v : cproc B) ->
  cbind (clift (mapM (decode c) (mkseq arrived n))) (fun ret => rest (Some (Received ret (iota 0 n)))) = CRet v ->
  king_fails (mkseq (fun p => pthread sid (sending w p (serial_round p))) n) v.
Proof.
move=> sv Hv; have [K E] := round_king.
pose progs p := sending w p (serial_round p).
pose kc p b := (do! v := clift (decode c' b) in R p v).
have P0 : progs 0 = CGather (nseq n None) (fun st => cbind (K st) rest).
  by rewrite /progs /sending /serial_round E.
have Pp p : 0 < p < n -> progs p = CSend 0 (w p) (CRecv 0 (kc p)) by apply: sending_client.
have G := gather_run n_gt0 (T := progs) (Q := fun _ _ => [::]) P0
  (fun p pI => or_introl (Pp p pI)) (fun _ _ => erefl).
have Est : mkseq (fun i => if (i == 0) || halted (progs i) then None else Some (w i)) n = store_without n w n.
  apply: (@eq_from_nth _ None); rewrite !size_mkseq // => i li; rewrite !nth_mkseq //.
  case: (i =P 0) => //= /eqP i0.
  by rewrite Pp /=; [have -> : (i == n) = false by lia|rewrite lt0n i0].
have EK : cbind (K (store_without n w n)) rest = CRet v by rewrite (king_rest E) // Hv.
apply: (channel_fails sid n_gt0 G) => //; last by rewrite /= Est EK.
move=> p pn /=; case: eqP => [p0|/eqP p0]; first by rewrite Est EK; case: (v) sv.
by rewrite Pp /=; [split=> //; rewrite eq_sym|rewrite lt0n p0].
Qed.

(** one message that cannot be decoded *)
Lemma bytes_undecodable p : 0 < p < n -> decode c (w p) = Err Generic ->
  king_fails (mkseq (fun p => pthread sid (sending w p (serial_round p))) n) (Err Generic).
Proof.
move=> /andP[p0 pn] Hp; apply: bytes_fail => //; rewrite (@mapM_undecodable _ _ p) //.
by rewrite /arrived; case: eqP p0 => [->|].
Qed.

Variable y : nat -> T.
Hypothesis wK : forall p, 0 < p < n -> decode c (w p) = Ok (y p).
Hypothesis y0 : y 0 = x 0.

Lemma arrivedK : mapM (decode c) (mkseq arrived n) = Ok (mkseq y n).
Proof.
apply: mapM_decode => i li; rewrite /arrived; case: (i =P 0) => [->|/eqP i0]; first by rewrite x0K y0.
by rewrite wK // lt0n i0.
Qed.

Lemma bytes_panic : king (Received (mkseq y n) (iota 0 n)) = Panic ->
  king_dies (mkseq (fun p => pthread sid (sending w p (serial_round p))) n).
Proof. by move=> Ek; apply: bytes_fail => //; rewrite arrivedK /= /rest /= Ek. Qed.

Lemma bytes_ok (ans : nat -> U) vals :
  (forall i, i < n -> decode c' (enc c' (ans i)) = Ok (ans i)) ->
  (forall i, i < n -> size (enc c' (ans i)) = size (enc c' (ans 0))) ->
  king (Received (mkseq y n) (iota 0 n)) = Ok (mkseq ans n) ->
  (forall p, p < n -> R p (ans p) = CRet (Ok (vals p))) ->
  king_prog n (fun d => (d != 0) && (n <= d)) (fun p => sending w p (serial_round p)) vals.
Proof.
move=> Hd' Hs Ek HR; have [K E] := round_king.
set outs := [seq enc c' a | a <- mkseq ans n].
have so : size outs = n by rewrite size_map size_mkseq.
have no i : i < n -> nth [::] outs i = enc c' (ans i).
  by move=> il; rewrite (nth_map (ans 0)) ?size_mkseq // nth_mkseq.
pose P1 p := if p == 0 then sends (nth [::] outs) (iota 1 n.-1) (R 0 (ans 0))
             else CRecv 0 (fun b => cbind (clift (decode c' b)) (R p)).
apply: (@KP_gather _ _ _ _ _ w (fun st => cbind (K st) rest) P1).
- by rewrite /sending /serial_round E.
- by move=> p pI; rewrite sending_client // /P1; have -> : (p == 0) = false by lia.
- move=> d /andP[_ nd]; rewrite (king_rest E) // arrivedK /= /rest /= Ek /= /crokss_ser.
  rewrite [omap _ _]/= -/outs crokss_king ?so //; last by move=> i il; rewrite !no ?Hs.
  by rewrite !cbind_sends /= no // Hd'.
apply: (@KP_scatter _ _ _ _ _ (nth [::] outs)
          (fun p b => cbind (clift (decode c' b)) (R p)) (fun p => R p (ans p))) => //.
- by move=> p pI; rewrite /P1; have -> : (p == 0) = false by lia.
- by move=> p /andP[_ pn]; rewrite no //= Hd'.
exact: KP_ret.
Qed.

End Round.

(** a king that answers arbitrary bytes *)
Lemma dictated_round (T U B : Type) (c : codec T) (c' : codec U) n ord (x : nat -> T) thr
    (king : received T -> res (seq U)) (R : nat -> U -> cproc B) (w : nat -> bytes) (a : B)
    (ans : nat -> U) (vals : nat -> B) (dok : pred nat) :
  0 < n -> (forall p, 0 < p < n -> decode c' (w p) = Ok (ans p)) ->
  (forall p, 0 < p < n -> R p (ans p) = CRet (Ok (vals p))) -> vals 0 = a ->
  king_prog n dok (fun p => dictating n w a p (serial_round c c' n ord x thr king R p)) vals.
Proof.
move=> n0 wK HR v0.
pose P1 p := if p == 0 then sends w (iota 1 n.-1) (CRet (Ok a))
             else CRecv 0 (fun b => cbind (clift (decode c' b)) (R p)).
apply: (@KP_gather _ _ _ _ _ (fun p => enc c (x p)) (fun=> P1 0) P1) => //.
- by case=> // p pI.
apply: (@KP_scatter _ _ _ _ _ w (fun p b => cbind (clift (decode c' b)) (R p))
  (fun p => if p == 0 then CRet (Ok a) else R p (ans p))) => //.
- by move=> p pI; rewrite /P1; have -> : (p == 0) = false by lia.
- by move=> p pI; rewrite wK //; have -> : (p == 0) = false by lia.
by apply: KP_ret => p pn; case: (p =P 0) => [->|/eqP p0]; rewrite ?v0 // HR // lt0n p0.
Qed.

Import GRing.Theory.

(** ** What [transpose] does with rows of different lengths *)

Lemma mapM_map I J A (f : J -> res A) (g : I -> J) s : mapM f (map g s) = mapM (fun i => f (g i)) s.
Proof. by elim: s => //= i s ->. Qed.

Lemma mapM_eq_in (I : eqType) A (f g : I -> res A) (js : seq I) :
  {in js, f =1 g} -> mapM f js = mapM g js.
Proof.
elim: js => //= j js IH H; rewrite (H j (mem_head _ _)) IH // => i iI; apply: H.
by rewrite inE iI orbT.
Qed.

Lemma vget_take A (s : seq A) m i : i < m -> m <= size s -> vget (take m s) i = vget s i.
Proof.
case: s => [|a s] lim ms; first by move: (leq_trans lim ms).
by rewrite !(vget_nth a) ?nth_take ?size_take_min //; lia.
Qed.

Lemma transpose_take A (rows : seq (seq A)) m : 0 < m -> size (head [::] rows) = m ->
  all (fun r => m <= size r) rows -> transpose rows = transpose [seq take m r | r <- rows].
Proof.
move=> m0; case: rows => [|r0 rows]; first by move=> /esym E; rewrite E in m0.
rewrite [head _ _]/= => s0 Hr; rewrite /transpose !(vget_nth [::]) // !size_map [rbind (Ok _) _]/=.
rewrite [nth _ (map _ _) 0]/= take_oversize ?s0 //; case E: (vget r0 0) => [a|er|]; last 2 first.
- by rewrite /= E.
- by rewrite /= E.
rewrite ![rbind (Ok _) _]/= E ![rbind (Ok _) _]/= s0.
apply: mapM_eq_in => i; rewrite mem_iota add0n => /andP[_ li].
rewrite -[LHS]/(mapM (fun row => vget row i) (r0 :: rows)).
rewrite -[RHS]/(mapM (fun row => vget row i) [seq take m r | r <- r0 :: rows]) mapM_map.
elim: (r0 :: rows) Hr => // r rs IH /= /andP[Hr Hrs].
by rewrite vget_take // IH.
Qed.

Lemma transpose_short A (rows : seq (seq A)) m k : size (head [::] rows) = m -> k < size rows ->
  size (nth [::] rows k) < m -> transpose rows = Panic.
Proof.
case: rows => [|r0 rows] //; rewrite [head _ _]/= => s0 lk sk.
have m0 : 0 < m by lia.
have [a [r1 E]] : exists a r1, r0 = a :: r1 by case: (r0) s0 m0 => [<-|a r1] //; exists a, r1.
have -> : transpose (r0 :: rows) =
    mapM (fun c => mapM (fun row => vget row c) (r0 :: rows)) (iota 0 (size r0)) by rewrite E.
rewrite s0 (@mapM_panic _ _ _ _ m.-1 0) //.
- by move=> i e; apply: mapM_nerr => r er; apply: vget_nerr.
- by rewrite size_iota; lia.
rewrite nth_iota; last by lia.
rewrite (@mapM_panic _ _ _ _ k [::]) // => [r e|]; first exact: vget_nerr.
by rewrite vget_panic //; lia.
Qed.

(** ** The protocols *)

Section Protocols.
Variable F : fftField.
Variable T : lmodType F.
Variables (pp : pss F) (ok : pp_ok pp) (cT : codec T) (mb : nat).
Hypothesis cT_ok : codec_ok cT mb.
Local Notation l := (p_l pp).
Local Notation n := (p_n pp).
Local Open Scope ring_scope.

Lemma full_head A (y : nat -> seq A) : head [::] (mkseq y n) = y 0%N.
Proof. by have := n_gt1 ok; case: n => [|k] //=. Qed.

(** a round in which masked vectors are sent to a king that looks only at their transpose *)
Section Masked.
Variables (U : Type) (c' : codec U) (thr m : nat) (min x : nat -> seq T) (kf : received (seq T) -> res (seq U)).
Variables (B : Type) (R : nat -> U -> cproc B) (w : nat -> bytes).
Hypothesis m_size : (0 < m < 256 ^ 8)%N.
Hypothesis sx : forall p, (p < n)%N -> size (x p) = m.
Hypothesis s_in : forall p, (p < n)%N -> size (min p) = m.
Hypothesis kf_eq : forall s s' ids, transpose s = transpose s' ->
  kf (Received s ids) = kf (Received s' ids).
Hypothesis kf_panic : forall s ids, transpose s = Panic -> kf (Received s ids) = Panic.

Let z p := zipmap +%R (x p) (min p).
Definition masked_round ord p := serial_round (vec_codec cT) c' n ord z thr kf R p.

Lemma size_z p : (p < n)%N -> size (z p) = m.
Proof. by move=> lp; rewrite size_zipmap sx // s_in // minnn. Qed.

Lemma z0K : ModelNet.decode (vec_codec cT) (enc (vec_codec cT) (z 0)) = Ok (z 0).
Proof.
by have [m0 ms] := andP m_size; apply: (vec_dec cT_ok ms); apply: size_z; have := n_gt1 ok; lia.
Qed.

Lemma masked_garbled sid ord p : (0 < p < n)%N ->
  ModelNet.decode (vec_codec cT) (w p) = Err Generic ->
  king_fails (mkseq (fun p => pthread sid (sending w p (masked_round ord p))) n) (Err Generic).
Proof. by move=> pI Hp; apply: bytes_undecodable pI Hp; apply/ltnW/(n_gt1 ok). Qed.

Variable y : nat -> seq T.
Hypothesis wK : forall p, (0 < p < n)%N -> ModelNet.decode (vec_codec cT) (w p) = Ok (y p).

Definition decoded_or (own : seq T) p := if p == 0%N then own else y p.

Lemma decoded_orK p : (0 < p < n)%N ->
  ModelNet.decode (vec_codec cT) (w p) = Ok (decoded_or (z 0) p).
Proof. by move=> pI; rewrite wK // /decoded_or; case: eqP pI => [->|]. Qed.

Lemma masked_dies sid ord :
  kf (Received (mkseq (decoded_or (z 0)) n) (iota 0 n)) = Panic ->
  king_dies (mkseq (fun p => pthread sid (sending w p (masked_round ord p))) n).
Proof.
exact: (@bytes_panic _ _ _ (vec_codec cT) c' n sid ord z thr kf R w (ltnW (n_gt1 ok)) z0K (decoded_or (z 0)) decoded_orK erefl).
Qed.

Lemma masked_short sid ord p : (0 < p < n)%N -> (size (y p) < m)%N ->
  king_dies (mkseq (fun p => pthread sid (sending w p (masked_round ord p))) n).
Proof.
move=> /andP[p0 pn] Hp; have n1 := n_gt1 ok; apply/masked_dies/kf_panic.
rewrite (@transpose_short _ _ m p) ?full_head ?size_mkseq //.
  by rewrite /decoded_or eqxx size_z ?(ltnW n1).
by rewrite nth_mkseq // /decoded_or; case: eqP p0 => [->|].
Qed.

Hypothesis y_long : forall p, (0 < p < n)%N -> (m <= size (y p))%N.

(** the inputs that would have given these messages *)
Definition implied p := if p == 0%N then x 0 else zipmap (fun a b => a - b) (y p) (min p).

Lemma size_implied p : (p < n)%N -> size (implied p) = m.
Proof.
rewrite /implied; case: eqP => [->|/eqP p0] lp; first by rewrite sx.
by rewrite size_zipmap s_in //; apply/minn_idPr/y_long; rewrite lt0n p0.
Qed.

Lemma implied_sent p : (p < n)%N -> take m (decoded_or (z 0) p) = zipmap +%R (implied p) (min p).
Proof.
rewrite /implied /decoded_or; case: eqP => [->|/eqP p0] lp; first by rewrite take_oversize // size_z.
have ly : (m <= size (y p))%N by apply: y_long; rewrite lt0n p0.
have si := s_in lp.
apply: (@eq_from_nth _ 0); first by rewrite !size_zipmap si size_takel // (minn_idPr ly) minnn.
move=> i; rewrite size_takel // => li; have lyi := leq_trans li ly.
rewrite nth_take // (nth_zipmap _ 0 0) ?size_zipmap ?si ?leq_min ?li ?lyi //.
by rewrite (nth_zipmap _ 0 0) ?si // subrK.
Qed.

Lemma king_implied ord : kf (Received (mkseq (decoded_or (z 0)) n) (iota 0 n)) =
  kf (received_from (fun p => zipmap +%R (implied p) (min p)) n n ord).
Proof.
have [m0 _] := andP m_size; have n1 := n_gt1 ok.
rewrite /received_from ltnn; apply: kf_eq.
rewrite (@transpose_take _ _ m) // ?full_head ?size_z ?(ltnW n1) //.
  congr transpose; rewrite -map_comp; apply/eq_in_map => p; rewrite mem_iota add0n => /andP[_ lp] /=.
  exact: implied_sent.
apply/allP => s /mapP[p]; rewrite mem_iota add0n => /andP[_ lp] ->; rewrite /decoded_or.
by case: eqP => [_|/eqP p0]; [rewrite size_z // ltnW|apply: y_long; rewrite lt0n p0].
Qed.

Lemma masked_caught sid ord :
  kf (received_from (fun p => zipmap +%R (implied p) (min p)) n n id) = Panic ->
  king_dies (mkseq (fun p => pthread sid (sending w p (masked_round ord p))) n).
Proof. by move=> Ek; apply: masked_dies; rewrite (king_implied id). Qed.

Lemma masked_bytes ord (ans : nat -> U) vals :
  (forall i, (i < n)%N -> ModelNet.decode c' (enc c' (ans i)) = Ok (ans i)) ->
  (forall i, (i < n)%N -> size (enc c' (ans i)) = size (enc c' (ans 0%N))) ->
  kf (received_from (fun p => zipmap +%R (implied p) (min p)) n n id) = Ok (mkseq ans n) ->
  (forall p, (p < n)%N -> R p (ans p) = CRet (Ok (vals p))) ->
  king_prog n (fun d => (d != 0%N) && (n <= d)%N) (fun p => sending w p (masked_round ord p)) vals.
Proof.
move=> H1 H2 H3 H4; rewrite -(king_implied id) in H3.
exact: (@bytes_ok _ _ _ (vec_codec cT) c' n ord z thr kf R w (ltnW (n_gt1 ok)) z0K (decoded_or (z 0)) decoded_orK erefl ans vals).
Qed.

End Masked.

Section Deg.
Variables (m : nat) (masks : nat -> degred_mask T) (x : nat -> seq T) (r : rng T).
Variables (w : nat -> bytes) (dbg : bool).
Hypothesis m_size : (0 < m < 256 ^ 8)%N.
Hypothesis sx : forall p, (p < n)%N -> size (x p) = m.
Hypothesis masks_good : degred_ok pp m masks.

Let R p v : cproc (seq T) := clift (Ok (zipmap +%R v (dr_out (masks p)))).
Let min p := dr_in (masks p).
Let s_in p : (p < n)%N -> size (min p) = m.
Proof. by have [v [[H _] _]] := masks_good; apply: H. Qed.

Lemma deg_red_masked p ord : (p < n)%N -> deg_red dbg pp n p ord cT (x p) (masks p) r =
  masked_round (vec_codec cT) (p_t pp) min x (deg_red_king dbg pp r) R ord p.
Proof.
have [v [Hin Hout]] := masks_good; move=> lp.
have so : size (dr_out (masks p)) = m by case: Hout => H _; apply: H.
by rewrite /deg_red sx // s_in // so // /dassert eqxx implybT.
Qed.

Lemma deg_red_dictated (u : nat -> seq T) a ord dok :
  (forall p, (0 < p < n)%N -> ModelNet.decode (vec_codec cT) (w p) = Ok (u p)) ->
  king_prog n dok (fun p => dictating n w a p (deg_red dbg pp n p ord cT (x p) (masks p) r))
    (fun p => if p == 0%N then a else zipmap +%R (u p) (dr_out (masks p))).
Proof.
move=> uK; have n0 := ltnW (n_gt1 ok).
apply: king_prog_ext (dictated_round (vec_codec cT) ord (fun p => zipmap +%R (x p) (min p)) (p_t pp)
  (deg_red_king dbg pp r) (R := R) dok n0 uK _ _) => //.
- by move=> p lp; rewrite /dictating; case: eqP => // _; rewrite deg_red_masked.
by case=> // p _.
Qed.

Lemma deg_king_eq s s' ids : transpose s = transpose s' ->
  deg_red_king dbg pp r (Received s ids) = deg_red_king dbg pp r (Received s' ids).
Proof. by rewrite /deg_red_king /= => ->. Qed.

Lemma deg_king_panic s ids : transpose s = Panic -> deg_red_king dbg pp r (Received s ids) = Panic.
Proof. by rewrite /deg_red_king /= => ->. Qed.

Lemma sending_deg sid ord : mkseq (fun p => pthread sid
    (sending w p (deg_red dbg pp n p ord cT (x p) (masks p) r))) n =
  mkseq (fun p => pthread sid (sending w p
    (masked_round (vec_codec cT) (p_t pp) min x (deg_red_king dbg pp r) R ord p))) n.
Proof. by apply: eq_mkseq_in => p lp; rewrite deg_red_masked. Qed.

Lemma deg_red_garbled sid ord p : (0 < p < n)%N ->
  ModelNet.decode (vec_codec cT) (w p) = Err Generic ->
  king_fails (mkseq (fun p => pthread sid
    (sending w p (deg_red dbg pp n p ord cT (x p) (masks p) r))) n) (Err Generic).
Proof. by move=> pI Hp; rewrite sending_deg; apply: masked_garbled pI Hp. Qed.

Variable y : nat -> seq T.
Hypothesis wK : forall p, (0 < p < n)%N -> ModelNet.decode (vec_codec cT) (w p) = Ok (y p).

Lemma deg_red_short sid ord p : (0 < p < n)%N -> (size (y p) < m)%N ->
  king_dies (mkseq (fun p => pthread sid
    (sending w p (deg_red dbg pp n p ord cT (x p) (masks p) r))) n).
Proof.
by move=> pI Hp; rewrite sending_deg; apply: (masked_short _ _ _ m_size sx s_in deg_king_panic wK _ _ pI Hp).
Qed.

Hypothesis y_long : forall p, (0 < p < n)%N -> (m <= size (y p))%N.
Local Notation x' := (implied min x y).

Lemma deg_red_bytes_caught sid ord : dbg -> unbalanced pp x' m ->
  king_dies (mkseq (fun p => pthread sid
    (sending w p (deg_red dbg pp n p ord cT (x p) (masks p) r))) n).
Proof.
move=> dbgT bal; rewrite sending_deg.
apply: (masked_caught _ _ _ m_size sx s_in deg_king_eq wK y_long).
have [m0 _] := andP m_size; have [v [Hin _]] := masks_good.
have [sz Eu _] := masked ok (size_implied sx s_in y_long) Hin.
by rewrite (deg_red_king_any ok _ _ m0) // Eu bal dbgT.
Qed.

Lemma deg_red_bytes : ~~ (dbg && unbalanced pp x' m) ->
  exists out : nat -> seq T, vsharing pp (2 * l) m out (fun e => interpolated pp (entry x' e)) /\
    forall ord, hash_ok ord -> king_prog n (fun d => (d != 0%N) && (n <= d)%N)
      (fun p => sending w p (deg_red dbg pp n p ord cT (x p) (masks p) r)) out.
Proof.
move=> bal; have [m0 ms] := andP m_size; have [v [Hin Hout]] := masks_good; have n1 := n_gt1 ok.
have [sz Eu Ei] := masked ok (size_implied sx s_in y_long) Hin.
pose zi p := zipmap +%R (x' p) (min p).
pose ans e := interpolated pp (entry zi e); pose dealt := dealing pp dbg ans m r.
have Hd := dealingP ok dbg ans m r.
exists (fun p => zipmap +%R (dealt p) (dr_out (masks p))); split.
  apply: vsharing_ext (vsharing_add Hd Hout) => // e j le lj.
  by rewrite /ans Ei // addrK.
have sd p : (p < n)%N -> size (dealt p) = m by case: Hd => H _ /H.
move=> ord Ho.
apply: king_prog_ext (@masked_bytes _ _ _ _ _ _ _ _ R w m_size sx s_in deg_king_eq y wK y_long ord dealt
  (fun p => zipmap +%R (dealt p) (dr_out (masks p))) _ _ _ _) => //.
- exact: ltnW.
- by move=> p lp; rewrite deg_red_masked.
- by move=> i lt_i; apply: (vec_dec cT_ok ms) (sd _ _).
- by move=> i lt_i; rewrite !(size_enc_vec cT_ok) !sd // ltnW.
by rewrite (deg_red_king_any ok _ _ m0) // Eu (negPf bal).
Qed.

End Deg.

(** ** Multi-scalar multiplication *)

Section Msm.
Variables (m : nat) (masks : nat -> msm_mask T) (bases : nat -> seq T) (scalars : nat -> seq F).
Variables (w : nat -> bytes) (dbg : bool).
Hypothesis sb : forall p, (p < n)%N -> size (bases p) = m.
Hypothesis ss : forall p, (p < n)%N -> size (scalars p) = m.
Hypothesis masks_good : msm_ok pp masks.

Let R p v : cproc T := clift (Ok (v + mm_out (masks p))).
Let z p := products bases scalars m p + mm_in (masks p).

Lemma sending_msm sid ord : mkseq (fun p => pthread sid
    (sending w p (d_msm dbg pp n p ord cT (bases p) (scalars p) (masks p)))) n =
  mkseq (fun p => pthread sid (sending w p
    (serial_round cT cT n ord z (p_t pp) (@d_msm_king F dbg pp n T) R p))) n.
Proof. by apply: eq_mkseq_in => p lp; rewrite (d_msm_start _ _ _ _ _ (sb lp) (ss lp)). Qed.

Lemma d_msm_dictated (u : nat -> T) a ord dok :
  (forall p, (0 < p < n)%N -> ModelNet.decode cT (w p) = Ok (u p)) ->
  king_prog n dok (fun p => dictating n w a p (d_msm dbg pp n p ord cT (bases p) (scalars p) (masks p)))
    (fun p => if p == 0%N then a else u p + mm_out (masks p)).
Proof.
move=> uK; have n0 := ltnW (n_gt1 ok).
apply: king_prog_ext (dictated_round cT ord z (p_t pp)
  (@d_msm_king F dbg pp n T) (R := R) dok n0 uK _ _) => //.
- by move=> p lp; rewrite /dictating; case: eqP => // _; rewrite (d_msm_start _ _ _ _ _ (sb lp) (ss lp)).
by case=> // p _.
Qed.

Lemma d_msm_garbled sid ord p : (0 < p < n)%N -> ModelNet.decode cT (w p) = Err Generic ->
  king_fails (mkseq (fun p => pthread sid
    (sending w p (d_msm dbg pp n p ord cT (bases p) (scalars p) (masks p)))) n) (Err Generic).
Proof.
by move=> pI Hp; rewrite sending_msm; apply: bytes_undecodable pI Hp; apply/ltnW/(n_gt1 ok).
Qed.

Variable y : nat -> T.
Hypothesis wK : forall p, (0 < p < n)%N -> ModelNet.decode cT (w p) = Ok (y p).

Definition implied_product p := if p == 0%N then products bases scalars m 0 else y p - mm_in (masks p).

Let y' p := implied_product p + mm_in (masks p).
Let y'K p : (0 < p < n)%N -> ModelNet.decode cT (w p) = Ok (y' p).
Proof. by move=> pI; rewrite wK // /y' /implied_product; case: eqP pI => [->|] // _ _; rewrite subrK. Qed.

Let z0K' : ModelNet.decode cT (enc cT (z 0)) = Ok (z 0).
Proof. exact: (decode_one cT_ok). Qed.

Lemma d_msm_bytes_caught sid ord : dbg -> imbalance pp implied_product != 0 ->
  king_dies (mkseq (fun p => pthread sid
    (sending w p (d_msm dbg pp n p ord cT (bases p) (scalars p) (masks p)))) n).
Proof.
move=> dbgT bal; rewrite sending_msm; have [v [Hin _]] := masks_good; have En := ppn ok.
have l0 := pp_l_gt0 ok.
apply: (@bytes_panic _ _ _ cT cT n sid ord z (p_t pp) _ R w (ltnW (n_gt1 ok)) z0K' y' y'K erefl).
have -> : Received (mkseq y' n) (iota 0 n) = received_from y' n n id by rewrite /received_from ltnn.
rewrite (d_msm_king_any ok) // imbalanceD (imbalance_shared ok _ Hin) ?addr0 ?bal ?dbgT //; lia.
Qed.

Lemma d_msm_bytes : ~~ (dbg && (imbalance pp implied_product != 0)) ->
  let S := \sum_(j < l) interpolated pp implied_product j in
  exists out : nat -> T, shared pp (2 * l) out (fun=> S) /\
    forall ord, hash_ok ord -> king_prog n (fun d => (d != 0%N) && (n <= d)%N)
      (fun p => sending w p (d_msm dbg pp n p ord cT (bases p) (scalars p) (masks p))) out.
Proof.
move=> bal S; have l0 := pp_l_gt0 ok; have En := ppn ok; have [v [Hin Hout]] := masks_good.
have Ez j : (j < l)%N -> interpolated pp y' j = interpolated pp implied_product j + v j.
  by move=> lj; rewrite interpolatedD (interpolated_shared ok _ Hin) //; lia.
have Bz : imbalance pp y' = imbalance pp implied_product.
  by rewrite imbalanceD (imbalance_shared ok _ Hin) ?addr0 //; lia.
pose S' := \sum_(j < l) interpolated pp y' j.
have ES : S' = S + \sum_(j < l) v j by rewrite /S' /S -big_split; apply: eq_bigr => j _; rewrite Ez.
exists (fun p => S' + mm_out (masks p)); split.
  have l2 : (0 < 2 * l)%N by lia.
  apply: shared_ext (shared_lin 1 (shared_const pp S' l2) Hout) => i _; rewrite scale1r //.
  by rewrite ES addrK.
move=> ord Ho.
apply: king_prog_ext (@bytes_ok _ _ _ cT cT n ord z (p_t pp) (@d_msm_king F dbg pp n T) R w
   (ltnW (n_gt1 ok)) z0K' y' y'K erefl (fun=> S') (fun p => S' + mm_out (masks p)) _ _ _ _) => //.
- exact/ltnW/(n_gt1 ok).
- by move=> p lp; rewrite (d_msm_start _ _ _ _ _ (sb lp) (ss lp)).
- by move=> i _; apply: (decode_one cT_ok).
have -> : Received (mkseq y' n) (iota 0 n) = received_from y' n n id by rewrite /received_from ltnn.
rewrite (d_msm_king_any ok) // Bz (negPf bal); congr Ok.
apply: (@eq_from_nth _ 0); rewrite size_nseq ?size_mkseq // => i lt_i.
by rewrite nth_nseq lt_i nth_mkseq.
Qed.

End Msm.
End Protocols.
