(** What at most [t] parties see of the two witness extensions. *)
From mathcomp Require Import all_ssreflect all_algebra.
From mathcomp Require Import zify.
From Verif Require Import RingTac Base ModelField ModelUtils ModelPss ModelPack ModelFft ModelNet.
From Verif Require Import ModelProto ModelQap ModelProve ModelMain.
From Verif Require Import Spec SpecNet SpecView SpecProto SpecGroth SpecVerify SpecExt.
From Verif Require Import NetProofs KingProofs LogProofs NetThm PartyProofs.
From Verif Require Import FieldProofs UtilsProofs PssProofs PackProofs FftProofs ProtoProofs DegProofs.
From Verif Require Import PssThm ProtoThm QapProofs ExtProofs GrothThm MaskProofs.
From Verif Require Import ViewProofs ViewThm.
Set Implicit Arguments.
Unset Strict Implicit.
Unset Printing Implicit Defensive.
Import GRing.Theory.
Local Open Scope ring_scope.
Local Notation Fm F := [lmodType F of F^o].

Section ExtViews.
Variable F : fftField.
Variables (dbg : bool) (lam b : nat) (pp : pss F) (dom : domain F) (cF : codec F) (mb : nat).
Hypotheses (new : pss_new F dbg (2 ^ lam) = Ok pp) (Edom : domain_new F (2 ^ (b + lam)) = Some dom).
Hypotheses (cok : codec_ok cF mb) (b8 : (2 ^ b < 256 ^ 8)%N).
  Local Notation N := (2 ^ (b + lam))%N.
  Local Notation m := (2 ^ b)%N.
  Local Notation n := (p_n pp).
  Local Notation l := (p_l pp).
Variable rs : nat -> rng F.
Variables (kd : nat -> bool) (kg : nat -> F).   (* rearranging, shift of transform [i] *)
Variable kgen : nat -> F.

(** the king's answers in transform [i] and what the parties make of it *)
Definition ext_ans (s1 : nat -> nat -> nat -> F) (vf : nat -> rng F) (i : nat) : nat -> seq F :=
  dealing (T := Fm F) pp dbg (slots (T := Fm F) pp (kd i) b (b + lam)
    (king_values pp lam b (kg i) (kgen i) (s1 i) (vf i))) m (rs i).
Definition ext_out (A : nat -> nat -> seq F) (fm : nat -> nat -> fft_mask F) (i p : nat) : seq F :=
  zipmap +%R (A i p) (fm_out (fm p i)).
Definition ext_msg (A : nat -> nat -> seq F) (i p : nat) : seq bytes :=
  king_msgs (fun p => enc (vec_codec cF) (A i p)) p.

Lemma libsnark_logs (sa sb sc : nat -> nat -> F) deg : (deg <= 4 * 2 ^ lam - 1)%N ->
  ff_generator F ^+ N != 1 ->
  kd = (fun i => (i < 6)%N) ->
  kg = (fun i => if (i < 3)%N then ff_generator F else if (i < 6)%N then 1 else (ff_generator F)^-1) ->
  kgen = (fun i => if (3 <= i < 6)%N then d_gen dom else d_gen_inv dom) ->
  exists s1 : nat -> nat -> nat -> F, forall (q : nat -> qap_t F) (fm : nat -> seq (fft_mask F)) vf,
  (forall p, (p < n)%N -> q_domain (q p) = dom) ->
  vsharing (T := Fm F) pp deg m (fun p => q_a (q p)) sa ->
  vsharing (T := Fm F) pp deg m (fun p => q_b (q p)) sb ->
  vsharing (T := Fm F) pp deg m (fun p => q_c (q p)) sc ->
  (forall i, (i < 7)%N -> mask_of lam b pp (kd i) (kg i) (kgen i) (vf i)
     (fun p => nth (no_mask F) (fm p) i)) ->
  let A := ext_ans s1 vf in
  party_yields n false (fun ords p => plog (libsnark_h dbg pp n p ords cF (q p) (fm p) rs) [::])
    (fun p => (ext_out A (fun p i => nth (no_mask F) (fm p) i) 6 p, [seq ext_msg A i p | i <- iota 0 7])).
Proof.
move=> Hdeg gN Ekd Ekg Ekgen; have ok := pss_new_ok new; have El := pss_new_l new.
have l0 := pp_l_gt0 ok; have n0 := n_gt0 new; set g := ff_generator F in gN Ekg *.
have le2 : (2 * l <= 4 * 2 ^ lam - 1)%N by rewrite -El; lia.
have le4 : (4 * l - 1 <= 4 * 2 ^ lam - 1)%N by rewrite -El.
have [_ Es Eo] := dom_ok Edom; have g0 : g != 0 by apply: ff_generator_neq0.
have Ez : eval_vanishing dom g = g ^+ N - 1 by rewrite /eval_vanishing Eo expr1n Es.
have z0 : g ^+ N - 1 != 0 by rewrite subr_eq0.
set z := (g ^+ N - 1)^-1.
have I sec := d_ifft_logs new Edom cok b8 true g sec Hdeg.
have D sec := d_fft_logs new Edom cok b8 true sec le2.
have [a1 [a2 Ia]] := I sa; have [b1 [b2 Ib]] := I sb; have [e1 [e2 Ic]] := I sc.
have [a3 [a4 Da]] := D a2; have [b3 [b4 Db]] := D b2; have [e3 [e4 Dc]] := D e2.
have [h1 [h2 Ih]] := d_ifft_logs new Edom cok b8 false g^-1 (fun e j => (a4 e j * b4 e j - e4 e j) * z) le4.
exists (nth (fun _ _ => 0) [:: a1; b1; e1; a3; b3; e3; h1]) => q fm vf Hq Ha Hb Hc M A.
pose f p i := nth (no_mask F) (fm p) i; pose co := ext_out A f.
have Mi i : (i < 7)%N -> mask_of lam b pp (i < 6)%N (if (i < 3)%N then g else if (i < 6)%N then 1 else g^-1)
    (if (3 <= i < 6)%N then d_gen dom else d_gen_inv dom) (vf i) (fun p => f p i).
  by move=> lt_i; move: (M i lt_i); rewrite Ekd Ekg Ekgen.
have EA i : A i = dealing (T := Fm F) pp dbg (slots (T := Fm F) pp (i < 6)%N b (b + lam)
    (king_values pp lam b (if (i < 3)%N then g else if (i < 6)%N then 1 else g^-1)
    (if (3 <= i < 6)%N then d_gen dom else d_gen_inv dom)
    (nth (fun _ _ => 0) [:: a1; b1; e1; a3; b3; e3; h1] i) (vf i))) m (rs i).
  by rewrite /A /ext_ans Ekd Ekg Ekgen.
have [Va Pa] := Ia _ Ha (rs 0%N) _ _ (Mi 0%N isT).
have [Vb Pb] := Ib _ Hb (rs 1%N) _ _ (Mi 1%N isT).
have [Vc Pc] := Ic _ Hc (rs 2%N) _ _ (Mi 2%N isT).
have [Wa Qa] := Da _ Va (rs 3%N) _ _ (Mi 3%N isT).
have [Wb Qb] := Db _ Vb (rs 4%N) _ _ (Mi 4%N isT).
have [Wc Qc] := Dc _ Vc (rs 5%N) _ _ (Mi 5%N isT).
have Habc := vsharing_abc ok El z Wa Wb Wc.
have [_ Ph] := Ih _ Habc (rs 6%N) _ _ (Mi 6%N isT).
rewrite -?(EA 0%N, EA 1%N, EA 2%N, EA 3%N, EA 4%N, EA 5%N, EA 6%N) in Pa Pb Pc Qa Qb Qc Ph.
apply: party_yields_prog => // [ords p|ords Ho].
  by apply: separate_plog; apply: separate_libsnark.
have HL : party_log n (fun d => d != 0%N) (fun p => libsnark_h dbg pp n p ords cF (q p) (fm p) rs)
    (co 6%N) (fun p => [:: ext_msg A 0 p; ext_msg A 1 p; ext_msg A 2 p] ++
      ([:: ext_msg A 3 p; ext_msg A 4 p; ext_msg A 5 p] ++ [:: ext_msg A 6 p])).
  apply: (party_log_ext (P' := (fun p =>
    pbind (try_join3 (d_ifft dbg pp n p (ords 0%N) cF (q_a (q p)) (f p 0%N) true dom g (rs 0%N))
                     (d_ifft dbg pp n p (ords 1%N) cF (q_b (q p)) (f p 1%N) true dom g (rs 1%N))
                     (d_ifft dbg pp n p (ords 2%N) cF (q_c (q p)) (f p 2%N) true dom g (rs 2%N)))
    (fun '(a, bb, c) =>
    pbind (try_join3 (d_fft dbg pp n p (ords 3%N) cF a (f p 3%N) true dom (rs 3%N))
                     (d_fft dbg pp n p (ords 4%N) cF bb (f p 4%N) true dom (rs 4%N))
                     (d_fft dbg pp n p (ords 5%N) cF c (f p 5%N) true dom (rs 5%N)))
    (fun '(a, bb, c) =>
    pthread 0 (d_ifft dbg pp n p (ords 6%N) cF
      (zipmap (fun ab c => (ab.1 * ab.2 - c) * z) (zip a bb) c) (f p 6%N) false dom g^-1 (rs 6%N)))))));
    [|by []|by []|].
    move=> p lt_p; rewrite /libsnark_h Hq // /get_coset -/g (negbTE g0) /=.
    by rewrite Ez /inverse (negbTE z0) /=.
  apply: (party_log_bind (v1 := fun p => (co 0%N p, co 1%N p, co 2%N p))).
    by apply: try_join3_log; [apply: Pa|apply: Pb|apply: Pc].
  apply: (party_log_bind (v1 := fun p => (co 3%N p, co 4%N p, co 5%N p))).
    by apply: try_join3_log; [apply: Qa|apply: Qb|apply: Qc].
  by apply: pthread_log; apply: Ph.
exact: party_log_plog (fun=> [::]) HL.
Qed.

Lemma circom_logs (d2 : domain F) (sa sb sc : nat -> nat -> F) deg : (deg <= 4 * 2 ^ lam - 1)%N ->
  domain_new F (2 * N) = Some d2 ->
  kd = (fun i => (i < 3)%N) -> kg = (fun i => if (i < 3)%N then d_gen d2 else 1) ->
  kgen = (fun i => if (i < 3)%N then d_gen_inv dom else d_gen dom) ->
  exists (s1 : nat -> nat -> nat -> F) (sh : nat -> nat -> F),
  forall (q : nat -> qap_t F) (fm : nat -> seq (fft_mask F)) (dm : nat -> degred_mask (Fm F)) vf vd,
  (forall p, (p < n)%N -> q_domain (q p) = dom) ->
  vsharing (T := Fm F) pp deg m (fun p => q_a (q p)) sa ->
  vsharing (T := Fm F) pp deg m (fun p => q_b (q p)) sb ->
  vsharing (T := Fm F) pp deg m (fun p => q_c (q p)) sc ->
  (forall i, (i < 6)%N -> mask_of lam b pp (kd i) (kg i) (kgen i) (vf i)
     (fun p => nth (no_mask F) (fm p) i)) ->
  vsharing (T := Fm F) pp (2 * l) m (fun p => dr_in (dm p)) vd ->
  vsharing (T := Fm F) pp (2 * l) m (fun p => dr_out (dm p)) (fun e j => - vd e j) ->
  let A := ext_ans s1 vf in
  let H := dealing (T := Fm F) pp dbg (fun e j => sh e j + vd e j) m (rs 6%N) in
  party_yields n false (fun ords p => plog (circom_h dbg pp n p ords cF (q p) (fm p) (dm p) rs) [::])
    (fun p => (zipmap +%R (H p) (dr_out (dm p)),
       rcons [seq ext_msg A i p | i <- iota 0 6] (king_msgs (fun p => enc (vec_codec cF) (H p)) p))).
Proof.
move=> Hdeg Ed2 Ekd Ekg Ekgen; have ok := pss_new_ok new; have El := pss_new_l new.
have l0 := pp_l_gt0 ok; have n0 := n_gt0 new.
have le2 : (2 * l <= 4 * 2 ^ lam - 1)%N by rewrite -El; lia.
have [Edr _ _] := double_rootP Edom Ed2.
have I sec := d_ifft_logs new Edom cok b8 true (d_gen d2) sec Hdeg.
have D sec := d_fft_logs new Edom cok b8 false sec le2.
have [a1 [a2 Ia]] := I sa; have [b1 [b2 Ib]] := I sb; have [e1 [e2 Ic]] := I sc.
have [a3 [a4 Da]] := D a2; have [b3 [b4 Db]] := D b2; have [e3 [e4 Dc]] := D e2.
pose sh e j := (a4 e j * b4 e j - e4 e j) * 1.
exists (nth (fun _ _ => 0) [:: a1; b1; e1; a3; b3; e3]), sh => q fm dm vf vd Hq Ha Hb Hc M Md1 Md2 A H.
pose f p i := nth (no_mask F) (fm p) i; pose co := ext_out A f.
have Mi i : (i < 6)%N -> mask_of lam b pp (i < 3)%N (if (i < 3)%N then d_gen d2 else 1)
    (if (i < 3)%N then d_gen_inv dom else d_gen dom) (vf i) (fun p => f p i).
  by move=> lt_i; move: (M i lt_i); rewrite Ekd Ekg Ekgen.
have EA i : A i = dealing (T := Fm F) pp dbg (slots (T := Fm F) pp (i < 3)%N b (b + lam)
    (king_values pp lam b (if (i < 3)%N then d_gen d2 else 1)
    (if (i < 3)%N then d_gen_inv dom else d_gen dom)
    (nth (fun _ _ => 0) [:: a1; b1; e1; a3; b3; e3] i) (vf i))) m (rs i).
  by rewrite /A /ext_ans Ekd Ekg Ekgen.
have [Va Pa] := Ia _ Ha (rs 0%N) _ _ (Mi 0%N isT).
have [Vb Pb] := Ib _ Hb (rs 1%N) _ _ (Mi 1%N isT).
have [Vc Pc] := Ic _ Hc (rs 2%N) _ _ (Mi 2%N isT).
have [Wa Qa] := Da _ Va (rs 3%N) _ _ (Mi 3%N isT).
have [Wb Qb] := Db _ Vb (rs 4%N) _ _ (Mi 4%N isT).
have [Wc Qc] := Dc _ Vc (rs 5%N) _ _ (Mi 5%N isT).
have Habc := vsharing_abc ok El 1 Wa Wb Wc.
rewrite -?(EA 0%N, EA 1%N, EA 2%N, EA 3%N, EA 4%N, EA 5%N) in Pa Pb Pc Qa Qb Qc Habc.
pose he p := zipmap (fun ab c => ab.1 * ab.2 - c) (zip (co 3%N p) (co 4%N p)) (co 5%N p).
have Hhe : vsharing (T := Fm F) pp (4 * l - 1) m he sh.
  by apply: vsharing_ext Habc => // p lt_p; rewrite /he /zipmap; apply: eq_map => ab; rewrite mulr1.
have m8 : (0 < m < 256 ^ 8)%N by rewrite expn_gt0.
have [_ Ph] := deg_red_answer (T := Fm F) ok cok dbg (rs 6%N) m8 (leqnn _) Md1 Md2 Hhe.
apply: party_yields_prog => // [ords p|ords Ho].
  by apply: separate_plog; apply: separate_circom.
have HL : party_log n (fun d => d != 0%N) (fun p => circom_h dbg pp n p ords cF (q p) (fm p) (dm p) rs)
    (fun p => zipmap +%R (H p) (dr_out (dm p))) (fun p => [:: ext_msg A 0 p; ext_msg A 1 p; ext_msg A 2 p] ++
      ([:: ext_msg A 3 p; ext_msg A 4 p; ext_msg A 5 p] ++
       [:: king_msgs (fun p => enc (vec_codec cF) (H p)) p])).
  apply: (party_log_ext (P' := (fun p =>
    pbind (try_join3 (d_ifft dbg pp n p (ords 0%N) cF (q_a (q p)) (f p 0%N) true dom (d_gen d2) (rs 0%N))
                     (d_ifft dbg pp n p (ords 1%N) cF (q_b (q p)) (f p 1%N) true dom (d_gen d2) (rs 1%N))
                     (d_ifft dbg pp n p (ords 2%N) cF (q_c (q p)) (f p 2%N) true dom (d_gen d2) (rs 2%N)))
    (fun '(a, bb, c) =>
    pbind (try_join3 (d_fft dbg pp n p (ords 3%N) cF a (f p 3%N) false dom (rs 3%N))
                     (d_fft dbg pp n p (ords 4%N) cF bb (f p 4%N) false dom (rs 4%N))
                     (d_fft dbg pp n p (ords 5%N) cF c (f p 5%N) false dom (rs 5%N)))
    (fun '(a, bb, c) =>
    pthread 0 (deg_red dbg pp n p (ords 6%N) (T := Fm F) cF
      (zipmap (fun ab c => ab.1 * ab.2 - c) (zip a bb) c) (dm p) (rs 6%N)))))));
    [|by []|by []|].
    by move=> p lt_p; rewrite /circom_h Hq // Edr.
  apply: (party_log_bind (v1 := fun p => (co 0%N p, co 1%N p, co 2%N p))).
    by apply: try_join3_log; [apply: Pa|apply: Pb|apply: Pc].
  apply: (party_log_bind (v1 := fun p => (co 3%N p, co 4%N p, co 5%N p))).
    by apply: try_join3_log; [apply: Qa|apply: Qb|apply: Qc].
  by apply: pthread_log; apply: Ph.
exact: party_log_plog (fun=> [::]) HL.
Qed.

End ExtViews.

(** fresh masks for several transforms *)
Lemma fresh_all (F : fftField) (dbg : bool) lam b (pp : pss F) (P : seq nat) k
    (kd : nat -> bool) (kg kgen : nat -> F) (s1 s1' : nat -> nat -> nat -> F) :
  pss_new F dbg (2 ^ lam) = Ok pp -> ff_generator F ^+ p_n pp != 1 ->
  uniq P -> all (fun p => p < p_n pp)%N P -> (size P <= p_t pp)%N ->
  exists dv di do_ : nat -> rng F, forall i, (i < k)%N -> forall values r_in r_out,
    (forall p, p \in P -> fmask dbg lam b pp (kd i) (kg i) (kgen i) (fun j => values j + dv i j)
      (fun j => r_in j + di i j) (fun j => r_out j + do_ i j) p =
      fmask dbg lam b pp (kd i) (kg i) (kgen i) values r_in r_out p) /\
    king_values pp lam b (kg i) (kgen i) (s1' i) (fun j => values j + dv i j) =
      king_values pp lam b (kg i) (kgen i) (s1 i) values.
Proof.
move=> new gn uP ltP sP.
have [i lt_i|D HD] := choice_upto (fun=> 0, fun=> 0, fun=> 0) (m := k) (P := fun i (D : rng F * rng F * rng F) =>
    forall values r_in r_out,
    (forall p, p \in P -> fmask dbg lam b pp (kd i) (kg i) (kgen i) (fun j => values j + D.1.1 j)
      (fun j => r_in j + D.1.2 j) (fun j => r_out j + D.2 j) p =
      fmask dbg lam b pp (kd i) (kg i) (kgen i) values r_in r_out p) /\
    king_values pp lam b (kg i) (kgen i) (s1' i) (fun j => values j + D.1.1 j) =
      king_values pp lam b (kg i) (kgen i) (s1 i) values).
  by have [dv [di [do_ H]]] := fresh_masks b new gn uP ltP sP (kd i) (kg i) (kgen i) (s1 i) (s1' i);
     exists (dv, di, do_).
by exists (fun i => (D i).1.1), (fun i => (D i).1.2), (fun i => (D i).2).
Qed.

(*** theorems ***)

(** C60: what at most [t] parties see of [libsnark_h] (their results and all messages they receive, in
    any schedule) does not depend on the vectors shared among the others: some translation of the
    randomness of the seven masks leaves their masks and their views as they are when the vectors
    change.  The king's own randomness [rs] may be known, and the messages the king collects are not
    part of these views (C28). *)
Lemma c60_libsnark_h (F : fftField) (dbg : bool) lam b (pp : pss F) dom (cF : codec F) mb
    (q q' : nat -> qap_t F) (sa sb sc sa' sb' sc' : nat -> nat -> F) deg (P : seq nat)
    (rs : nat -> rng F) :
  pss_new F dbg (2 ^ lam) = Ok pp -> domain_new F (2 ^ (b + lam)) = Some dom ->
  codec_ok cF mb -> (2 ^ b < 256 ^ 8)%N -> (deg <= 4 * 2 ^ lam - 1)%N ->
  ff_generator F ^+ (2 ^ (b + lam)) != 1 -> ff_generator F ^+ p_n pp != 1 ->
  uniq P -> all (fun p => p < p_n pp)%N P -> (size P <= p_t pp)%N ->
  (forall p, (p < p_n pp)%N -> q_domain (q p) = dom) ->
  (forall p, (p < p_n pp)%N -> q_domain (q' p) = dom) ->
  vsharing (T := Fm F) pp deg (2 ^ b) (fun p => q_a (q p)) sa ->
  vsharing (T := Fm F) pp deg (2 ^ b) (fun p => q_b (q p)) sb ->
  vsharing (T := Fm F) pp deg (2 ^ b) (fun p => q_c (q p)) sc ->
  vsharing (T := Fm F) pp deg (2 ^ b) (fun p => q_a (q' p)) sa' ->
  vsharing (T := Fm F) pp deg (2 ^ b) (fun p => q_b (q' p)) sb' ->
  vsharing (T := Fm F) pp deg (2 ^ b) (fun p => q_c (q' p)) sc' ->
  exists dv di do_ : nat -> rng F, forall values r_in r_out : nat -> rng F, exists ms ms' out out',
  [/\ forall i, (i < 7)%N -> libsnark_mask dbg pp dom (2 ^ (b + lam)) i (values i) (r_in i) (r_out i) = Ok (ms i),
      forall i, (i < 7)%N -> libsnark_mask dbg pp dom (2 ^ (b + lam)) i (fun j => values i j + dv i j)
        (fun j => r_in i j + di i j) (fun j => r_out i j + do_ i j) = Ok (ms' i),
      party_yields (p_n pp) false (fun ords p => plog (libsnark_h dbg pp (p_n pp) p ords cF (q p)
        (mkseq (fun i => nth (no_mask F) (ms i) p) 7) rs) [::]) out,
      party_yields (p_n pp) false (fun ords p => plog (libsnark_h dbg pp (p_n pp) p ords cF (q' p)
        (mkseq (fun i => nth (no_mask F) (ms' i) p) 7) rs) [::]) out' &
      forall p, p \in P -> out' p = out p /\
        forall i, (i < 7)%N -> nth (no_mask F) (ms' i) p = nth (no_mask F) (ms i) p].
Proof.
move=> new Edom cok b8 Hdeg gN gn uP ltP sP Hq Hq' Ha Hb Hc Ha' Hb' Hc'.
pose kd i := (i < 6)%N.
pose kg i := if (i < 3)%N then ff_generator F else if (i < 6)%N then 1 else (ff_generator F)^-1.
pose kgen i := if (3 <= i < 6)%N then d_gen dom else d_gen_inv dom.
have [s1 /(_ q) R] := libsnark_logs new Edom cok b8 rs sa sb sc Hdeg gN (erefl kd) (erefl kg) (erefl kgen).
have [s1' /(_ q') R'] := libsnark_logs new Edom cok b8 rs sa' sb' sc' Hdeg gN (erefl kd) (erefl kg) (erefl kgen).
have [dv [di [do_ D]]] := fresh_all b 7 kd kg kgen s1 s1' new gn uP ltP sP.
exists dv, di, do_ => values r_in r_out.
pose fm i := fmask dbg lam b pp (kd i) (kg i) (kgen i).
have S i v r r' : (i < 7)%N -> libsnark_mask dbg pp dom (2 ^ (b + lam)) i v r r' = Ok (mkseq (fm i v r r') (p_n pp)).
  have pr := dom_prim Edom; have pr' := dom_prim_inv Edom.
  rewrite /libsnark_mask /fm /kd /kg /kgen => lt_i.
  case: (ltnP i 3) => [lt3|ge3]; first by rewrite (ltn_trans lt3) // (fft_sample_dealing new).
  by case: (ltnP i 6) => [lt6|ge6]; rewrite (fft_sample_dealing new).
have M v r r' : forall i, (i < 7)%N -> mask_of lam b pp (kd i) (kg i) (kgen i) (v i) (fun p => nth (no_mask F)
    (mkseq (fun i => nth (no_mask F) (mkseq (fm i (v i) (r i) (r' i)) (p_n pp)) p) 7) i).
  move=> i lt_i; apply: mask_of_ext (fmask_ok b new (kd i) (kg i) (kgen i) (v i) (r i) (r' i)) => p lt_p.
  by rewrite !nth_mkseq.
do 4!eexists; split; [by move=> i; apply: S|by move=> i; apply: S|exact: (R _ _ Hq Ha Hb Hc (M _ _ _))
  |exact: (R' _ _ Hq' Ha' Hb' Hc' (M _ (fun i j => r_in i j + di i j) (fun i j => r_out i j + do_ i j)))|].
move=> p p_P; have lt_p := allP ltP _ p_P.
have Em i : (i < 7)%N -> fm i (fun j => values i j + dv i j) (fun j => r_in i j + di i j)
    (fun j => r_out i j + do_ i j) p = fm i (values i) (r_in i) (r_out i) p.
  by move=> lt_i; have [H _] := D i lt_i (values i) (r_in i) (r_out i); apply: H.
have EA i : (i < 7)%N -> ext_ans dbg lam b pp rs kd kg kgen s1' (fun i j => values i j + dv i j) i =
    ext_ans dbg lam b pp rs kd kg kgen s1 values i.
  by move=> lt_i; have [_ H] := D i lt_i (values i) (r_in i) (r_out i); rewrite /ext_ans H.
split; last by move=> i lt_i; rewrite !nth_mkseq // Em.
congr (_, _); first by rewrite /ext_out EA // !nth_mkseq // Em.
by apply/eq_in_map => i; rewrite mem_iota => /andP[_ lt_i]; rewrite /ext_msg EA.
Qed.

(** C60: the same for [circom_h], with six masks for the transforms and one for the degree reduction. *)
Lemma c60_circom_h (F : fftField) (dbg : bool) lam b (pp : pss F) dom d2 (cF : codec F) mb
    (q q' : nat -> qap_t F) (sa sb sc sa' sb' sc' : nat -> nat -> F) deg (P : seq nat)
    (rs : nat -> rng F) :
  pss_new F dbg (2 ^ lam) = Ok pp -> domain_new F (2 ^ (b + lam)) = Some dom ->
  domain_new F (2 * 2 ^ (b + lam)) = Some d2 ->
  codec_ok cF mb -> (2 ^ b < 256 ^ 8)%N -> (deg <= 4 * 2 ^ lam - 1)%N ->
  ff_generator F ^+ p_n pp != 1 ->
  uniq P -> all (fun p => p < p_n pp)%N P -> (size P <= p_t pp)%N ->
  (forall p, (p < p_n pp)%N -> q_domain (q p) = dom) ->
  (forall p, (p < p_n pp)%N -> q_domain (q' p) = dom) ->
  vsharing (T := Fm F) pp deg (2 ^ b) (fun p => q_a (q p)) sa ->
  vsharing (T := Fm F) pp deg (2 ^ b) (fun p => q_b (q p)) sb ->
  vsharing (T := Fm F) pp deg (2 ^ b) (fun p => q_c (q p)) sc ->
  vsharing (T := Fm F) pp deg (2 ^ b) (fun p => q_a (q' p)) sa' ->
  vsharing (T := Fm F) pp deg (2 ^ b) (fun p => q_b (q' p)) sb' ->
  vsharing (T := Fm F) pp deg (2 ^ b) (fun p => q_c (q' p)) sc' ->
  exists (dv di do_ : nat -> rng F) (ev ei eo : rng F),
  forall (values r_in r_out : nat -> rng F) (u s s' : rng F), exists ms ms' ds ds' out out',
  [/\ (forall i, (i < 6)%N ->
         circom_mask dbg pp dom (d_gen d2) (2 ^ (b + lam)) i (values i) (r_in i) (r_out i) = Ok (ms i)) /\
      degred_mask_sample dbg pp (1 : Fm F) (2 ^ b) u s s' = Ok ds,
      (forall i, (i < 6)%N -> circom_mask dbg pp dom (d_gen d2) (2 ^ (b + lam)) i
         (fun j => values i j + dv i j) (fun j => r_in i j + di i j) (fun j => r_out i j + do_ i j) = Ok (ms' i)) /\
      degred_mask_sample dbg pp (1 : Fm F) (2 ^ b) (fun j => u j + ev j) (fun j => s j + ei j)
        (fun j => s' j + eo j) = Ok ds',
      party_yields (p_n pp) false (fun ords p => plog (circom_h dbg pp (p_n pp) p ords cF (q p)
        (mkseq (fun i => nth (no_mask F) (ms i) p) 6) (nth (degred_mask_zero (Fm F) 0) ds p) rs) [::]) out,
      party_yields (p_n pp) false (fun ords p => plog (circom_h dbg pp (p_n pp) p ords cF (q' p)
        (mkseq (fun i => nth (no_mask F) (ms' i) p) 6) (nth (degred_mask_zero (Fm F) 0) ds' p) rs) [::]) out' &
      forall p, p \in P -> [/\ out' p = out p,
        forall i, (i < 6)%N -> nth (no_mask F) (ms' i) p = nth (no_mask F) (ms i) p &
        nth (degred_mask_zero (Fm F) 0) ds' p = nth (degred_mask_zero (Fm F) 0) ds p]].
Proof.
move=> new Edom Ed2 cok b8 Hdeg gn uP ltP sP Hq Hq' Ha Hb Hc Ha' Hb' Hc'; have ok := pss_new_ok new.
pose kd i := (i < 3)%N; pose kg i := if (i < 3)%N then d_gen d2 else 1.
pose kgen i := if (i < 3)%N then d_gen_inv dom else d_gen dom.
have [s1 [sh /(_ q) R]] := circom_logs new Edom cok b8 rs sa sb sc Hdeg Ed2 (erefl kd) (erefl kg) (erefl kgen).
have [s1' [sh' /(_ q') R']] := circom_logs new Edom cok b8 rs sa' sb' sc' Hdeg Ed2 (erefl kd) (erefl kg) (erefl kgen).
have [dv [di [do_ D]]] := fresh_all b 6 kd kg kgen s1 s1' new gn uP ltP sP.
have [ev [ei [eo Dd]]] := fresh_dmask (T := Fm F) new gn uP ltP sP 1 (2 ^ b) (fun e j => sh e j - sh' e j).
exists dv, di, do_, ev, ei, eo => values r_in r_out u s s'.
pose fm i := fmask dbg lam b pp (kd i) (kg i) (kgen i).
pose dm := dmask (T := Fm F) pp dbg 1 (2 ^ b).
have S i v r r' : circom_mask dbg pp dom (d_gen d2) (2 ^ (b + lam)) i v r r' = Ok (mkseq (fm i v r r') (p_n pp)).
  have pr := dom_prim Edom; have pr' := dom_prim_inv Edom.
  rewrite /circom_mask /fm /kd /kg /kgen.
  by case: (ltnP i 3) => [lt3|ge3]; rewrite (fft_sample_dealing new).
have m0 : (0 < 2 ^ b)%N by rewrite expn_gt0.
have Sd v r r' := degred_sample_dealing (T := Fm F) ok dbg 1 v r r' m0.
have M v r r' : forall i, (i < 6)%N -> mask_of lam b pp (kd i) (kg i) (kgen i) (v i) (fun p => nth (no_mask F)
    (mkseq (fun i => nth (no_mask F) (mkseq (fm i (v i) (r i) (r' i)) (p_n pp)) p) 6) i).
  move=> i lt_i; apply: mask_of_ext (fmask_ok b new (kd i) (kg i) (kgen i) (v i) (r i) (r' i)) => p lt_p.
  by rewrite !nth_mkseq.
have Md v r r' (f : degred_mask (Fm F) -> seq F) sec :
    vsharing (T := Fm F) pp (2 * p_l pp) (2 ^ b) (fun p => f (dm v r r' p)) sec ->
    vsharing (T := Fm F) pp (2 * p_l pp) (2 ^ b)
      (fun p => f (nth (degred_mask_zero (Fm F) 0) (mkseq (dm v r r') (p_n pp)) p)) sec.
  by apply: vsharing_ext => // p lt_p; rewrite nth_mkseq.
have [/Md Ai /Md Ao] := dmask_ok (T := Fm F) ok dbg 1 (2 ^ b) u s s'.
have [/Md Ai' /Md Ao'] := dmask_ok (T := Fm F) ok dbg 1 (2 ^ b) (fun j => u j + ev j) (fun j => s j + ei j)
  (fun j => s' j + eo j).
do 6!eexists; split; [by split=> [i _|]; [apply: S|apply: Sd]|by split=> [i _|]; [apply: S|apply: Sd]
  |exact: (R _ _ _ _ Hq Ha Hb Hc (M _ _ _) Ai Ao)
  |exact: (R' _ _ _ _ Hq' Ha' Hb' Hc' (M _ (fun i j => r_in i j + di i j) (fun i j => r_out i j + do_ i j)) Ai' Ao')|].
move=> p p_P; have lt_p := allP ltP _ p_P.
have Em i : (i < 6)%N -> fm i (fun j => values i j + dv i j) (fun j => r_in i j + di i j)
    (fun j => r_out i j + do_ i j) p = fm i (values i) (r_in i) (r_out i) p.
  by move=> lt_i; have [H _] := D i lt_i (values i) (r_in i) (r_out i); apply: H.
have EA i : (i < 6)%N -> ext_ans dbg lam b pp rs kd kg kgen s1' (fun i j => values i j + dv i j) i =
    ext_ans dbg lam b pp rs kd kg kgen s1 values i.
  by move=> lt_i; have [_ H] := D i lt_i (values i) (r_in i) (r_out i); rewrite /ext_ans H.
have [/(_ p p_P) Ed Ev] := Dd u s s'.
have {}Ed : dm (fun j => u j + ev j) (fun j => s j + ei j) (fun j => s' j + eo j) p = dm u s s' p by exact: Ed.
split; [|by move=> i lt_i; rewrite !nth_mkseq // Em|by rewrite !nth_mkseq // Ed].
have EH : dealing (T := Fm F) pp dbg (fun e j => sh' e j + (u (e * p_l pp + j)%N + ev (e * p_l pp + j)%N) *: (1 : Fm F)) (2 ^ b) (rs 6%N) p =
  dealing (T := Fm F) pp dbg (fun e j => sh e j + u (e * p_l pp + j)%N *: (1 : Fm F)) (2 ^ b) (rs 6%N) p.
  apply: (dealing_ext (T := Fm F)) => e j lt_e lt_j.
  by rewrite Ev // /GRing.scale /= !mulr1 addrCA [X in _ + X]addrC subrK addrC.
congr (_, _); first by rewrite EH !nth_mkseq // Ed.
congr rcons; last by rewrite /king_msgs EH.
by apply/eq_in_map => i; rewrite mem_iota => /andP[_ lt_i]; rewrite /ext_msg EA.
Qed.
