(** Instances of C77 over the field of 17 elements with n = 8, l = t = 2, and runs of the partial
    products in which a party sends wrong shares. *)
From mathcomp Require Import all_ssreflect all_algebra.
From mathcomp Require Import zify.
From Verif Require Import Base ModelField ModelPss ModelPack ModelFft ModelNet ModelProto.
From Verif Require Import Spec SpecNet SpecProto SpecTamper SpecBytes ExampleField PssProofs ProtoProofs DegProofs.
From Verif Require Import TamperProofs TamperPp.
From Verif Require Import ExamplesNet ExamplesProto ExamplesKingView ExamplesTamper ExamplesBytes.
From Verif Require Import PropertiesPpTamper ModelNet.
Set Implicit Arguments.
Unset Strict Implicit.
Unset Printing Implicit Defensive.
Import GRing.Theory.
Local Open Scope ring_scope.

(** (2, 3)/(5, 7); party 5 adds 3 to its numerator *)
Definition tops : nat -> seq F17 := fun p => [:: sh17 [:: 2; 3]%N 4 p].
Definition bots : nat -> seq F17 := fun p => [:: sh17 [:: 5; 7]%N 6 p].
Definition top5 : seq F17 := [:: (tops 5)`_0 + 3%:R].
Definition pp_tamper_net dbg (xn xd : nat -> seq F17) : cfg (seq F17) :=
  init (mkseq (fun p => pthread 3 (d_pp dbg pp2 8 p rev id cF17 (xn p) (xd p) (dmasks p) (rnd 11) (rnd 13))) 8).
Definition pp_got dbg xn xd : seq F17 := unpack (T := T17) pp2
  (ExamplesProto.entry 0 (results_of (run (round 8 ++ round 8 ++ joins 8) (pp_tamper_net dbg xn xd)))).
Definition running17 (num den : seq F17) : seq F17 :=
  [:: num`_0 / den`_0; num`_0 / den`_0 * (num`_1 / den`_1)].
Definition wrong_num : seq F17 := [:: 2%:R + wt 5 0 * 3%:R; 3%:R + wt 5 1 * 3%:R].

Example pp_honest dbg : pp_got dbg tops bots = nums [:: 14; 6]%N.
Proof. by case: dbg; apply/eqP; vm_compute. Qed.
(** release: the products of the wrong numerators *)
Example pp_wrong_release :
  pp_got false (replaced tops 5 top5) bots = running17 wrong_num (nums [:: 5; 7]%N).
Proof. by apply/eqP; vm_compute. Qed.
Example pp_wrong_differs : (pp_got false (replaced tops 5 top5) bots)`_0 != 14%:R.
Proof. by vm_compute. Qed.
(** debug: the king panics *)
Definition pp_fate dbg xn xd := omap (fun c => nth PHalt (procs c) 0)
  (run ([seq party p | p <- iota 1 7] ++ [seq king (KArrive p) | p <- iota 1 7]
        ++ [:: king KGathered; (0%N, LAbort 0)]) (pp_tamper_net dbg xn xd)).
Example pp_wrong_debug : pp_fate true (replaced tops 5 top5) bots = Some (PRet Panic).
Proof. by vm_compute. Qed.
(** release: party 5 chooses its denominator so that the first slot becomes zero, and the king panics *)
Definition bot5 : seq F17 := [:: (bots 5)`_0 - 5%:R / wt 5 0].
Example pp_stop_release : pp_fate false tops (replaced bots 5 bot5) = Some (PRet Panic).
Proof. by vm_compute. Qed.
(** with any other denominator it does not *)
Example pp_stop_only : all (fun a : nat =>
    ~~ isSome (pp_fate false tops (replaced bots 5 [:: (bots 5)`_0 + a%:R])) ||
    ((a%:R : F17) == - (5%:R / wt 5 0)) || ((a%:R : F17) == - (7%:R / wt 5 1))) (iota 0 17).
Proof. by vm_compute. Qed.

(** instances of the theorems *)
Lemma tops_shared : vsharing (T := T17) pp2 4 1 tops (blocks (T := T17) pp2 (nums [:: 2; 3]%N)).
Proof. exact: (@sh17_shared [:: 2; 3]%N 4 erefl). Qed.
Lemma bots_shared : vsharing (T := T17) pp2 4 1 bots (blocks (T := T17) pp2 (nums [:: 5; 7]%N)).
Proof. exact: (@sh17_shared [:: 5; 7]%N 6 erefl). Qed.
Lemma small1_2 : (2 * 1 < 256 ^ 8)%N. Proof. exact: small_2m. Qed.
Lemma size_tops5 p : (p < p_n pp2)%N -> size (replaced tops 5 top5 p) = 1%N.
Proof. by move=> _; rewrite /replaced; case: ifP. Qed.
Lemma size_bots p : (p < p_n pp2)%N -> size (bots p) = 1%N. Proof. by []. Qed.

Example c77_one_party_instance := @C77_one_party F17 1 pp2 cF17 1 1 3%:R dmasks tops bots
  (nums [:: 2; 3]%N) (nums [:: 5; 7]%N) 4 (rnd 11) (rnd 13) 5 top5 (pp2_new false) c17_ok isT
  small1_2 isT (dmasks_ok' false) erefl erefl isT tops_shared bots_shared pp2_generator isT erefl.
(** the last clause applies: the first entry is wrong *)
Example c77_one_party_wrong : top5`_0 != (tops 5)`_0. Proof. by vm_compute. Qed.
Example c77_one_party_stops_instance := @C77_one_party_stops F17 false 1 pp2 cF17 1 1 dmasks tops bots
  (rnd 11) (rnd 13) 5 (pp2_new false) c17_ok isT small1_2 (fun _ _ => erefl) (fun _ _ => erefl)
  pp2_generator isT.
Lemma top5_unbalanced :
  imbalance (T := T17) pp2 (SpecTamper.entry (T := T17) (replaced tops 5 top5) 0) != 0.
Proof. by rewrite /imbalance !big_ord_recl big_ord0; vm_compute. Qed.
Example c77_caught_instance := @C77_d_pp_caught F17 1 pp2 cF17 1 1 dmasks (replaced tops 5 top5) bots
  (rnd 11) (rnd 13) 3 id id 0 (pp2_new true) c17_ok isT small1_2 size_tops5 size_bots id_hash isT
  (introT orP (or_introl top5_unbalanced)).

(** C77_d_pp with the wrong numerator of party 5, for the interpolated values *)
Lemma guessed_blocks (x : nat -> seq F17) e j : (e < 1)%N -> (j < 2 ^ 1)%N ->
  blocks (T := T17) pp2 (guessed pp2 1 x) e j = interpolated pp2 (T := T17) (SpecTamper.entry (T := T17) x e) j.
Proof. exact: (blocks_guessed pp2_ok). Qed.
Lemma guessed_wt (x : nat -> seq F17) :
  guessed pp2 1 x = mkseq (fun j => foldr +%R 0 [seq wt p j * (x p)`_0 | p <- iota 0 8]) 2.
Proof.
apply: (@eq_from_nth _ 0) => [|j]; first by rewrite !size_mkseq.
rewrite size_mkseq => lj; rewrite !nth_mkseq // divn_small // modn_small //.
rewrite /interpolated !big_ord_recl big_ord0 /=.
by rewrite !weight_wt.
Qed.
Lemma bots_nonzero : all (fun z => z != 0) (guessed pp2 1 bots).
Proof. by rewrite guessed_wt; vm_compute. Qed.
Example c77_d_pp_instance := @C77_d_pp F17 false 1 pp2 cF17 1 1 3%:R dmasks (replaced tops 5 top5) bots
  (guessed pp2 1 (replaced tops 5 top5)) (guessed pp2 1 bots) (rnd 11) (rnd 13) (pp2_new false) c17_ok isT
  small1_2 (dmasks_ok' false) size_tops5 size_bots erefl erefl (@guessed_blocks _) (@guessed_blocks _)
  bots_nonzero (fun H : false => ltac:(done)) (fun H : false => ltac:(done)).

(** party 6 is silent *)
Definition num6 := mkseq (fun j => foldr +%R 0 [seq wt_without 6 p j * (replaced tops 5 top5 p)`_0 | p <- [:: 0; 1; 2; 3; 4; 5; 7]%N]) 2.
Definition den6 := mkseq (fun j => foldr +%R 0 [seq wt_without 6 p j * (bots p)`_0 | p <- [:: 0; 1; 2; 3; 4; 5; 7]%N]) 2.
Example den6_honest : den6 = nums [:: 5; 7]%N. Proof. by apply/eqP; vm_compute. Qed.
Example num6_wrong : num6 != nums [:: 2; 3]%N. Proof. by vm_compute. Qed.
Lemma without6 (x : nat -> seq F17) e j : (e < 1)%N -> (j < 2 ^ 1)%N ->
  blocks (T := T17) pp2 (mkseq (fun j => foldr +%R 0 [seq wt_without 6 p j * (x p)`_0 | p <- [:: 0; 1; 2; 3; 4; 5; 7]%N]) 2) e j =
  interpolated_without pp2 (T := T17) 6 (SpecTamper.entry (T := T17) x e) j.
Proof.
case: e => [|//] _ lj; rewrite /blocks mul0n add0n nth_mkseq //.
rewrite /interpolated_without big_mkcond !big_ord_recl big_ord0 /=.
by rewrite !weight_without_wt !add0r.
Qed.
Example c77_missing_instance := @C77_d_pp_missing F17 1 pp2 cF17 1 1 3%:R dmasks (replaced tops 5 top5) bots
  num6 den6 (rnd 11) (rnd 13) 6 (pp2_new false) c17_ok isT small1_2 (dmasks_ok' false) size_tops5 size_bots
  isT erefl erefl (@without6 _) (@without6 _) ltac:(by rewrite den6_honest; vm_compute).

(** arbitrary bytes: party 5 announces three elements: its numerator, its denominator and one more,
    and the result is as usual; party 5 announces one element, and the king panics *)
Definition sent17 (p : nat) : bytes := enc (vec_codec cF17) (tops p ++ bots p).
Definition sent_long (p : nat) : bytes :=
  if p == 5%N then enc (vec_codec cF17) (tops 5 ++ bots 5 ++ [:: 9%:R]) else sent17 p.
Definition sent_short (p : nat) : bytes :=
  if p == 5%N then enc (vec_codec cF17) (tops 5) else sent17 p.
Definition sent_bad (p : nat) : bytes := if p == 5%N then [:: 1]%N else sent17 p.
Definition pp_bytes_net dbg (w : nat -> bytes) : cfg (seq F17) := init (mkseq (fun p => pthread 3
  (sending w p (d_pp dbg pp2 8 p rev id cF17 (tops p) (bots p) (dmasks p) (rnd 11) (rnd 13)))) 8).
Definition pp_bytes_got dbg w : seq F17 := unpack (T := T17) pp2
  (ExamplesProto.entry 0 (results_of (run (round 8 ++ round 8 ++ joins 8) (pp_bytes_net dbg w)))).
Definition pp_bytes_fate dbg w := omap (fun c => nth PHalt (procs c) 0)
  (run ([seq party p | p <- iota 1 7] ++ [seq king (KArrive p) | p <- iota 1 7]
        ++ [:: king KGathered; (0%N, LAbort 0)]) (pp_bytes_net dbg w)).
Example pp_bytes_long : pp_bytes_got true sent_long = nums [:: 14; 6]%N.
Proof. by apply/eqP; vm_compute. Qed.
Example pp_bytes_short : pp_bytes_fate false sent_short = Some (PRet Panic).
Proof. by vm_compute. Qed.
Example pp_bytes_bad : pp_bytes_fate false sent_bad = Some (PRet (Err Generic)).
Proof. by vm_compute. Qed.
Definition long_vecs (p : nat) : seq F17 := if p == 5%N then tops 5 ++ bots 5 ++ [:: 9%:R] else tops p ++ bots p.
Definition short_vecs (p : nat) : seq F17 := if p == 5%N then tops 5 else tops p ++ bots p.
Example sent_bad_decode : decode vF17 (sent_bad 5) = Err Generic. Proof. by vm_compute. Qed.
Example sent_long_decode : all (fun p => if decode vF17 (sent_long p) is Ok v then v == long_vecs p else false) (iota 1 7).
Proof. by vm_compute. Qed.
Example sent_short_decode : all (fun p => if decode vF17 (sent_short p) is Ok v then v == short_vecs p else false) (iota 1 7).
Proof. by vm_compute. Qed.
Example c77_garbled_instance dbg := @C77_bytes_garbled F17 dbg 1 pp2 cF17 1 1 dmasks tops bots (rnd 11) (rnd 13)
  sent_bad 3 id id 5 (pp2_new dbg) c17_ok isT small1_2 erefl erefl isT sent_bad_decode.
Example c77_short_instance dbg := @C77_bytes_short F17 dbg 1 pp2 cF17 1 1 dmasks tops bots (rnd 11) (rnd 13)
  sent_short short_vecs 3 id id 5 (pp2_new dbg) c17_ok isT small1_2 erefl erefl (decode_all sent_short_decode) isT isT.
Lemma long_vecs_size p : (0 < p < p_n pp2)%N -> (2 * 1 <= size (long_vecs p))%N.
Proof. by move=> _; rewrite /long_vecs; case: ifP. Qed.
Definition cut_tops (p : nat) := if p == 0%N then tops 0 else take 1 (long_vecs p).
Definition cut_bots (p : nat) := if p == 0%N then bots 0 else take 1 (drop 1 (long_vecs p)).
Lemma cut_nonzero : all (fun z => z != 0) (guessed pp2 1 cut_bots).
Proof. by rewrite guessed_wt; vm_compute. Qed.
Example c77_bytes_instance := @C77_bytes F17 false 1 pp2 cF17 1 1 3%:R dmasks tops bots
  (guessed pp2 1 cut_tops) (guessed pp2 1 cut_bots) (rnd 11) (rnd 13) sent_long long_vecs (pp2_new false) c17_ok isT small1_2 (dmasks_ok' false) erefl erefl
  (decode_all sent_long_decode) long_vecs_size erefl erefl (@guessed_blocks _) (@guessed_blocks _) cut_nonzero
  (fun H : false => ltac:(done)) (fun H : false => ltac:(done)).
