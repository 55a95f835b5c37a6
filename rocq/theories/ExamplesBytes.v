(** Instances of C74 over the field of 17 elements with n = 8, l = t = 2, and runs in which parties
    send arbitrary bytes. *)
From mathcomp Require Import all_ssreflect all_algebra.
From mathcomp Require Import zify.
From Verif Require Import Base ModelField ModelPss ModelPack ModelFft ModelNet ModelProto.
From Verif Require Import Spec SpecNet SpecProto SpecTamper SpecBytes ExampleField PssProofs ProtoProofs DegProofs.
From Verif Require Import ExamplesNet ExamplesProto ExamplesKingView ExamplesTamper PropertiesBytes.
From Verif Require Import ModelNet.
Set Implicit Arguments.
Unset Strict Implicit.
Unset Printing Implicit Defensive.
Import GRing.Theory.
Local Open Scope ring_scope.

(** what the clients of a degree reduction should send *)
Definition vF17 := vec_codec cF17.
Definition due (p : nat) : seq F17 := zipmap +%R (honest p) (dr_in (dmasks p)).
Definition due_bytes (p : nat) : bytes := enc vF17 (due p).
Definition bytes_net dbg (w : nat -> bytes) : cfg (seq F17) := init (mkseq (fun p => pthread 3
  (sending w p (deg_red (T := T17) dbg pp2 8 p rev cF17 (honest p) (dmasks p) (rnd 11)))) 8).
Definition bytes_end dbg w := ExamplesProto.entry 0 (results_of (run (round 8 ++ joins 8) (bytes_net dbg w))).
Definition bytes_got dbg w : seq F17 := unpack (T := T17) pp2 (bytes_end dbg w).
Definition king_stops dbg w := omap (fun c => nth PHalt (procs c) 0)
  (run ([seq party p | p <- iota 1 7] ++ [seq king (KArrive p) | p <- iota 1 7]
        ++ [:: king KGathered; (0%N, LAbort 0)]) (bytes_net dbg w)).

Example due_bytes_result : bytes_got true due_bytes = mkseq (sec_poly prod1 0) 2.
Proof. by apply/eqP; vm_compute. Qed.

(** party 5 sends three bytes; the length of a vector has eight *)
Definition garbled := replaced due_bytes 5 [:: 1; 2; 3]%N.
Example garbled_decode : decode vF17 (garbled 5) = Err Generic. Proof. by vm_compute. Qed.
Example garbled_release : king_stops false garbled = Some (PRet (Err Generic)). Proof. by vm_compute. Qed.
Example garbled_debug : king_stops true garbled = Some (PRet (Err Generic)). Proof. by vm_compute. Qed.
Example garbled_stuck : run (round 8) (bytes_net false garbled) = None. Proof. by vm_compute. Qed.
(** it announces more elements than there are *)
Definition announced := replaced due_bytes 5 (le_bytes 8 200 ++ [:: 1; 2; 3]%N).
Example announced_release : king_stops false announced = Some (PRet (Err Generic)). Proof. by vm_compute. Qed.

(** party 5 sends an empty vector: the king panics, also in release builds *)
Definition empty := replaced due_bytes 5 (enc vF17 [::]).
Example empty_release : king_stops false empty = Some (PRet Panic). Proof. by vm_compute. Qed.
Example empty_debug : king_stops true empty = Some (PRet Panic). Proof. by vm_compute. Qed.

(** a longer vector, and bytes behind the vector, change nothing *)
Definition longer := replaced due_bytes 5 (enc vF17 (due 5 ++ nums [:: 4; 9]%N)).
Example longer_result : bytes_got true longer = bytes_got true due_bytes. Proof. by apply/eqP; vm_compute. Qed.
Definition trailing := replaced due_bytes 5 (due_bytes 5 ++ [:: 1; 2; 3]%N).
Example trailing_result : bytes_got true trailing = bytes_got true due_bytes. Proof. by apply/eqP; vm_compute. Qed.

(** a vector that is not the one due does what the implied share does *)
Definition shifted := replaced due_bytes 5 (enc vF17 [:: (due 5)`_0 + 3%:R]).
Example shifted_release : bytes_got false shifted = got false one_wrong. Proof. by apply/eqP; vm_compute. Qed.
Example shifted_wrong : bytes_got false shifted != bytes_got false due_bytes. Proof. by vm_compute. Qed.
Example shifted_debug : king_stops true shifted = Some (PRet Panic). Proof. by vm_compute. Qed.

(** a king that answers party [p] the vector [4; p; 7] and keeps nothing *)
Definition orders (p : nat) : bytes := enc vF17 (nums [:: 4; p; 7]%N).
Definition dictated_net : cfg (seq F17) := init (mkseq (fun p => pthread 3
  (dictating 8 orders [::] p (deg_red (T := T17) true pp2 8 p rev cF17 (honest p) (dmasks p) (rnd 11)))) 8).
Example dictated_result : results_of (run (round 8 ++ joins 8) dictated_net) =
  Some [::] :: [seq Some [:: 4%:R + (dr_out (dmasks p))`_0] | p <- iota 1 7].
Proof. by vm_compute. Qed.

(** instances of the theorems *)
Lemma honest_size p : (p < p_n pp2)%N -> size (honest p) = 1%N. Proof. by []. Qed.
Example c74_garbled_instance dbg := @C74_deg_red_garbled F17 T17 dbg 1 pp2 3%:R cF17 1 dmasks honest (rnd 11)
  garbled 3 id 5 (pp2_new dbg) isT (dmasks_ok' dbg) honest_size isT garbled_decode.
Definition empty_vecs p : seq F17 := if p == 5%N then [::] else due p.
Example empty_decode : all (fun p => if decode vF17 (empty p) is Ok v then v == empty_vecs p else false) (iota 1 7).
Proof. by vm_compute. Qed.
Lemma decode_all w (y : nat -> seq F17) :
  all (fun p => if decode vF17 (w p) is Ok v then v == y p else false) (iota 1 7) ->
  forall p, (0 < p < p_n pp2)%N -> decode vF17 (w p) = Ok (y p).
Proof.
move=> /allP H p pI; have pi : p \in iota 1 7 by rewrite mem_iota.
by have := H p pi; case: (decode _ _) => // v /eqP ->.
Qed.
Example c74_short_instance dbg := @C74_deg_red_short F17 T17 dbg 1 pp2 3%:R cF17 1 1 dmasks honest (rnd 11)
  empty empty_vecs 3 id 5 (pp2_new dbg) c17_ok small_m (dmasks_ok' dbg) honest_size (decode_all empty_decode) isT isT.
Definition shifted_vecs p : seq F17 := if p == 5%N then [:: (due 5)`_0 + 3%:R] else due p.
Example shifted_decode : all (fun p => if decode vF17 (shifted p) is Ok v then v == shifted_vecs p else false) (iota 1 7).
Proof. by vm_compute. Qed.
Lemma all_clients (P : pred nat) : all P (iota 1 7) -> forall p, (0 < p < p_n pp2)%N -> P p.
Proof. by move=> /allP H p pI; apply: H; rewrite mem_iota. Qed.
Example shifted_sizes : all (fun p => (1 <= size (shifted_vecs p))%N) (iota 1 7). Proof. by vm_compute. Qed.
Example c74_release_instance := @C74_deg_red F17 T17 false 1 pp2 3%:R cF17 1 1 dmasks honest (rnd 11)
  shifted shifted_vecs (pp2_new false) c17_ok small_m (dmasks_ok' false) honest_size (decode_all shifted_decode)
  (all_clients shifted_sizes) (fun H : false => False_ind _ (notF H)).
Definition order_vecs p : seq F17 := nums [:: 4; p; 7]%N.
Example orders_decode : all (fun p => if decode vF17 (orders p) is Ok v then v == order_vecs p else false) (iota 1 7).
Proof. by vm_compute. Qed.
Example c74_king_instance dbg := @C74_king_deg_red F17 T17 dbg 1 pp2 3%:R cF17 1 dmasks honest (rnd 11)
  orders order_vecs ([::] : seq F17) (pp2_new dbg) isT (dmasks_ok' dbg) honest_size (@decode_all orders order_vecs orders_decode).

(** the transform: party 5 sends two zeros *)
Definition x4_sent p : seq F17 := if p == 5%N then nseq 2 0
  else zipmap +%R (get_ok [::] (fft1 pp2 (x4 p) (d_gen dom4))) (fm_in (masks4 p)).
Definition x4_bytes p : bytes := enc vF17 (x4_sent p).
Example x4_decode : all (fun p => if decode vF17 (x4_bytes p) is Ok v then v == x4_sent p else false) (iota 1 7).
Proof. by vm_compute. Qed.
Example x4_sizes : all (fun p => (2 ^ 1 <= size (x4_sent p))%N) (iota 1 7). Proof. by vm_compute. Qed.
Example c74_inputs_instance := @C74_d_fft_inputs F17 true 1 1 pp2 dom4 false masks4 x4 x4_sent (pp2_new true) dom4_new
  small1 masks4_ok (proj1 x4_shared) (all_clients x4_sizes).
Example c74_fft_short_instance := @C74_d_fft_short F17 true 1 1 pp2 dom4 cF17 1 false masks4 x4 (rnd 11)
  empty empty_vecs 3 id 5 (pp2_new true) dom4_new c17_ok small1 masks4_ok (proj1 x4_shared) (decode_all empty_decode) isT isT.
Definition fft_bytes_net : cfg (seq F17) := init (mkseq (fun p => pthread 3
  (sending x4_bytes p (d_fft true pp2 8 p rev cF17 (x4 p) (masks4 p) false dom4 (rnd 11)))) 8).
Example fft_bytes_debug : omap (fun c => nth PHalt (procs c) 0)
  (run ([seq party p | p <- iota 1 7] ++ [seq king (KArrive p) | p <- iota 1 7]
        ++ [:: king KGathered; (0%N, LAbort 0)]) fft_bytes_net) = Some (PRet Panic).
Proof. by vm_compute. Qed.
