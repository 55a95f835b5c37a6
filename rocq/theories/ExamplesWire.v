(** Instances: the hypotheses of the theorems on frames, packets and set-up can be met, and the
    conclusions say what they should. *)
From mathcomp Require Import all_ssreflect.
From mathcomp Require Import zify.
From Verif Require Import Base ModelNet ModelWire ModelSetup SpecNet SpecWire.
From Verif Require Import WireProofs WireThm SetupThm PropertiesWire PropertiesSetup.
Set Implicit Arguments.
Unset Strict Implicit.
Unset Printing Implicit Defensive.

(** ** frames *)
Definition two_payloads : seq bytes := [:: [:: 7; 8; 9]; [:: 5]].

Example layout_ex : layout two_payloads = [:: 0; 0; 0; 3; 7; 8; 9; 0; 0; 0; 1; 5].
Proof. by vm_compute. Qed.

(** one byte at a time, all at once, and a cut inside the second length *)
Example stream_bytes : feeds 100 reader_new [seq [:: x] | x <- layout two_payloads] = (reader_new, two_payloads).
Proof. by vm_compute. Qed.
Example stream_once : feeds 100 reader_new [:: layout two_payloads] = (reader_new, two_payloads).
Proof. by vm_compute. Qed.
Example stream_cut : feeds 100 reader_new [:: take 9 (layout two_payloads); drop 9 (layout two_payloads)]
  = (reader_new, two_payloads).
Proof. by vm_compute. Qed.
Example stream_instance : feeds frame_limit reader_new [:: take 9 (layout two_payloads); drop 9 (layout two_payloads)]
  = (reader_new, two_payloads).
Proof.
apply: C46_stream; [exact: limit_ok| |by vm_compute].
have lim x : x < 8 -> x <= frame_limit.
  by move=> lt_x; rewrite /frame_limit (leq_trans (ltnW lt_x)) // -[8]/(2 ^ 3) leq_exp2l.
by apply/allP => b; rewrite !inE => /orP[] /eqP ->; apply: lim.
Qed.

Example prefix_ex : [seq complete k two_payloads | k <- [:: 0; 6; 7; 11; 12]] =
  [:: [::]; [::]; [:: [:: 7; 8; 9]]; [:: [:: 7; 8; 9]]; two_payloads].
Proof. by vm_compute. Qed.

(** too large for the limit of 2: refused by the writer, and the reader gives up at the length *)
Example too_large : frames 2 two_payloads = Err Generic.
Proof. by vm_compute. Qed.
Example bad_length : feeds 2 reader_new [:: [:: 0; 0; 0; 1; 5; 0; 0; 0; 3; 7; 8; 9; 0; 0; 0; 1; 5]]
  = (Reader [:: 0; 0; 0; 3; 7; 8; 9; 0; 0; 0; 1; 5] None true, [:: [:: 5]]).
Proof. by vm_compute. Qed.

Example packets_ex : [seq dec_packet (enc_packet p) | p <- [:: Syn; SynAck; Packet [:: 1; 2]]] =
  [:: Ok Syn; Ok SynAck; Ok (Packet [:: 1; 2])].
Proof. by vm_compute. Qed.
Example packet_bytes : enc_packet (Packet [:: 1; 2]) = [:: 2; 0; 0; 0; 2; 0; 0; 0; 0; 0; 0; 0; 1; 2].
Proof. by vm_compute. Qed.
Example packet_truncated : dec_packet [:: 2; 0; 0; 0; 2; 0; 0; 0; 0; 0; 0; 0; 1] = Err Generic.
Proof. by vm_compute. Qed.

(** ** set-up of the production network *)
Definition three_ids (c : nat) : nat := nth 0 [:: 0; 7; 3; 9] c.

(** a handshake message where data is expected is an error, extra bytes are ignored (c46) *)
Example data_ex : [seq recv_from b | b <- [:: enc_packet Syn; enc_packet SynAck; enc_packet (Packet [:: 1; 2]);
    enc_packet (Packet [:: 1; 2]) ++ [:: 9]; [:: 3; 0; 0; 0]; [::]]] =
  [:: Err Generic; Err Generic; Ok [:: 1; 2]; Ok [:: 1; 2]; Err Generic; Err Generic].
Proof. by vm_compute. Qed.
Example decoded_ex := @C46_decoded (enc_packet (Packet [:: 1; 2]) ++ [:: 9]) isT.

Lemma hash_id : hash_ok id. Proof. by move=> s. Qed.

Lemma small_id x : x < 10 -> x < 256 ^ 4.
Proof. by move=> lt_x; rewrite (leq_trans lt_x) // (@leq_trans (256 ^ 1)) // leq_exp2l. Qed.

Example setup_instance : exists2 table, perm_eq table [:: (7, 1); (3, 2); (9, 3)] &
  every_schedule (mkseq (fun p => pthread 0 (prod_setup 3 three_ids id p)) 4) predT
    (fun p => if p == 0 then table else [:: (0, 0)]).
Proof.
apply: (@C47_setup 3 three_ids id hash_id).
  by move=> [|[|[|[|c]]]] // _; apply: small_id.
by move=> [|[|[|[|c]]]] // [|[|[|[|c']]]].
Qed.

(** a complete run, what the king and a peer have heard *)
Definition good_run : seq action :=
  [:: (1, LThread 0 KOp); (2, LThread 0 KOp); (0, LThread 0 KOp); (0, LThread 0 KOp);
      (0, LThread 0 KOp); (0, LThread 0 KOp); (1, LThread 0 KOp); (2, LThread 0 KOp);
      (2, LThread 0 KOp); (1, LThread 0 KOp); (0, LThread 0 KOp); (0, LThread 0 KOp);
      (1, LJoin); (2, LJoin); (0, LJoin)].
Definition good_net := mkseq (fun p => pthread 0 (prod_setup 2 three_ids id p)) 3.

Example good_run_ends : omap (fun d => [seq returned x | x <- procs d]) (run good_run (init good_net)) =
  Some [:: Some (Ok [:: (3, 2); (7, 1)]); Some (Ok [:: (0, 0)]); Some (Ok [:: (0, 0)])].
Proof. by vm_compute. Qed.
Example good_run_heard : [seq got good_run (init good_net) 0 f 0 | f <- [:: 1; 2]] =
  [:: [:: [:: 0; 0; 0; 7]; [:: 1; 0; 0; 0]]; [:: [:: 0; 0; 0; 3]; [:: 1; 0; 0; 0]]].
Proof. by vm_compute. Qed.
Example good_run_peer : got good_run (init good_net) 0 0 1 = [:: [:: 0; 0; 0; 0]].
Proof. by vm_compute. Qed.

Example last_declared_ex : [seq c <- iota 1 3 | last_declared 3 (fun _ => 5) c] = [:: 3].
Proof. by vm_compute. Qed.
Example last_wins_instance : let ps := mkseq (fun p => pthread 0 (prod_setup 3 (fun _ => 5) id p)) 4 in
  exists2 table, perm_eq table [:: (5, 3)] &
    every_schedule ps (fun p => (p == 0) || last_declared 3 (fun _ => 5) p)
      (fun p => if p == 0 then table else [:: (0, 0)]) /\
    forall s c p r, all clean s -> run s (init ps) = Some c -> 0 < p <= 3 ->
      ~~ last_declared 3 (fun _ => 5) p -> nth PHalt (procs c) p <> PRet r.
Proof. by apply: (@C48_last_wins 3 (fun _ => 5) id hash_id) => c _; apply: small_id. Qed.

Example wrong_count : peer_setup 2 7 = CRet (Err BadInput).
Proof. exact: C47_one_connection. Qed.

(** ** the local network *)
Definition mesh_run : seq mesh_step :=
  [:: Connect 0; Connect 1; Accept 2; Connect 0; Accept 1; Accept 2].

(** party 2 accepts party 1 before party 0 *)
Example mesh_ex : omap table (run_mesh 3 mesh_run (mesh_new 3)) =
  Some [:: [:: None; Some 0; Some 0]; [:: Some 0; None; Some 1]; [:: Some 0; Some 1; None]].
Proof. by vm_compute. Qed.
Example mesh_partial : exists m, run_mesh 3 (take 3 mesh_run) (mesh_new 3) = Some m /\
  exists s' m', run_mesh 3 s' m = Some m' /\ full_mesh 3 (table m').
Proof.
case E: (run_mesh 3 (take 3 mesh_run) (mesh_new 3)) => [m|]; last by move: E; vm_compute.
by exists m; split=> //; have [s' [m' [R _ _ F _]]] := C49_mesh E; exists s', m'.
Qed.
Example mesh_impossible : run_mesh 3 [:: Connect 2] (mesh_new 3) = None.
Proof. by vm_compute. Qed.
Example mesh_not_init : omap (fun m => [seq is_init r | r <- table m]) (run_mesh 3 mesh_run (mesh_new 3)) =
  Some [:: false; false; false].
Proof. by vm_compute. Qed.
Example mesh_streams : omap (fun m => [seq streams_ok p (nth [::] (table m) p) | p <- iota 0 3])
    (run_mesh 3 mesh_run (mesh_new 3)) = Some [:: true; true; true].
Proof. by vm_compute. Qed.
Example prod_init : is_init (prod_table [:: (7, 1); (3, 2)]).
Proof. exact: C50_production. Qed.

Example genesis_instance : every_schedule (mkseq (fun p => pthread 0 (genesis 3 p id)) 3) predT id.
Proof. by apply: C51_genesis hash_id => //; rewrite ltnW //; apply: small_id. Qed.
Example late_instance : king_panics_last
  (mkseq (fun p => pthread 0 (if p == 2 then CHalt else genesis 3 p id)) 3).
Proof. by apply: (@C51_late_panics 3 id (pred1 2)) hash_id _ _ => //; rewrite ltnW //; apply: small_id. Qed.

Example lossy_instance : simulate_lossy_network_round [:: 2; 0; 1] (fun i => Ok (i * i)) =
  Ok (Received [:: 0; 1] [:: 0; 1]).
Proof. by vm_compute. Qed.
Example lossy_panic : simulate_lossy_network_round [:: 2; 0; 1] (fun i => if i == 1 then Panic else Ok i) = Panic.
Proof. by vm_compute. Qed.
