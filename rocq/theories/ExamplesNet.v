(** The hypotheses of the network theorems can be met, and what they say in small cases. *)
From mathcomp Require Import all_ssreflect all_algebra.
From Verif Require Import Base ModelNet SpecNet PropertiesNet.
Set Implicit Arguments.
Unset Strict Implicit.
Unset Printing Implicit Defensive.

(** a serialization of ['F_17] with one byte per element *)
Definition c17 : codec 'F_17 :=
  Codec (fun x => [:: nat_of_ord x]) (fun b => if b is v :: r then Some (inZp v, r) else None).

Lemma c17_ok : codec_ok c17 1.
Proof. by split=> // [x rest|[]//] /=; rewrite valZpK. Qed.

Lemma c17_decode x : decode c17 (enc c17 x) = Ok x.
Proof. by case: c17_ok => _ H _; rewrite /decode -[enc c17 x]cats0 H. Qed.

Lemma id_hash : hash_ok id.
Proof. by []. Qed.

Definition king k : action := (0, LThread 0 k).
Definition party i : action := (i, LThread 0 KOp).
Definition collect n b : cfg (option csokr) :=
  init (mkseq (fun p => pthread 5 (client_send_or_king_receive n p rev (b p))) n).

(** a complete execution of a collection by three parties in which the messages arrive in the
    order 2, 1 (c41, c44) *)
Example collect_run :
  omap (fun d => nth PHalt (procs d) 0)
    (run [:: party 2; party 1; king (KArrive 2); (2, LJoin); king (KArrive 1); king KGathered;
             (0, LJoin); (1, LJoin)] (collect 3 (fun p => [:: p; 7])))
  = Some (PRet (Ok (Some (Full [:: [:: 0; 7]; [:: 1; 7]; [:: 2; 7]])))).
Proof. by vm_compute. Qed.

(** a premature timeout after the message of party 2 (c42): the parties are listed in the order of
    the hash map *)
Example collect_timeout :
  omap (fun d => nth PHalt (procs d) 0)
    (run [:: party 2; king (KArrive 2); king KTimeout; (0, LJoin)] (collect 3 (fun p => [:: p; 7])))
  = Some (PRet (Ok (Some (Partial [:: (2, [:: 2; 7]); (0, [:: 0; 7])])))).
Proof. by vm_compute. Qed.

(** the same with decoding: enough values for threshold 2, not for threshold 3 *)
Definition collect17 thr : cfg (option (received 'F_17)) :=
  init (mkseq (fun p => pthread 5 (csokr_ser c17 3 p rev (inZp (p + 4)) thr)) 3).
Definition timeout_run := [:: party 2; king (KArrive 2); king KTimeout].
Example collect_threshold :
  omap (fun d => nth PHalt (procs d) 0) (run (timeout_run ++ [:: (0, LJoin)]) (collect17 2))
  = Some (PRet (Ok (Some (Received [:: inZp 6; inZp 4] [:: 2; 0])))).
Proof. by vm_compute. Qed.
Example collect_below_threshold :
  omap (fun d => nth PHalt (procs d) 0) (run (timeout_run ++ [:: (0, LAbort 0)]) (collect17 3))
  = Some (PRet (Err (Protocol 0))).
Proof. by vm_compute. Qed.

(** an undecodable (empty) message: dropped after a timeout, fatal otherwise *)
Definition collect_bad : cfg (option (received 'F_17)) :=
  init [:: pthread 5 (csokr_ser c17 3 0 id (inZp 4) 2);
           pthread 5 (CSend 0 [::] (CRet (Ok None))); pthread 5 (CSend 0 [:: 6] (CRet (Ok None)))].
Example undecodable_full :
  omap (fun d => nth PHalt (procs d) 0)
    (run [:: party 1; party 2; king (KArrive 1); king (KArrive 2); king KGathered; (0, LAbort 0)]
         collect_bad)
  = Some (PRet (Err Generic)).
Proof. by vm_compute. Qed.
Example undecodable_missing :
  omap (fun d => nth PHalt (procs d) 0)
    (run [:: party 1; party 2; king (KArrive 2); king KTimeout; (0, LJoin)] collect_bad)
  = Some (PRet (Ok (Some (Received [:: inZp 4; inZp 6] [:: 0; 2])))).
Proof. by vm_compute. Qed.

(** distribution: lengths differ at party 2 *)
Example distribute_mismatch :
  client_receive_or_king_send 3 0 (Some [:: [:: 1]; [:: 2]; [:: 3; 4]])
  = CSend 1 [:: 2] (CRet (Err (Protocol 2))).
Proof. by vm_compute. Qed.
Example distribute_too_few :
  client_receive_or_king_send 3 0 (Some [:: [:: 1]; [:: 2]]) = CSend 1 [:: 2] (CRet Panic).
Proof. by vm_compute. Qed.

(** the theorems at concrete values *)
Example collects_3 := C41_king_collects rev 5 (fun p => [:: p; 7]) (n := 3) isT.
Example collects_values_3 : _ :=
  @C41_king_collects_values _ c17 3 id 0 (fun p => inZp p) 2 isT id_hash isT
    (fun i _ => c17_decode _).
Example round_trip : dec (vec_codec c17) (enc (vec_codec c17) [:: inZp 3; inZp 16]) = Some ([:: inZp 3; inZp 16], [::]).
Proof. by vm_compute. Qed.
Example vector_bytes : enc (vec_codec c17) [:: inZp 3; inZp 16] = [:: 2; 0; 0; 0; 0; 0; 0; 0; 3; 16].
Proof. by vm_compute. Qed.

(** party 2 does nothing after its message, and the others do not notice (c44) *)
Definition stop_run : seq action :=
  [:: party 2; king (KArrive 2); party 1; king (KArrive 1); king KGathered; (0, LJoin); (1, LJoin)].
Definition collect_procs p := pthread 5 (client_send_or_king_receive 3 p rev [:: p; 7]).
Example stop_ends : isSome (run stop_run (init (mkseq collect_procs 3))). Proof. by vm_compute. Qed.
Example stop_instance e (R : run stop_run (init (mkseq collect_procs 3)) = Some e) :=
  C44_every_stop_is_a_crash (n := 3) (d := 2) isT R.
(** the same as a crash after one operation *)
Example crash_ends : omap (fun c => nth PHalt (procs c) 0)
    (run stop_run (init (crashing 3 2 0 (fun=> 1) collect_procs)))
  = omap (fun c => nth PHalt (procs c) 0) (run stop_run (init (mkseq collect_procs 3))).
Proof. by vm_compute. Qed.
