(** Protocols over the production network: executions with eight nodes that have declared their ids
    in the reverse order, and instances of the theorems. *)
From mathcomp Require Import all_ssreflect all_algebra.
From mathcomp Require Import zify.
From Verif Require Import Base ModelField ModelPss ModelPack ModelFft ModelNet ModelProto ModelSetup ModelProdNet SpecWire SetupThm.
From Verif Require Import Spec SpecNet SpecProto SpecProdNet ExampleField PropertiesProto ExamplesNet ExamplesProto ExamplesWire.
From Verif Require Import PropertiesSetup PropertiesProdNet.
Set Implicit Arguments.
Unset Strict Implicit.
Unset Printing Implicit Defensive.
Import GRing.Theory.
Local Open Scope ring_scope.

(** node [c] has declared [8 - c] *)
Definition back (c : nat) : nat := (8 - c)%N.
Definition back_table : seq (nat * nat) := [seq (back c, c) | c <- iota 1 7].
Definition fft_prog (ord : hash_order) (p : nat) : cproc (seq F17) :=
  d_fft true pp2 8 p ord cF17 (x4 p) (masks4 p) false dom4 (rnd 11).

Example addr_ex : [seq addr 8 back_table id | id <- iota 0 9] = [:: 8; 7; 6; 5; 4; 3; 2; 1; 8]%N.
Proof. by []. Qed.
Example to_ids_ex : to_ids 3 [:: (2, 1); (1, 2)]%N [:: Some [:: 7]; None; Some [:: 9]]%N =
  [:: Some [:: 7]; Some [:: 9]; None]%N.
Proof. by []. Qed.

(** the nodes get the results of their ids *)
Definition back_end := results_of (run (round 8 ++ joins 8)
  (init (prod_net 8 back_table back (fun p => pthread 3 (fft_prog rev p))))).
Example back_results : [seq nth None back_end c | c <- iota 1 7] =
  [seq nth None fft_end (back c) | c <- iota 1 7].
Proof. by apply/eqP; vm_compute. Qed.
Example back_king : nth None back_end 0 = nth None fft_end 0 /\ isSome (nth None back_end 0).
Proof. by split; [apply/eqP; vm_compute|vm_compute]. Qed.
Example back_differs : nth None back_end 1 != nth None fft_end 1.
Proof. by vm_compute. Qed.

Lemma back_perm : perm_eq [seq back c | c <- iota 1 7] (iota 1 7). Proof. by []. Qed.

Lemma fft_star ords sid : star_shaped 8 (fun p => pthread sid (fft_prog (ords 0%N) p)).
Proof. by have [_ _ H _ _] := C80_star_protocols true pp2 8 sid; apply: H. Qed.

(** set-up and transform, with any party crashed or none *)
Lemma rev_ok : hash_ok rev. Proof. by move=> s; rewrite perm_rev. Qed.
Example back_setup : exists out, forall sid d f ms, d != 0%N ->
  let P p := if p == d then pcrash f ms (pthread sid (fft_prog rev p)) else pthread sid (fft_prog rev p) in
  every_schedule (mkseq (prod_main 7 back rev P) 8) (fun c => (if c == 0%N then 0%N else back c) != d)
                 (fun c => out (if c == 0%N then 0%N else back c)).
Proof.
have [out [_ Y]] := c22_instance; exists out => sid d f ms d0 P.
exact: (@C80_yields (seq F17) 7 back rev false (fun ords p => fft_prog (ords 0%N) p) out rev_ok
  (@small_id 7 isT) back_perm fft_star Y (fun _ => rev) sid d f ms (fun _ => rev_ok) d0 (fun E => False_ind _ (notF E))).
Qed.

(** a whole execution on three nodes: the set-up, then everybody sends its id to the king *)
Definition hello (p : nat) : pproc (seq (option bytes)) :=
  pthread 5 (if p == 0%N then CGather (nseq 3 None) (fun st => CRet (Ok st))
             else CSend 0 [:: p] (CRet (Ok [::]))).
Definition hello_run : seq action := good_run ++
  [:: (2%N, LThread 0 KOp); (1%N, LThread 0 KOp); (0%N, LThread 0 (KArrive 1)); (0%N, LThread 0 (KArrive 2));
      (0%N, LThread 0 KGathered); (0%N, LJoin); (1%N, LJoin); (2%N, LJoin)].
Example hello_results : results_of (run hello_run (init (mkseq (prod_main 2 (fun c => 3 - c)%N id hello) 3))) =
  [:: Some [:: None; Some [:: 1]; Some [:: 2]]; Some [::]; Some [::]]%N.
Proof. by vm_compute. Qed.
Example hello_star : star_shaped 3 hello.
Proof. by split=> [|[|[|[|id]]]] //=; split=> // -[|j]. Qed.

(** ** an id is missing: two nodes have declared 4, nobody 5; the nodes with ids below 5 get their
    results, the king fails and the others wait in vain *)
Definition short (c : nat) : nat := if c == 3%N then 4%N else back c.
Definition short_table : seq (nat * nat) := [seq (short c, c) | c <- [:: 1; 2; 4; 5; 6; 7]%N].
Definition short_net := prod_net 8 short_table short (fun p => pthread 3 (fft_prog rev p)).
Definition short_run : seq action :=
  [seq party p | p <- iota 1 7] ++ [seq king (KArrive p) | p <- rev (iota 1 7)]
  ++ [:: king KGathered] ++ nseq 5 (king KOp) ++ [seq party p | p <- iota 4 4] ++ [:: (0%N, LAbort 0)].
Example short_king : omap (fun d => returned (nth PHalt (procs d) 0)) (run short_run (init short_net)) =
  Some (Some (Err Generic)).
Proof. by vm_compute. Qed.
Example short_answers :
  results_of (run (short_run ++ [seq (c, LJoin) | c <- iota 4 4]) (init short_net)) =
  nseq 4 None ++ [seq nth None fft_end (back c) | c <- iota 4 4].
Proof. by apply/eqP; vm_compute. Qed.
Example short_missing : (forall node, (5, node)%N \notin short_table).
Proof. by move=> node; apply/negP. Qed.
Example short_instance s d v : run s (init short_net) = Some d -> nth PHalt (procs d) 0 <> PRet (Ok v).
Proof.
have [_ _ H _ _] := C80_missing true pp2 (n := 8) (i := 5) 3 isT short_missing.
by apply: H => //; rewrite size_mkseq.
Qed.

(** the whole execution with these ids, set-up included *)
Example short_main s d v : all clean s ->
  run s (init (mkseq (prod_main 7 short rev (fun p => pthread 3 (fft_prog rev p))) 8)) = Some d ->
  nth PHalt (procs d) 0 <> PRet (Ok v).
Proof.
have small c : (0 < c <= 7)%N -> (short c < 256 ^ 4)%N.
  by move: c => [|[|[|[|[|[|[|[|c]]]]]]]] // _; apply: small_id.
have miss c : (0 < c <= 7)%N -> short c != 5%N by move: c => [|[|[|[|[|[|[|[|c]]]]]]]].
have [_ _ [H _] _ _] := C80_collision true pp2 (i := 5) 3 rev_ok small isT miss.
by move=> cs; apply: H cs.
Qed.

(** the set-up alone gives the king a table *)
Example short_setup : exists2 table, perm_eq table short_table &
  every_schedule (mkseq (fun p => pthread 0 (prod_setup 7 short rev p)) 8)
    (fun p => (p == 0%N) || last_declared 7 short p) (fun p => if p == 0%N then table else [:: (0, 0)]%N).
Proof.
have small c : (0 < c <= 7)%N -> (short c < 256 ^ 4)%N.
  by move: c => [|[|[|[|[|[|[|[|c]]]]]]]] // _; apply: small_id.
by have [tb Ht [H _]] := C48_last_wins rev_ok small; exists tb.
Qed.
