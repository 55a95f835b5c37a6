(** What a party sees: programs that also return every message received. *)
From mathcomp Require Import all_ssreflect.
From Verif Require Import Base ModelNet.
Set Implicit Arguments.
Unset Strict Implicit.
Unset Printing Implicit Defensive.

(** the thread [t], which also returns the messages it has received with [recv_from], after the
    messages [log] *)
Fixpoint clog B (t : cproc B) (log : seq bytes) : cproc (B * seq bytes) :=
  match t with
  | CRet r => CRet (rmap (fun b => (b, log)) r)
  | CSend to b k => CSend to b (clog k log)
  | CRecv from k => CRecv from (fun b => clog (k b) (rcons log b))
  | CGather st k => CGather st (fun st => clog (k st) log)
  | CHalt => CHalt
  end.

(** the party [x], which also returns the messages received by its threads, phase by phase *)
Fixpoint plog A (x : pproc A) (log : seq (seq bytes)) : pproc (A * seq (seq bytes)) :=
  match x with
  | PRet r => PRet (rmap (fun a => (a, log)) r)
  | PJoin B ts k => PJoin [seq (t.1, clog t.2 [::]) | t <- ts]
                          (fun rs => plog (k [seq r.1 | r <- rs]) (log ++ [seq r.2 | r <- rs]))
  | PHalt => PHalt
  end.
