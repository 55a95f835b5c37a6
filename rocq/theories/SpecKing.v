(** What a party sees, with the messages the king collects. *)
From mathcomp Require Import all_ssreflect.
From Verif Require Import Base ModelNet.
Set Implicit Arguments.
Unset Strict Implicit.
Unset Printing Implicit Defensive.

(** the thread [t], which also returns all messages it has received, after the messages [log]: those
    taken with [recv_from] and the whole store of every collection (entry [i] is the message of party
    [i], [None] if there is none) *)
Fixpoint clogk B (t : cproc B) (log : seq (option bytes)) : cproc (B * seq (option bytes)) :=
  match t with
  | CRet r => CRet (rmap (fun b => (b, log)) r)
  | CSend to b k => CSend to b (clogk k log)
  | CRecv from k => CRecv from (fun b => clogk (k b) (rcons log (Some b)))
  | CGather st k => CGather st (fun st => clogk (k st) (log ++ st))
  | CHalt => CHalt
  end.
