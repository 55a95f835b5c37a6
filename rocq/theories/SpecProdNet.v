(** Specification vocabulary for programs on a network in which everybody is connected to the king
    only. *)
From mathcomp Require Import all_ssreflect.
From Verif Require Import Base ModelNet.
Set Implicit Arguments.
Unset Strict Implicit.
Unset Printing Implicit Defensive.

(** a thread that sends to and receives from the king only and does not collect *)
Fixpoint talks_to_king B (t : cproc B) : Prop :=
  match t with
  | CSend to _ k => to = 0 /\ talks_to_king k
  | CRecv from k => from = 0 /\ forall b, talks_to_king (k b)
  | CGather _ _ => False
  | _ => True
  end.

(** a thread whose results stores have an entry for every id below [n], and no others *)
Fixpoint collects B (n : nat) (t : cproc B) : Prop :=
  match t with
  | CSend _ _ k => collects n k
  | CRecv _ k => forall b, collects n (k b)
  | CGather st k => size st = n /\ forall s, size s = n -> collects n (k s)
  | _ => True
  end.

(** the programs of all threads of all phases are such *)
Fixpoint all_threads A (Q : forall B, cproc B -> Prop) (x : pproc A) : Prop :=
  match x with
  | PJoin B ts k => (forall j, j < size ts -> Q B (nth (0, CHalt) ts j).2) /\
                    forall rs, all_threads Q (k rs)
  | _ => True
  end.

(** the programs of a network with a king: the king collects, the others talk to the king only *)
Definition star_shaped A (n : nat) (P : nat -> pproc A) : Prop :=
  all_threads (fun B => @collects B n) (P 0) /\
  forall id, 0 < id < n -> all_threads talks_to_king (P id).
