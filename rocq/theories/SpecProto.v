(** Specification vocabulary for the distributed protocols. *)
From mathcomp Require Import all_ssreflect all_algebra.
From Verif Require Import Base ModelField ModelPss ModelPack ModelFft ModelNet ModelProto.
From Verif Require Import Spec SpecNet.
Set Implicit Arguments.
Unset Strict Implicit.
Unset Printing Implicit Defensive.
Import GRing.Theory.
Local Open Scope ring_scope.

(** The [n] parties run the thread [prog ords 0], ..., [prog ords (n-1)] on stream [sid] ([ords i]
    is the iteration order of the [i]-th hash map of the king).  Whatever these orders, and
    whatever the order in which the parties act and messages arrive, every party ends with its
    value [out p], also if one party [d <> 0] crashes at any point of its program ([d >= n]: nobody
    crashes).  With [nobody] set, only executions without a crash are considered. *)
Definition yields A (n : nat) (nobody : bool) (prog : (nat -> hash_order) -> nat -> cproc A)
    (out : nat -> A) : Prop :=
  forall ords sid d f ms, (forall i, hash_ok (ords i)) -> d != 0%N -> (nobody -> (n <= d)%N) ->
    every_schedule (crashing n d f ms (fun p => pthread sid (prog ords p))) (fun p => p != d) out.

(** a party that sends one message to the king and then only waits for the answer *)
Definition sends_only A (t : cproc A) (msg : bytes) : Prop :=
  exists k, t = CSend 0 msg (CRecv 0 k) /\ forall y, exists r, k y = CRet r.

Section Masks.
Variable F : fftField.
Variables (dbg : bool) (pp : pss F).

(** the parties' masks come from the sampler, or are the zero masks ([N] is the domain size) *)
Definition fft_masks (rearrange : bool) (g gen : F) (N : nat) (masks : nat -> fft_mask F) : Prop :=
  (forall p, (p < p_n pp)%N -> masks p = fft_mask_zero F (N %/ p_l pp)) \/
  exists values r_in r_out s,
    fft_mask_sample dbg pp rearrange g gen N values r_in r_out = Ok s /\
    forall p, (p < p_n pp)%N -> masks p = nth (FftMask [::] [::]) s p.

Variable T : lmodType F.

Definition degred_masks (gen : T) (m : nat) (masks : nat -> degred_mask T) : Prop :=
  (forall p, (p < p_n pp)%N -> masks p = degred_mask_zero T m) \/
  exists values r_in r_out s, degred_mask_sample dbg pp gen m values r_in r_out = Ok s /\
    forall p, (p < p_n pp)%N -> masks p = nth (degred_mask_zero T 0) s p.

Definition msm_masks (gen : T) (masks : nat -> msm_mask T) : Prop :=
  (forall p, (p < p_n pp)%N -> masks p = msm_mask_zero T) \/
  exists values r s, msm_mask_sample dbg pp gen values r = Ok s /\
    forall p, (p < p_n pp)%N -> masks p = nth (msm_mask_zero T) s p.

End Masks.

(** running products of quotients *)
Definition running_products (F : fieldType) (num den : seq F) : seq F :=
  mkseq (fun i => \prod_(k < i.+1) (num`_k / den`_k)) (size num).

(** party [p] squares its share of a packing of [s] *)
Definition square_shares (F : fftField) dbg (pp : pss F) (s : seq F) (r : rng F) (p : nat) : seq F :=
  [:: (get_ok [::] (pack dbg pp (s : seq F^o) r))`_p ^+ 2].

(** the first message of a thread goes to the king *)
Definition first_message A (t : cproc A) (msg : bytes) : Prop := exists k, t = CSend 0 msg k.
