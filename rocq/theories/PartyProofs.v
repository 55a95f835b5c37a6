(** Composition of protocols with several phases. *)
From mathcomp Require Import all_ssreflect.
From mathcomp Require Import zify.
From Verif Require Import Base ModelNet ModelQap SpecNet SpecProto SpecGroth NetProofs KingProofs.
From Verif Require Import NetThm.
Set Implicit Arguments.
Unset Strict Implicit.
Unset Printing Implicit Defensive.

Lemma king_party_ext A n dok (P P' : nat -> pproc A) vals : 0 < n ->
  (forall p, p < n -> P p = P' p) -> king_party n dok P' vals -> king_party n dok P vals.
Proof.
move=> n0 E H; case: H E => {P' vals}
  [P' vals HP E|P' vals B sids progs rs k HP U Hkp Hk E].
  by apply: PP_ret => p pn; rewrite E // HP.
by apply: PP_join U Hkp Hk => p pn; rewrite E // HP.
Qed.

Lemma king_party_bind A B n dok (P : nat -> pproc A) (R : nat -> A -> pproc B) v1 v2 : 0 < n ->
  king_party n dok P v1 -> king_party n dok (fun p => R p (v1 p)) v2 ->
  king_party n dok (fun p => pbind (P p) (R p)) v2.
Proof.
move=> n0; elim=> {P v1} [P v1 HP|P v1 C sids progs rs k HP U Hkp _ IH] HR.
  by apply: king_party_ext HR => // p pn; rewrite HP.
apply: (@PP_join _ _ _ _ _ _ sids progs rs (fun p rs => pbind (k p rs) (R p))) => //.
  by move=> p pn; rewrite HP.
exact: IH.
Qed.

Lemma king_party_ret A n dok (v : nat -> A) : king_party n dok (fun p => PRet (Ok (v p))) v.
Proof. exact: PP_ret. Qed.

Lemma try_join3_party A n dok (t0 t1 t2 : nat -> cproc A) v0 v1 v2 :
  king_prog n dok t0 v0 -> king_prog n dok t1 v1 -> king_prog n dok t2 v2 ->
  king_party n dok (fun p => try_join3 (t0 p) (t1 p) (t2 p)) (fun p => (v0 p, v1 p, v2 p)).
Proof.
move=> H0 H1 H2.
apply: (@PP_join _ _ _ _ _ _ [:: 0; 1; 2]
  (fun p j => match j with 0 => t0 p | 1 => t1 p | _ => t2 p end)
  (fun p j => match j with 0 => v0 p | 1 => v1 p | _ => v2 p end)
  (fun p rs => PRet (if rs is [:: a; b; c] then Ok (a, b, c) else Panic))) => //.
  by case=> [|[|[|j]]].
exact: PP_ret.
Qed.

Lemma separate_bind A B (m : pproc A) (f : A -> pproc B) :
  separate m -> (forall a, separate (f a)) -> separate (pbind m f).
Proof.
by elim: m => [[a|e|]|C ts k IH|] //= [U S] H; split=> // rs; apply: IH.
Qed.

Lemma separate_try_join3 A (t0 t1 t2 : cproc A) : separate (try_join3 t0 t1 t2).
Proof. by []. Qed.

Lemma separate_pthread A sid (t : cproc A) : separate (pthread sid t).
Proof. by []. Qed.

Lemma party_yields_prog A n prog (out : nat -> A) : 0 < n ->
  (forall ords p, separate (prog ords p)) ->
  (forall ords, (forall i, hash_ok (ords i)) -> king_party n (fun d => d != 0) (prog ords) out) ->
  party_yields n false prog out.
Proof.
move=> n0 S H ords d f ms Ho d0 _.
apply: (king_party_schedules (dok := fun d => d != 0)) => //; first by rewrite -lt0n.
exact: H.
Qed.
