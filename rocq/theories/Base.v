(** Base: results with panics and errors, vectors, loops.

    Shared vocabulary of the model.  [res] is the outcome of a Rust computation:
    a value, an [Err(MpcNetError)] or a panic. *)
From mathcomp Require Import all_ssreflect.
From mathcomp Require Import zify.
Set Implicit Arguments.
Unset Strict Implicit.
Unset Printing Implicit Defensive.

(** mpc-net/src/lib.rs:18-24 [MpcNetError].  The message strings are dropped;
    [Protocol] keeps the reported party. *)
Inductive mpc_error := Generic | Protocol of nat | NotConnected | BadInput.

Inductive res (A : Type) := Ok of A | Err of mpc_error | Panic.
Arguments Ok {A}.
Arguments Err {A}.
Arguments Panic {A}.

Definition rbind A B (m : res A) (f : A -> res B) : res B :=
  match m with Ok a => f a | Err e => Err e | Panic => Panic end.

Notation "'let!' x ':=' m 'in' k" := (rbind m (fun x => k))
  (at level 200, x pattern, m at level 100, k at level 200, right associativity).

Definition rmap A B (f : A -> B) (m : res A) : res B :=
  match m with Ok a => Ok (f a) | Err e => Err e | Panic => Panic end.

Definition is_ok A (m : res A) := if m is Ok _ then true else false.

(** the value of a successful computation (only used to name concrete values in examples) *)
Definition get_ok A (d : A) (m : res A) := if m is Ok a then a else d.

Lemma Ok_inj A (x y : A) : Ok x = Ok y -> x = y.
Proof. by case. Qed.

Lemma get_okP A (d : A) (m : res A) : is_ok m -> m = Ok (get_ok d m).
Proof. by case: m. Qed.

(** [Option::unwrap] / [expect]. *)
Definition unwrap A (o : option A) : res A := if o is Some a then Ok a else Panic.

(** [assert!] and [debug_assert!]; [dbg] is true in builds with debug assertions. *)
Definition rassert (b : bool) : res unit := if b then Ok tt else Panic.
Definition dassert (dbg b : bool) : res unit := if dbg ==> b then Ok tt else Panic.

(** Bounds-checked vector indexing [s[i]] and assignment [s[i] = x]. *)
Definition vget T (s : seq T) (i : nat) : res T :=
  if drop i s is x :: _ then Ok x else Panic.
Definition vset T (s : seq T) (i : nat) (x : T) : res (seq T) :=
  if i < size s then Ok (set_nth x s i x) else Panic.

(** [for i in is { s = f(s, i)?; }] *)
Fixpoint foldM S I (f : S -> I -> res S) (s : S) (is_ : seq I) : res S :=
  if is_ is i :: is' then let! s' := f s i in foldM f s' is' else Ok s.

(** [is.iter().map(f).collect()] where [f] may panic or fail. *)
Fixpoint mapM I A (f : I -> res A) (is_ : seq I) : res (seq A) :=
  if is_ is i :: is' then let! a := f i in let! r := mapM f is' in Ok (a :: r)
  else Ok [::].

(** [Vec::resize(n, x)]: truncates or pads. *)
Definition resize T (x : T) (n : nat) (s : seq T) : seq T :=
  take n s ++ nseq (n - size s) x.

(** number of pieces when [len] elements are cut every [k] elements *)
Definition div_ceil (len k : nat) : nat := (len + k.-1) %/ k.

(** [slice::chunks(k)]: consecutive pieces of length [k], the last may be shorter.
    (Rust panics for [k = 0]; callers guard.) *)
Definition chunks T (k : nat) (s : seq T) : seq (seq T) :=
  [seq take k (drop (i * k) s) | i <- iota 0 (div_ceil (size s) k)].

(** [iter().step_by(k)]: every [k]-th element starting with the first.
    (Rust panics for [k = 0]; callers guard.) *)
Definition step_by T (k : nat) (s : seq T) : seq T :=
  pmap (fun i => ohead (drop (i * k) s)) (iota 0 (div_ceil (size s) k)).

(** [a.iter().zip(b)] followed by [map]. *)
Definition zipmap A B C (f : A -> B -> C) (s : seq A) (t : seq B) : seq C :=
  [seq f p.1 p.2 | p <- zip s t].

(** A random number generator, seen as the stream of values it is going to deliver. *)
Definition rng T := nat -> T.
Definition rskip T (k : nat) (r : rng T) : rng T := fun i => r (k + i).

(* ------------------------------------------------------------------ *)
(** * Elementary facts *)

Section Facts.
Variables (A B S I T : Type).

Lemma rbind_ok (m : res A) (f : A -> res B) b :
  rbind m f = Ok b -> exists2 a, m = Ok a & f a = Ok b.
Proof. by case: m => //= a Hf; exists a. Qed.

Lemma vget_nth (x0 : T) (s : seq T) i : i < size s -> vget s i = Ok (nth x0 s i).
Proof. by move=> lt_i; rewrite /vget (drop_nth x0 lt_i). Qed.

Lemma vget_panic (s : seq T) i : size s <= i -> vget s i = Panic.
Proof. by move=> le_i; rewrite /vget drop_oversize. Qed.

Lemma vset_nth (x0 : T) (s : seq T) i x : i < size s -> vset s i x = Ok (set_nth x0 s i x).
Proof.
move=> lt_i; rewrite /vset lt_i; congr (Ok _).
by elim: s i lt_i => [|y s IH] [|i] //= /IH ->.
Qed.

Lemma size_vset (s : seq T) i x s' : vset s i x = Ok s' -> size s' = size s.
Proof.
rewrite /vset; case: ltnP => // lt_i [<-].
by rewrite size_set_nth; apply/maxn_idPr.
Qed.

Lemma foldM_cat (f : S -> I -> res S) s i1 i2 :
  foldM f s (i1 ++ i2) = (let! s' := foldM f s i1 in foldM f s' i2).
Proof. by elim: i1 s => //= i i1 IH s; case: (f s i) => //= s'; rewrite IH. Qed.

(** a loop whose body never fails on states satisfying an invariant is a fold *)
Lemma foldM_foldl (P : S -> Prop) (ok : I -> Prop) (f : S -> I -> res S) (g : S -> I -> S)
    (js : seq I) s :
  (forall s i, P s -> ok i -> f s i = Ok (g s i) /\ P (g s i)) ->
  P s -> (forall k, k < size js -> forall i0, ok (nth i0 js k)) ->
  foldM f s js = Ok (foldl g s js) /\ P (foldl g s js).
Proof.
move=> Hf; elim: js s => [|j js IH] s Ps Hjs //=.
have [-> Pg] := Hf s j Ps (Hjs 0 isT j).
by apply: IH => // k lt_k i0; apply: (Hjs k.+1).
Qed.

Lemma mapM_ok (f : I -> res A) (g : I -> A) (js : seq I) :
  (forall i0 k, k < size js -> f (nth i0 js k) = Ok (g (nth i0 js k))) ->
  mapM f js = Ok (map g js).
Proof.
elim: js => [|j js IH] Hf //=.
rewrite (Hf j 0 isT) /= IH // => i0 k lt_k.
by apply: (Hf i0 k.+1).
Qed.

Lemma size_mapM (f : I -> res A) js r : mapM f js = Ok r -> size r = size js.
Proof.
elim: js r => [|j js IH] r /=; first by case=> <-.
by case: (f j) => //= a; case: (mapM f js) IH => //= r' IH [<-] /=; rewrite (IH r').
Qed.

Lemma size_resize (x : T) n s : size (resize x n s) = n.
Proof.
rewrite /resize size_cat size_nseq size_take.
by case: ltnP => [/ltnW|] H; rewrite ?subnKC // (eqP H) addn0.
Qed.

Lemma nth_resize (x : T) n s i :
  nth x (resize x n s) i = if i < n then nth x s i else x.
Proof.
rewrite /resize nth_cat size_take.
case: (ltnP n (size s)) => lt_n.
- case: ltnP => lt_i; first by rewrite nth_take.
  by rewrite nth_nseq if_same.
- case: (ltnP i (size s)) => lt_i.
    by rewrite take_oversize // (leq_trans lt_i lt_n).
  by rewrite nth_nseq if_same nth_default // if_same.
Qed.

Lemma resize_id (x : T) n s : size s = n -> resize x n s = s.
Proof. by move=> <-; rewrite /resize take_size subnn cats0. Qed.

Lemma rskip_add k1 k2 (r : rng T) i : rskip k1 (rskip k2 r) i = rskip (k2 + k1) r i.
Proof. by rewrite /rskip addnA. Qed.

End Facts.

Lemma mapM_eq I A (f g : I -> res A) (js : seq I) :
  (forall i, f i = g i) -> mapM f js = mapM g js.
Proof. by move=> E; elim: js => //= j js ->; rewrite E. Qed.

Lemma size_zipmap A B C (f : A -> B -> C) s t :
  size (zipmap f s t) = minn (size s) (size t).
Proof. by rewrite size_map size_zip. Qed.

Lemma nth_zipmap A B C (f : A -> B -> C) a b c s t i :
  i < size s -> i < size t -> nth c (zipmap f s t) i = f (nth a s i) (nth b t i).
Proof.
move=> Hs Ht; rewrite (nth_map (a, b)); last by rewrite size_zip leq_min Hs Ht.
elim: s t i Hs Ht => [|x s IH] [|y t] [|i] //=; exact: IH.
Qed.

Lemma eq_zipmap A B C (f g : A -> B -> C) s t :
  (forall x y, f x y = g x y) -> zipmap f s t = zipmap g s t.
Proof. by move=> E; apply: eq_map => -[x y] /=. Qed.

Lemma zipmap_swap A B C (f : A -> B -> C) s t :
  zipmap f s t = zipmap (fun y x => f x y) t s.
Proof. by rewrite /zipmap; elim: s t => [|x s IH] [|y t] //=; rewrite IH. Qed.

Lemma zipmap_nseq A B C (f : A -> B -> C) s y :
  zipmap f s (nseq (size s) y) = [seq f x y | x <- s].
Proof. by rewrite /zipmap; elim: s => //= x s ->. Qed.

Lemma div_ceil_mul q k : 0 < k -> div_ceil (q * k) k = q.
Proof.
case: k => // k _; rewrite /div_ceil /= divnMDl // divn_small ?addn0 //.
Qed.

Lemma div_ceil0 k : 0 < k -> div_ceil 0 k = 0.
Proof. by move=> k0; rewrite -(mul0n k) div_ceil_mul. Qed.

Lemma size_chunks T k (s : seq T) : size (chunks k s) = div_ceil (size s) k.
Proof. by rewrite size_map size_iota. Qed.

Lemma nth_chunks T k (s : seq T) i :
  i < div_ceil (size s) k -> nth [::] (chunks k s) i = take k (drop (i * k) s).
Proof. by move=> Hi; rewrite (nth_map 0) ?size_iota // nth_iota. Qed.

Lemma div_ceil_bound len k i : 0 < k -> i < div_ceil len k -> i * k < len.
Proof.
case: k => // k _; rewrite /div_ceil /= => Hi.
have: i.+1 * k.+1 <= len + k by rewrite -leq_divRL.
lia.
Qed.

Lemma step_by_spec T (x0 : T) k (s : seq T) : 0 < k ->
  step_by k s = [seq nth x0 s (i * k) | i <- iota 0 (div_ceil (size s) k)].
Proof.
move=> k0; rewrite /step_by.
have : forall i, i \in iota 0 (div_ceil (size s) k) -> i * k < size s.
  by move=> i; rewrite mem_iota add0n /= => Hi; apply: div_ceil_bound.
elim: (iota _ _) => //= i js IH Hi.
have lt_i : i * k < size s by apply: Hi; rewrite inE eqxx.
rewrite (drop_nth x0 lt_i) /= IH // => j Hj.
by apply: Hi; rewrite inE Hj orbT.
Qed.
