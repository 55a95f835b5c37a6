(** Theorems about clients that send the king arbitrary bytes. *)
From mathcomp Require Import all_ssreflect all_algebra.
From mathcomp Require Import zify.
From Verif Require Import RingTac Base ModelField ModelUtils ModelPss ModelPack ModelFft ModelNet.
From Verif Require Import ModelProto Spec SpecNet SpecProto SpecTamper SpecBytes NetProofs KingProofs.
From Verif Require Import KingFail RoundProofs NetThm FieldProofs UtilsProofs PssProofs PackProofs FftProofs.
From Verif Require Import ProtoProofs DegProofs TamperProofs TamperFft PpProofs ProtoThm TamperThm.
From Verif Require Import BytesProofs BytesFft ModelNet.
Set Implicit Arguments.
Unset Strict Implicit.
Unset Printing Implicit Defensive.
Import GRing.Theory.
Local Open Scope ring_scope.
Local Notation Fm F := [lmodType F of F^o].

Lemma balanced_entries (F : fftField) (T : lmodType F) (dbg : bool) (pp : pss F) (x : nat -> seq T) m :
  (dbg -> forall e, (e < m)%N -> imbalance pp (entry x e) = 0) -> ~~ (dbg && unbalanced pp x m).
Proof.
move=> bal; apply/negP => /andP[dbgT /unbalancedP[e le]].
by rewrite (bal dbgT e le) eqxx.
Qed.

Lemma pchoice A n (P : nat -> A -> Prop) : (forall p, exists a, P p a) ->
  exists f : nat -> A, forall p, (p < n)%N -> P p (f p).
Proof.
move=> H; elim: n => [|n [f Hf]]; first by have [a _] := H 0%N; exists (fun=> a).
have [a Ha] := H n; exists (fun p => if p == n then a else f p) => p.
by rewrite ltnS leq_eqVlt; case: eqP => [-> _|_ /= /Hf].
Qed.

(** inputs that are mapped to given values *)
Lemma preimages (F : fftField) n m (f : seq F -> res (seq F)) (x0 : seq F) (z : nat -> seq F) :
  size x0 = m -> (forall p, (0 < p < n)%N -> size (z p) = m) ->
  (forall v, size v = m -> exists s, size s = m /\ f s = Ok v) ->
  exists x' : nat -> seq F, [/\ x' 0%N = x0,
    forall p, (p < n)%N -> size (x' p) = m & forall p, (0 < p < n)%N -> f (x' p) = Ok (z p)].
Proof.
move=> s0 sz onto.
have E p : exists s : seq F, (0 < p < n)%N -> size s = m /\ f s = Ok (z p).
  case pI: (0 < p < n)%N; last by exists [::].
  by have [s Hs] := onto _ (sz p pI); exists s.
have [g Hg] := pchoice n E.
exists (fun p => if p == 0%N then x0 else g p); split=> // p.
  by case: eqP => [->|/eqP p0] lp //; have [|//] := Hg p lp; rewrite lt0n p0.
by move=> pI; have [p0 lp] := andP pI; rewrite gtn_eqF //; have [] := Hg p lp pI.
Qed.

(*** theorems ***)

(** C74: a message decodes or fails with [Generic]; nothing else can happen, whatever the bytes. *)
Lemma c74_decode A (c : codec A) (b : bytes) :
  (exists v, decode c b = Ok v) \/ decode c b = Err Generic.
Proof. by rewrite /decode; case: (dec c b) => [[v tl]|]; [left; exists v|right]. Qed.

(** C74: degree reduction, one message that does not decode: the king ends with that error in every
    execution, and nobody else finishes. *)
Lemma c74_deg_red_garbled (F : fftField) (T : lmodType F) dbg lam pp (gen : T) (cT : codec T) m
    masks x (r : rng T) w sid ord p :
  pss_new F dbg (2 ^ lam) = Ok pp -> (0 < m)%N ->
  degred_masks dbg pp gen m masks -> (forall p, (p < p_n pp)%N -> size (x p) = m) ->
  (0 < p < p_n pp)%N -> decode (vec_codec cT) (w p) = Err Generic ->
  king_fails (mkseq (fun p => pthread sid
    (sending w p (deg_red dbg pp (p_n pp) p ord cT (x p) (masks p) r))) (p_n pp)) (Err Generic).
Proof.
move=> new m0 Hm sx pI Hp.
exact: (deg_red_garbled (pss_new_ok new) r dbg sx (degred_masks_ok new m0 Hm) _ _ pI Hp).
Qed.

(** C74: all messages decode, to vectors [y]; one shorter than the king's makes the king panic, in
    either build. *)
Lemma c74_deg_red_short (F : fftField) (T : lmodType F) dbg lam pp (gen : T) (cT : codec T) mb m
    masks x (r : rng T) w y sid ord p :
  pss_new F dbg (2 ^ lam) = Ok pp -> codec_ok cT mb -> (0 < m < 256 ^ 8)%N ->
  degred_masks dbg pp gen m masks -> (forall p, (p < p_n pp)%N -> size (x p) = m) ->
  (forall p, (0 < p < p_n pp)%N -> decode (vec_codec cT) (w p) = Ok (y p)) ->
  (0 < p < p_n pp)%N -> (size (y p) < m)%N ->
  king_dies (mkseq (fun p => pthread sid
    (sending w p (deg_red dbg pp (p_n pp) p ord cT (x p) (masks p) r))) (p_n pp)).
Proof.
move=> new cok m8 Hm sx wK pI Hp; have [m0 _] := andP m8.
exact: (deg_red_short (pss_new_ok new) cok r dbg m8 sx (degred_masks_ok new m0 Hm) wK _ _ pI Hp).
Qed.

(** C74: otherwise the bytes do what the inputs [x'] do in C73: those from which the clients would
    have computed the vectors [y], cut to the king's length. *)
Lemma c74_deg_red (F : fftField) (T : lmodType F) dbg lam pp (gen : T) (cT : codec T) mb m
    masks x (r : rng T) w y :
  pss_new F dbg (2 ^ lam) = Ok pp -> codec_ok cT mb -> (0 < m < 256 ^ 8)%N ->
  degred_masks dbg pp gen m masks -> (forall p, (p < p_n pp)%N -> size (x p) = m) ->
  (forall p, (0 < p < p_n pp)%N -> decode (vec_codec cT) (w p) = Ok (y p)) ->
  (forall p, (0 < p < p_n pp)%N -> (m <= size (y p))%N) ->
  let x' p := if p == 0%N then x 0%N else zipmap (fun a b => a - b) (y p) (dr_in (masks p)) in
  (dbg -> forall e, (e < m)%N -> imbalance pp (entry x' e) = 0) ->
  exists out : nat -> seq T,
    vsharing pp (2 * 2 ^ lam) m out (fun e j => interpolated pp (entry x' e) j) /\
    yields (p_n pp) true
      (fun ords p => sending w p (deg_red dbg pp (p_n pp) p (ords 0%N) cT (x p) (masks p) r)) out.
Proof.
move=> new cok m8 Hm sx wK yl x' bal; have [m0 _] := andP m8.
have [out [Ho Hp]] := deg_red_bytes (pss_new_ok new) cok r m8 sx (degred_masks_ok new m0 Hm) wK yl
  (balanced_entries bal).
rewrite -(pss_new_l new); exists out; split=> //.
by apply: yields_any => [|ords Hords]; [exact: n_gt0 new|exact: Hp].
Qed.

Lemma c74_deg_red_caught (F : fftField) (T : lmodType F) lam pp (gen : T) (cT : codec T) mb m
    masks x (r : rng T) w y sid ord e :
  pss_new F true (2 ^ lam) = Ok pp -> codec_ok cT mb -> (0 < m < 256 ^ 8)%N ->
  degred_masks true pp gen m masks -> (forall p, (p < p_n pp)%N -> size (x p) = m) ->
  (forall p, (0 < p < p_n pp)%N -> decode (vec_codec cT) (w p) = Ok (y p)) ->
  (forall p, (0 < p < p_n pp)%N -> (m <= size (y p))%N) ->
  let x' p := if p == 0%N then x 0%N else zipmap (fun a b => a - b) (y p) (dr_in (masks p)) in
  (e < m)%N -> imbalance pp (entry x' e) != 0 ->
  king_dies (mkseq (fun p => pthread sid
    (sending w p (deg_red true pp (p_n pp) p ord cT (x p) (masks p) r))) (p_n pp)).
Proof.
move=> new cok m8 Hm sx wK yl x' le ne; have [m0 _] := andP m8.
apply: (deg_red_bytes_caught (pss_new_ok new) cok r m8 sx (degred_masks_ok new m0 Hm) wK yl) => //.
by apply/unbalancedP; exists e.
Qed.

(** C74: multi-scalar multiplication. *)
Lemma c74_d_msm_garbled (F : fftField) (T : lmodType F) dbg lam pp (cT : codec T) m
    (masks : nat -> msm_mask T) (bases : nat -> seq T) (scalars : nat -> seq F) w sid ord p :
  pss_new F dbg (2 ^ lam) = Ok pp ->
  (forall p, (p < p_n pp)%N -> size (bases p) = m) ->
  (forall p, (p < p_n pp)%N -> size (scalars p) = m) ->
  (0 < p < p_n pp)%N -> decode cT (w p) = Err Generic ->
  king_fails (mkseq (fun p => pthread sid
    (sending w p (d_msm dbg pp (p_n pp) p ord cT (bases p) (scalars p) (masks p)))) (p_n pp))
    (Err Generic).
Proof.
by move=> new sb ss pI Hp; apply: (d_msm_garbled (pss_new_ok new) masks dbg sb ss _ _ pI Hp).
Qed.

Lemma c74_d_msm (F : fftField) (T : lmodType F) dbg lam pp (gen : T) (cT : codec T) mb m masks
    (bases : nat -> seq T) (scalars : nat -> seq F) w y :
  pss_new F dbg (2 ^ lam) = Ok pp -> codec_ok cT mb -> msm_masks dbg pp gen masks ->
  (forall p, (p < p_n pp)%N -> size (bases p) = m) ->
  (forall p, (p < p_n pp)%N -> size (scalars p) = m) ->
  (forall p, (0 < p < p_n pp)%N -> decode cT (w p) = Ok (y p)) ->
  let u p := if p == 0%N then products bases scalars m 0 else y p - mm_in (masks p) in
  (dbg -> imbalance pp u = 0) ->
  exists out : nat -> T,
    sharing pp (2 * 2 ^ lam) (mkseq out (p_n pp))
      (nseq (2 ^ lam) (\sum_(j < 2 ^ lam) interpolated pp u j)) /\
    yields (p_n pp) true (fun ords p =>
      sending w p (d_msm dbg pp (p_n pp) p (ords 0%N) cT (bases p) (scalars p) (masks p))) out.
Proof.
move=> new cok Hm sb ss wK u bal; have ok := pss_new_ok new; have El := pss_new_l new.
have b : ~~ (dbg && (imbalance pp u != 0)) by apply/negP => /andP[/bal ->]; rewrite eqxx.
have [out [Ho Hp]] := d_msm_bytes ok cok sb ss (msm_masks_ok new Hm) wK b.
exists out; split; last first.
  by apply: yields_any => [|ords Hords]; [exact: n_gt0 new|exact: Hp].
rewrite -El; have /sharingP := Ho; congr (sharing _ _ _ _).
by apply: (@eq_from_nth _ 0); rewrite size_mkseq ?size_nseq // => i li; rewrite nth_mkseq // nth_nseq li.
Qed.

Lemma c74_d_msm_caught (F : fftField) (T : lmodType F) lam pp (gen : T) (cT : codec T) mb m masks
    (bases : nat -> seq T) (scalars : nat -> seq F) w y sid ord :
  pss_new F true (2 ^ lam) = Ok pp -> codec_ok cT mb -> msm_masks true pp gen masks ->
  (forall p, (p < p_n pp)%N -> size (bases p) = m) ->
  (forall p, (p < p_n pp)%N -> size (scalars p) = m) ->
  (forall p, (0 < p < p_n pp)%N -> decode cT (w p) = Ok (y p)) ->
  let u p := if p == 0%N then products bases scalars m 0 else y p - mm_in (masks p) in
  imbalance pp u != 0 ->
  king_dies (mkseq (fun p => pthread sid
    (sending w p (d_msm true pp (p_n pp) p ord cT (bases p) (scalars p) (masks p)))) (p_n pp)).
Proof.
move=> new cok Hm sb ss wK u ne.
exact: (d_msm_bytes_caught (pss_new_ok new) cok sb ss (msm_masks_ok new Hm) wK).
Qed.

(** C74: the transforms. *)
Lemma c74_d_fft_garbled (F : fftField) dbg lam b pp dom (cF : codec F) rearrange masks
    (x : nat -> seq F) (r : rng F) w sid ord p :
  pss_new F dbg (2 ^ lam) = Ok pp -> domain_new F (2 ^ (b + lam)) = Some dom ->
  fft_masks dbg pp rearrange 1 (d_gen dom) (2 ^ (b + lam)) masks ->
  (forall p, (p < p_n pp)%N -> size (x p) = (2 ^ b)%N) ->
  (0 < p < p_n pp)%N -> decode (vec_codec cF) (w p) = Err Generic ->
  king_fails (mkseq (fun p => pthread sid (sending w p
    (d_fft dbg pp (p_n pp) p ord cF (x p) (masks p) rearrange dom r))) (p_n pp)) (Err Generic).
Proof.
move=> new Edom Hm sx pI Hp; have ok := pss_new_ok new; have El := pss_new_l new.
exact: (d_fft_garbled ok El Edom _ _ (fft_masks_ok new (dom_prim Edom) Hm) sx _ _ pI Hp).
Qed.

Lemma c74_d_fft_short (F : fftField) dbg lam b pp dom (cF : codec F) mb rearrange masks
    (x : nat -> seq F) (r : rng F) w y sid ord p :
  pss_new F dbg (2 ^ lam) = Ok pp -> domain_new F (2 ^ (b + lam)) = Some dom ->
  codec_ok cF mb -> (2 ^ b < 256 ^ 8)%N ->
  fft_masks dbg pp rearrange 1 (d_gen dom) (2 ^ (b + lam)) masks ->
  (forall p, (p < p_n pp)%N -> size (x p) = (2 ^ b)%N) ->
  (forall p, (0 < p < p_n pp)%N -> decode (vec_codec cF) (w p) = Ok (y p)) ->
  (0 < p < p_n pp)%N -> (size (y p) < 2 ^ b)%N ->
  king_dies (mkseq (fun p => pthread sid (sending w p
    (d_fft dbg pp (p_n pp) p ord cF (x p) (masks p) rearrange dom r))) (p_n pp)).
Proof.
move=> new Edom cok b8 Hm sx wK pI Hp; have ok := pss_new_ok new; have El := pss_new_l new.
exact: (d_fft_short ok El b8 cok Edom _ _ (fft_masks_ok new (dom_prim Edom) Hm) sx wK _ _ pI Hp).
Qed.

(** the inputs [x'] that the bytes stand for exist *)
Lemma c74_d_fft_inputs (F : fftField) dbg lam b pp dom rearrange masks (x y : nat -> seq F) :
  pss_new F dbg (2 ^ lam) = Ok pp -> domain_new F (2 ^ (b + lam)) = Some dom -> (2 ^ b < 256 ^ 8)%N ->
  fft_masks dbg pp rearrange 1 (d_gen dom) (2 ^ (b + lam)) masks ->
  (forall p, (p < p_n pp)%N -> size (x p) = (2 ^ b)%N) ->
  (forall p, (0 < p < p_n pp)%N -> (2 ^ b <= size (y p))%N) ->
  exists x' : nat -> seq F, [/\ x' 0%N = x 0%N,
    forall p, (p < p_n pp)%N -> size (x' p) = (2 ^ b)%N &
    forall p, (0 < p < p_n pp)%N ->
      fft1 pp (x' p) (d_gen dom) = Ok (zipmap (fun a b => a - b) (y p) (fm_in (masks p)))].
Proof.
move=> new Edom b8 Hm sx yl; have ok := pss_new_ok new; have El := pss_new_l new.
have [v [[si _] _]] := fft_masks_ok new (dom_prim Edom) Hm.
have n0 := n_gt0 new; apply: (preimages (f := fun s => fft1 pp s (d_gen dom))
  (z := fun p => zipmap (fun a b => a - b) (y p) (fm_in (masks p)))) => [|p /andP[p0 lp]|u su]; first exact: sx.
  by rewrite size_zipmap (si p lp); apply/minn_idPr/yl; rewrite p0.
exact: (fft1_onto ok El b8 (dom_prim Edom) su).
Qed.

(** and if nothing is noticed the parties end with a transform of what [x'] interpolates to *)
Lemma c74_d_fft (F : fftField) dbg lam b pp dom (cF : codec F) mb rearrange masks
    (x : nat -> seq F) (r : rng F) w (y x' : nat -> seq F) :
  pss_new F dbg (2 ^ lam) = Ok pp -> domain_new F (2 ^ (b + lam)) = Some dom ->
  codec_ok cF mb -> (2 ^ b < 256 ^ 8)%N ->
  fft_masks dbg pp rearrange 1 (d_gen dom) (2 ^ (b + lam)) masks ->
  (forall p, (p < p_n pp)%N -> size (x p) = (2 ^ b)%N) ->
  (forall p, (0 < p < p_n pp)%N -> decode (vec_codec cF) (w p) = Ok (y p)) ->
  (forall p, (0 < p < p_n pp)%N -> (2 ^ b <= size (y p))%N) ->
  x' 0%N = x 0%N -> (forall p, (p < p_n pp)%N -> size (x' p) = (2 ^ b)%N) ->
  (forall p, (0 < p < p_n pp)%N ->
     fft1 pp (x' p) (d_gen dom) = Ok (zipmap (fun a b => a - b) (y p) (fm_in (masks p)))) ->
  (dbg -> forall e, (e < 2 ^ b)%N -> imbalance (T := Fm F) pp (entry (T := Fm F) x' e) = 0) ->
  exists (c : seq F) (out : nat -> seq F), [/\ size c = (2 ^ (b + lam))%N,
    forall e j, (e < 2 ^ b)%N -> (j < 2 ^ lam)%N -> strides (T := Fm F) b (b + lam) c e j =
      interpolated (T := Fm F) pp (entry (T := Fm F) x' e) j,
    vsharing (T := Fm F) pp (2 * 2 ^ lam) (2 ^ b) out (slots (T := Fm F) pp rearrange b (b + lam)
      (evals (T := Fm F) 1 (d_gen dom) (2 ^ (b + lam)) c)) &
    yields (p_n pp) true (fun ords p => sending w p
      (d_fft dbg pp (p_n pp) p (ords 0%N) cF (x p) (masks p) rearrange dom r)) out].
Proof.
move=> new Edom cok b8 Hm sx wK yl x'0 sx' x'1 bal; have ok := pss_new_ok new; have El := pss_new_l new.
have Hm' := fft_masks_ok new (dom_prim Edom) Hm.
have [c [sc Ec]] := strides_exist El b8
  (fun e j => interpolated (T := Fm F) pp (entry (T := Fm F) x' e) j).
have [out [Ho Hp]] := d_fft_bytes ok El b8 cok Edom r Hm' sx wK yl x'0 sx' x'1
  (balanced_entries (T := Fm F) bal) sc Ec.
rewrite -El; exists c, out; split=> //.
by apply: yields_any => [|ords Hords]; [exact: n_gt0 new|exact: Hp].
Qed.

Lemma c74_d_fft_caught (F : fftField) lam b pp dom (cF : codec F) mb rearrange masks
    (x : nat -> seq F) (r : rng F) w (y x' : nat -> seq F) sid ord e :
  pss_new F true (2 ^ lam) = Ok pp -> domain_new F (2 ^ (b + lam)) = Some dom ->
  codec_ok cF mb -> (2 ^ b < 256 ^ 8)%N ->
  fft_masks true pp rearrange 1 (d_gen dom) (2 ^ (b + lam)) masks ->
  (forall p, (p < p_n pp)%N -> size (x p) = (2 ^ b)%N) ->
  (forall p, (0 < p < p_n pp)%N -> decode (vec_codec cF) (w p) = Ok (y p)) ->
  (forall p, (0 < p < p_n pp)%N -> (2 ^ b <= size (y p))%N) ->
  x' 0%N = x 0%N -> (forall p, (p < p_n pp)%N -> size (x' p) = (2 ^ b)%N) ->
  (forall p, (0 < p < p_n pp)%N ->
     fft1 pp (x' p) (d_gen dom) = Ok (zipmap (fun a b => a - b) (y p) (fm_in (masks p)))) ->
  (e < 2 ^ b)%N -> imbalance (T := Fm F) pp (entry (T := Fm F) x' e) != 0 ->
  king_dies (mkseq (fun p => pthread sid (sending w p
    (d_fft true pp (p_n pp) p ord cF (x p) (masks p) rearrange dom r))) (p_n pp)).
Proof.
move=> new Edom cok b8 Hm sx wK yl x'0 sx' x'1 le ne; have ok := pss_new_ok new.
have El := pss_new_l new; have Hm' := fft_masks_ok new (dom_prim Edom) Hm.
apply: (d_fft_bytes_caught ok El b8 cok Edom r Hm' sx wK yl x'0 sx' x'1) => //.
by apply/unbalancedP; exists e.
Qed.

Lemma c74_d_ifft_garbled (F : fftField) dbg lam b pp dom (cF : codec F) rearrange g masks
    (x : nat -> seq F) (r : rng F) w sid ord p :
  pss_new F dbg (2 ^ lam) = Ok pp -> domain_new F (2 ^ (b + lam)) = Some dom ->
  fft_masks dbg pp rearrange g (d_gen_inv dom) (2 ^ (b + lam)) masks ->
  (forall p, (p < p_n pp)%N -> size (x p) = (2 ^ b)%N) ->
  (0 < p < p_n pp)%N -> decode (vec_codec cF) (w p) = Err Generic ->
  king_fails (mkseq (fun p => pthread sid (sending w p
    (d_ifft dbg pp (p_n pp) p ord cF (x p) (masks p) rearrange dom g r))) (p_n pp)) (Err Generic).
Proof.
move=> new Edom Hm sx pI Hp; have ok := pss_new_ok new; have El := pss_new_l new.
exact: (d_ifft_garbled ok El Edom _ _ (fft_masks_ok new (dom_prim_inv Edom) Hm) sx _ _ pI Hp).
Qed.

Lemma c74_d_ifft_short (F : fftField) dbg lam b pp dom (cF : codec F) mb rearrange g masks
    (x : nat -> seq F) (r : rng F) w y sid ord p :
  pss_new F dbg (2 ^ lam) = Ok pp -> domain_new F (2 ^ (b + lam)) = Some dom ->
  codec_ok cF mb -> (2 ^ b < 256 ^ 8)%N ->
  fft_masks dbg pp rearrange g (d_gen_inv dom) (2 ^ (b + lam)) masks ->
  (forall p, (p < p_n pp)%N -> size (x p) = (2 ^ b)%N) ->
  (forall p, (0 < p < p_n pp)%N -> decode (vec_codec cF) (w p) = Ok (y p)) ->
  (0 < p < p_n pp)%N -> (size (y p) < 2 ^ b)%N ->
  king_dies (mkseq (fun p => pthread sid (sending w p
    (d_ifft dbg pp (p_n pp) p ord cF (x p) (masks p) rearrange dom g r))) (p_n pp)).
Proof.
move=> new Edom cok b8 Hm sx wK pI Hp; have ok := pss_new_ok new; have El := pss_new_l new.
exact: (d_ifft_short ok El b8 cok Edom _ _ (fft_masks_ok new (dom_prim_inv Edom) Hm) sx wK _ _ pI Hp).
Qed.

(** the inputs [x'] that the bytes stand for exist *)
Lemma c74_d_ifft_inputs (F : fftField) dbg lam b pp dom rearrange g masks (x y : nat -> seq F) :
  pss_new F dbg (2 ^ lam) = Ok pp -> domain_new F (2 ^ (b + lam)) = Some dom -> (2 ^ b < 256 ^ 8)%N ->
  fft_masks dbg pp rearrange g (d_gen_inv dom) (2 ^ (b + lam)) masks ->
  (forall p, (p < p_n pp)%N -> size (x p) = (2 ^ b)%N) ->
  (forall p, (0 < p < p_n pp)%N -> (2 ^ b <= size (y p))%N) ->
  exists x' : nat -> seq F, [/\ x' 0%N = x 0%N,
    forall p, (p < p_n pp)%N -> size (x' p) = (2 ^ b)%N &
    forall p, (0 < p < p_n pp)%N ->
      fft1 pp [seq u * d_size_inv dom | u <- x' p] (d_gen_inv dom) = Ok (zipmap (fun a b => a - b) (y p) (fm_in (masks p)))].
Proof.
move=> new Edom b8 Hm sx yl; have ok := pss_new_ok new; have El := pss_new_l new.
have [v [[si _] _]] := fft_masks_ok new (dom_prim_inv Edom) Hm.
have n0 := n_gt0 new; apply: (preimages (f := fun s => fft1 pp [seq u * d_size_inv dom | u <- s] (d_gen_inv dom))
  (z := fun p => zipmap (fun a b => a - b) (y p) (fm_in (masks p)))) => [|p /andP[p0 lp]|u su]; first exact: sx.
  by rewrite size_zipmap (si p lp); apply/minn_idPr/yl; rewrite p0.
exact: (ifft_input ok El b8 Edom su).
Qed.

(** and if nothing is noticed the parties end with a transform of what [x'] interpolates to *)
Lemma c74_d_ifft (F : fftField) dbg lam b pp dom (cF : codec F) mb rearrange g masks
    (x : nat -> seq F) (r : rng F) w (y x' : nat -> seq F) :
  pss_new F dbg (2 ^ lam) = Ok pp -> domain_new F (2 ^ (b + lam)) = Some dom ->
  codec_ok cF mb -> (2 ^ b < 256 ^ 8)%N ->
  fft_masks dbg pp rearrange g (d_gen_inv dom) (2 ^ (b + lam)) masks ->
  (forall p, (p < p_n pp)%N -> size (x p) = (2 ^ b)%N) ->
  (forall p, (0 < p < p_n pp)%N -> decode (vec_codec cF) (w p) = Ok (y p)) ->
  (forall p, (0 < p < p_n pp)%N -> (2 ^ b <= size (y p))%N) ->
  x' 0%N = x 0%N -> (forall p, (p < p_n pp)%N -> size (x' p) = (2 ^ b)%N) ->
  (forall p, (0 < p < p_n pp)%N ->
     fft1 pp [seq u * d_size_inv dom | u <- x' p] (d_gen_inv dom) = Ok (zipmap (fun a b => a - b) (y p) (fm_in (masks p)))) ->
  (dbg -> forall e, (e < 2 ^ b)%N -> imbalance (T := Fm F) pp (entry (T := Fm F) x' e) = 0) ->
  exists (c : seq F) (out : nat -> seq F), [/\ size c = (2 ^ (b + lam))%N,
    forall e j, (e < 2 ^ b)%N -> (j < 2 ^ lam)%N ->
      strides (T := Fm F) b (b + lam) (evals (T := Fm F) 1 (d_gen dom) (2 ^ (b + lam)) c) e j =
      interpolated (T := Fm F) pp (entry (T := Fm F) x' e) j,
    vsharing (T := Fm F) pp (2 * 2 ^ lam) (2 ^ b) out (slots (T := Fm F) pp rearrange b (b + lam)
      (coset_coeffs (T := Fm F) g c)) &
    yields (p_n pp) true (fun ords p => sending w p
      (d_ifft dbg pp (p_n pp) p (ords 0%N) cF (x p) (masks p) rearrange dom g r)) out].
Proof.
move=> new Edom cok b8 Hm sx wK yl x'0 sx' x'1 bal; have ok := pss_new_ok new; have El := pss_new_l new.
have Hm' := fft_masks_ok new (dom_prim_inv Edom) Hm.
have [v [sv Ev]] := strides_exist El b8
  (fun e j => interpolated (T := Fm F) pp (entry (T := Fm F) x' e) j).
have [_ Es _] := dom_ok Edom.
have [|c sc Ec] := interpolate (v := v) Edom; first by rewrite Es.
rewrite Es in sc Ec; rewrite Ec in Ev.
have [out [Ho Hp]] := d_ifft_bytes ok El b8 cok Edom r Hm' sx wK yl x'0 sx' x'1
  (balanced_entries (T := Fm F) bal) sc Ev.
rewrite -El; exists c, out; split=> //.
by apply: yields_any => [|ords Hords]; [exact: n_gt0 new|exact: Hp].
Qed.

Lemma c74_d_ifft_caught (F : fftField) lam b pp dom (cF : codec F) mb rearrange g masks
    (x : nat -> seq F) (r : rng F) w (y x' : nat -> seq F) sid ord e :
  pss_new F true (2 ^ lam) = Ok pp -> domain_new F (2 ^ (b + lam)) = Some dom ->
  codec_ok cF mb -> (2 ^ b < 256 ^ 8)%N ->
  fft_masks true pp rearrange g (d_gen_inv dom) (2 ^ (b + lam)) masks ->
  (forall p, (p < p_n pp)%N -> size (x p) = (2 ^ b)%N) ->
  (forall p, (0 < p < p_n pp)%N -> decode (vec_codec cF) (w p) = Ok (y p)) ->
  (forall p, (0 < p < p_n pp)%N -> (2 ^ b <= size (y p))%N) ->
  x' 0%N = x 0%N -> (forall p, (p < p_n pp)%N -> size (x' p) = (2 ^ b)%N) ->
  (forall p, (0 < p < p_n pp)%N ->
     fft1 pp [seq u * d_size_inv dom | u <- x' p] (d_gen_inv dom) = Ok (zipmap (fun a b => a - b) (y p) (fm_in (masks p)))) ->
  (e < 2 ^ b)%N -> imbalance (T := Fm F) pp (entry (T := Fm F) x' e) != 0 ->
  king_dies (mkseq (fun p => pthread sid (sending w p
    (d_ifft true pp (p_n pp) p ord cF (x p) (masks p) rearrange dom g r))) (p_n pp)).
Proof.
move=> new Edom cok b8 Hm sx wK yl x'0 sx' x'1 le ne; have ok := pss_new_ok new.
have El := pss_new_l new; have Hm' := fft_masks_ok new (dom_prim_inv Edom) Hm.
apply: (d_ifft_bytes_caught ok El b8 cok Edom r Hm' sx wK yl x'0 sx' x'1) => //.
by apply/unbalancedP; exists e.
Qed.


(** C74: a king that answers arbitrary bytes.  No client notices: each ends with what its bytes
    decode to plus its output mask, whatever the lengths, also if one party crashes. *)
Lemma c74_king_deg_red (F : fftField) (T : lmodType F) dbg lam pp (gen : T) (cT : codec T) m
    masks x (r : rng T) w y a :
  pss_new F dbg (2 ^ lam) = Ok pp -> (0 < m)%N ->
  degred_masks dbg pp gen m masks -> (forall p, (p < p_n pp)%N -> size (x p) = m) ->
  (forall p, (0 < p < p_n pp)%N -> decode (vec_codec cT) (w p) = Ok (y p)) ->
  yields (p_n pp) false
    (fun ords p => dictating (p_n pp) w a p
       (deg_red dbg pp (p_n pp) p (ords 0%N) cT (x p) (masks p) r))
    (fun p => if p == 0%N then a else zipmap +%R (y p) (dr_out (masks p))).
Proof.
move=> new m0 Hm sx yK; apply: yields_prog' => [|ords _]; first exact: n_gt0 new.
exact: (deg_red_dictated (pss_new_ok new) r dbg sx (degred_masks_ok new m0 Hm)).
Qed.

Lemma c74_king_d_msm (F : fftField) (T : lmodType F) dbg lam pp (cT : codec T) m
    (masks : nat -> msm_mask T) (bases : nat -> seq T) (scalars : nat -> seq F) w y a :
  pss_new F dbg (2 ^ lam) = Ok pp ->
  (forall p, (p < p_n pp)%N -> size (bases p) = m) ->
  (forall p, (p < p_n pp)%N -> size (scalars p) = m) ->
  (forall p, (0 < p < p_n pp)%N -> decode cT (w p) = Ok (y p)) ->
  yields (p_n pp) false
    (fun ords p => dictating (p_n pp) w a p
       (d_msm dbg pp (p_n pp) p (ords 0%N) cT (bases p) (scalars p) (masks p)))
    (fun p => if p == 0%N then a else y p + mm_out (masks p)).
Proof.
move=> new sb ss yK; apply: yields_prog' => [|ords _]; first exact: n_gt0 new.
exact: (d_msm_dictated (pss_new_ok new) masks dbg sb ss).
Qed.

Lemma c74_king_d_fft (F : fftField) dbg lam b pp dom (cF : codec F) rearrange masks
    (x : nat -> seq F) (r : rng F) w y a :
  pss_new F dbg (2 ^ lam) = Ok pp -> domain_new F (2 ^ (b + lam)) = Some dom ->
  fft_masks dbg pp rearrange 1 (d_gen dom) (2 ^ (b + lam)) masks ->
  (forall p, (p < p_n pp)%N -> size (x p) = (2 ^ b)%N) ->
  (forall p, (0 < p < p_n pp)%N -> decode (vec_codec cF) (w p) = Ok (y p)) ->
  yields (p_n pp) false
    (fun ords p => dictating (p_n pp) w a p
       (d_fft dbg pp (p_n pp) p (ords 0%N) cF (x p) (masks p) rearrange dom r))
    (fun p => if p == 0%N then a else zipmap +%R (y p) (fm_out (masks p))).
Proof.
move=> new Edom Hm sx yK; apply: yields_prog' => [|ords _]; first exact: n_gt0 new.
have El := pss_new_l new.
exact: (d_fft_dictated (pss_new_ok new) El Edom _ _ (fft_masks_ok new (dom_prim Edom) Hm) sx).
Qed.

Lemma c74_king_d_ifft (F : fftField) dbg lam b pp dom (cF : codec F) rearrange g masks
    (x : nat -> seq F) (r : rng F) w y a :
  pss_new F dbg (2 ^ lam) = Ok pp -> domain_new F (2 ^ (b + lam)) = Some dom ->
  fft_masks dbg pp rearrange g (d_gen_inv dom) (2 ^ (b + lam)) masks ->
  (forall p, (p < p_n pp)%N -> size (x p) = (2 ^ b)%N) ->
  (forall p, (0 < p < p_n pp)%N -> decode (vec_codec cF) (w p) = Ok (y p)) ->
  yields (p_n pp) false
    (fun ords p => dictating (p_n pp) w a p
       (d_ifft dbg pp (p_n pp) p (ords 0%N) cF (x p) (masks p) rearrange dom g r))
    (fun p => if p == 0%N then a else zipmap +%R (y p) (fm_out (masks p))).
Proof.
move=> new Edom Hm sx yK; apply: yields_prog' => [|ords _]; first exact: n_gt0 new.
have El := pss_new_l new.
exact: (d_ifft_dictated (pss_new_ok new) El Edom _ _ (fft_masks_ok new (dom_prim_inv Edom) Hm) sx).
Qed.
