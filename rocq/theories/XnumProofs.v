(** Facts about [xnum] and [argmax]. *)
Set Warnings "-notation-overridden,-ambiguous-paths".
From mathcomp Require Import all_ssreflect all_algebra.
From Verif Require Import Py Xnum.
Set Implicit Arguments. Unset Strict Implicit. Unset Printing Implicit Defensive.
Import Order.Theory GRing.Theory Num.Theory.
Local Open Scope ring_scope.

Section XnumProofs.
Variable R : realFieldType.
Notation xnum := (xnum R).
Implicit Types (x y z : xnum) (s : seq xnum).

Lemma xltNge x y : ~~ isnan x -> ~~ isnan y -> xlt x y = ~~ xle y x.
Proof. by case: x y => [a| | |] [b| | |] //= _ _; rewrite ltNge. Qed.
Lemma xlexx x : ~~ isnan x -> xle x x.
Proof. by case: x => [a| | |] //=. Qed.
Lemma xltW x y : xlt x y -> xle x y.
Proof. by case: x y => [a| | |] [b| | |] //=; apply: ltW. Qed.
Lemma xle_trans y x z : xle x y -> xle y z -> xle x z.
Proof. by case: x y z => [a| | |] [b| | |] [c| | |] //=; apply: le_trans. Qed.
Lemma xlt_le_trans y x z : xlt x y -> xle y z -> xlt x z.
Proof. by case: x y z => [a| | |] [b| | |] [c| | |] //=; apply: lt_le_trans. Qed.
Lemma xle_lt_trans y x z : xle x y -> xlt y z -> xlt x z.
Proof. by case: x y z => [a| | |] [b| | |] [c| | |] //=; apply: le_lt_trans. Qed.
Lemma xltxx x : xlt x x = false.
Proof. by case: x => //= a; rewrite ltxx. Qed.

Notation nthx := (nth (NaN : xnum)).

(** [m] is the index numpy's argmax returns: the first NaN if there is one, otherwise
    the first of the largest values. *)
Definition first_max s (m : nat) : Prop :=
  [/\ (m < size s)%N, forall i, (i < size s)%N -> xle (nthx s i) (nthx s m)
    & forall i, (i < m)%N -> xlt (nthx s i) (nthx s m)].
Definition first_nan s (m : nat) : Prop :=
  [/\ (m < size s)%N, isnan (nthx s m) & forall i, (i < m)%N -> ~~ isnan (nthx s i)].

Lemma am_loopP pre s best b : ~~ has (@isnan R) pre -> (best < size pre)%N ->
  nthx pre best = b -> (forall i, (i < size pre)%N -> xle (nthx pre i) b) ->
  (forall i, (i < best)%N -> xlt (nthx pre i) b) ->
  let m := am_loop (size pre) best b s in
  if has (@isnan R) s then first_nan (pre ++ s) m else first_max (pre ++ s) m.
Proof.
elim: s pre best b => [|x s ih] pre best b npre hb eb hle hlt /=.
  rewrite cats0; split=> //; first by move=> i /hle; rewrite eb.
  by move=> i /hlt; rewrite eb.
case nx: (isnan x) => /=.
  split; rewrite ?size_cat ?nth_cat ?ltnn ?subnn /= //.
    by rewrite addnS ltnS leq_addr.
  move=> i hi; rewrite nth_cat hi; apply/negP => h; case/negP: npre.
  by apply/(has_nthP NaN); exists i.
have n' : ~~ has (@isnan R) (rcons pre x) by rewrite has_rcons negb_or nx npre.
have nb : ~~ isnan b.
  apply/negP => h; case/negP: npre; by apply/(has_nthP NaN); exists best; rewrite ?eb.
rewrite -cat_rcons -(size_rcons pre x).
case bx: (xlt b x).
- have := ih (rcons pre x) (size pre) x; cbv zeta; apply=> //.
  + by rewrite size_rcons.
  + by rewrite nth_rcons ltnn eqxx.
  + move=> i; rewrite size_rcons ltnS leq_eqVlt nth_rcons => /orP [/eqP ->|hi].
      by rewrite ltnn eqxx xlexx ?nx.
    by rewrite hi; apply: xle_trans (hle _ hi) (xltW bx).
  + by move=> i hi; rewrite nth_rcons hi; apply: xle_lt_trans (hle _ hi) bx.
- have xb : xle x b by move/negbT: bx; rewrite xltNge ?nx // negbK.
  have := ih (rcons pre x) best b; cbv zeta; apply=> //.
  + by rewrite size_rcons ltnW.
  + by rewrite nth_rcons hb.
  + move=> i; rewrite size_rcons ltnS leq_eqVlt nth_rcons => /orP [/eqP ->|hi].
      by rewrite ltnn eqxx.
    by rewrite hi; apply: hle.
  + by move=> i hi; rewrite nth_rcons (ltn_trans hi hb); apply: hlt.
Qed.

Lemma argmaxP s m : argmax s = Ok m ->
  if has (@isnan R) s then first_nan s m else first_max s m.
Proof.
case: s => [//|x s] /= [<-]; case nx: (isnan x) => /=.
  by split.
have := @am_loopP [:: x] s 0 x; rewrite /= orbF nx; apply=> //.
by case=> //= _; apply: xlexx; rewrite nx.
Qed.

Lemma first_max_uniq s m m' : first_max s m -> first_max s m' -> m = m'.
Proof.
move=> [h1 h2 h3] [h1' h2' h3']; case: (ltngtP m m') => // lt.
  have := h3' _ lt; have := h2 _ h1'; move=> a b.
  by have := xle_lt_trans a b; rewrite xltxx.
have := h3 _ lt; have := h2' _ h1; move=> a b.
by have := xle_lt_trans a b; rewrite xltxx.
Qed.
Lemma first_nan_uniq s m m' : first_nan s m -> first_nan s m' -> m = m'.
Proof.
move=> [_ h2 h3] [_ h2' h3']; case: (ltngtP m m') => // lt.
  by have := h3' _ lt; rewrite h2.
by have := h3 _ lt; rewrite h2'.
Qed.

Lemma argmax_ok s : is_ok (argmax s) = (0 < size s)%N.
Proof. by case: s. Qed.

Lemma first_max_nonan s m : first_max s m -> ~~ has (@isnan R) s.
Proof.
move=> [_ h _]; apply/(has_nthP NaN) => -[i hi].
by have := h _ hi; case: (nthx s i).
Qed.
Lemma first_nan_nan s m : first_nan s m -> has (@isnan R) s.
Proof. by move=> [h1 h2 _]; apply/(has_nthP NaN); exists m. Qed.

Lemma argmax_max s m : first_max s m -> argmax s = Ok m.
Proof.
move=> h; have := argmax_ok s; have [h1 _ _] := h; rewrite (leq_ltn_trans _ h1) //.
case E: (argmax s) => [m'|//] _; congr Ok.
have := argmaxP E; rewrite (negbTE (first_max_nonan h)) => h'.
exact: first_max_uniq h' h.
Qed.
Lemma argmax_nan s m : first_nan s m -> argmax s = Ok m.
Proof.
move=> h; have := argmax_ok s; have [h1 _ _] := h; rewrite (leq_ltn_trans _ h1) //.
case E: (argmax s) => [m'|//] _; congr Ok.
have := argmaxP E; rewrite (first_nan_nan h) => h'.
exact: first_nan_uniq h' h.
Qed.

(** argmax does not see a map preserving the order and NaN. *)
Lemma argmax_map (f : xnum -> xnum) s :
  (forall x, isnan (f x) = isnan x) -> (forall x y, xlt (f x) (f y) = xlt x y) ->
  argmax [seq f x | x <- s] = argmax s.
Proof.
move=> fn fl.
have gen : forall s i j x, am_loop i j (f x) [seq f x | x <- s] = am_loop i j x s; last first.
  by case: s => [//|x s] /=; rewrite fn gen.
elim=> [//|y t ih] i j x /=; rewrite fn fl.
by case: ifP => // _; case: ifP => _; apply: ih.
Qed.

Lemma argmax_map_in (P : pred xnum) (f : xnum -> xnum) s : all P s ->
  (forall x, P x -> isnan (f x) = isnan x) ->
  (forall x y, P x -> P y -> xlt (f x) (f y) = xlt x y) ->
  argmax [seq f x | x <- s] = argmax s.
Proof.
move=> ps fn fl.
have gen : forall s i j x, P x -> all P s -> am_loop i j (f x) [seq f x | x <- s] = am_loop i j x s; last first.
  by case: s ps => [//|x s] /= /andP [px ps]; rewrite fn // gen.
elim=> [//|y t ih] i j x px /= /andP [py pt]; rewrite fn // fl //.
by case: ifP => // _; case: ifP => _; apply: ih.
Qed.

Lemma scalePInf (c : R) : 0 < c -> xmul (Fin c) PInf = PInf.
Proof. by rewrite /= /xinf => ->. Qed.
Lemma scaleNInf (c : R) : 0 < c -> xmul (Fin c) NInf = NInf.
Proof. by move=> c0; rewrite /= /xinf oppr_gt0 oppr_lt0 c0 ltNge ltW. Qed.

Lemma isnan_scale c x : 0 < c -> isnan (xmul (Fin c) x) = isnan x.
Proof. by move=> c0; case: x => [a| | |]; rewrite ?scalePInf ?scaleNInf. Qed.

Lemma xlt_scale c x y : 0 < c -> xlt (xmul (Fin c) x) (xmul (Fin c) y) = xlt x y.
Proof.
move=> c0; have pp := scalePInf c0; have nn := scaleNInf c0.
by case: x y => [a| | |] [b| | |]; rewrite ?pp ?nn //= ltr_pmul2l.
Qed.

Lemma argmax_scale c s : 0 < c -> argmax [seq xmul (Fin c) x | x <- s] = argmax s.
Proof. by move=> c0; apply: argmax_map => *; rewrite ?isnan_scale ?xlt_scale. Qed.

Lemma xmulC x y : xmul x y = xmul y x.
Proof. by case: x y => [a| | |] [b| | |] //=; rewrite mulrC. Qed.

Lemma xinf_scale (c a : R) : 0 < c -> xinf (c * a) = xinf a.
Proof. by move=> c0; rewrite /xinf pmulr_rgt0 // pmulr_rlt0. Qed.

Lemma xmul_scaleA c x y : 0 < c -> xmul (xmul (Fin c) x) y = xmul (Fin c) (xmul x y).
Proof.
move=> c0; have pp := scalePInf c0; have nn := scaleNInf c0.
have si a : xmul (Fin c) (xinf a) = xinf a.
  by rewrite /xinf; case: ifP => _; [rewrite pp | case: ifP => _; rewrite ?nn].
have cN : c < 0 = false by rewrite ltNge ltW.
case: x y => [a| | |] [b| | |]; rewrite ?pp ?nn //=.
all: rewrite ?mulrA -?mulrN ?xinf_scale //.
all: by rewrite -?[LHS]si // -/(xmul (Fin c) _) ?si ?pp ?nn /xinf ?c0 ?cN ?oppr_gt0 ?oppr_lt0 ?c0 ?cN.
Qed.

End XnumProofs.
