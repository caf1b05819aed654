(** Singular values of symmetric positive semidefinite matrices: they are the eigenvalues, and
    bounds of the quadratic form on subspaces bound them (Courant-Fischer). *)
Set Warnings "-notation-overridden,-ambiguous-paths".
From mathcomp Require Import all_ssreflect all_algebra.
From mathcomp Require Import zify.
From Verif Require Import Spec LinAlg.
Set Implicit Arguments. Unset Strict Implicit. Unset Printing Implicit Defensive.
Import Order.Theory GRing.Theory Num.Theory.
Local Open Scope ring_scope.

Section Eig.
Variable R : rcfType.

(** ** Specification of scipy.linalg.svdvals *)
(** The list s, in decreasing order and not negative, are the singular values of the square
    matrix U: U = V diag(s) W with V and W orthogonal. *)
Definition singular_values n (U : 'M[R]_n) (s : seq R) : Prop :=
  [/\ size s = n, sorted (fun x y => y <= x) s, all (fun x => 0 <= x) s &
      exists V W : 'M[R]_n, [/\ V *m V^T = 1%:M, W *m W^T = 1%:M & U = V *m diag_mx (\row_j nth 0 s j) *m W]].
(** The eigenvectors: U V = V diag(s) with V orthogonal. *)
Definition eigen n (U V : 'M[R]_n) (s : seq R) : Prop :=
  V *m V^T = 1%:M /\ forall i : 'I_n, U *m col i V = nth 0 s i *: col i V.

Lemma sqnorm_ge0 n (u : 'cV[R]_n) : 0 <= sqnorm u.
Proof. by apply: sumr_ge0 => i _; rewrite -expr2 sqr_ge0. Qed.
Lemma sqnorm_eq0P n (u : 'cV[R]_n) : sqnorm u = 0 -> u = 0.
Proof.
move=> h; apply/colP => i; rewrite mxE; apply/eqP; rewrite -sqrf_eq0 expr2.
by apply/eqP; apply: (psumr_eq0P _ h) => // j _; rewrite -expr2 sqr_ge0.
Qed.
Lemma sqnormE n (u : 'cV[R]_n) : sqnorm u = (u^T *m u) 0 0.
Proof. by rewrite mxE; apply: eq_bigr => i _; rewrite mxE. Qed.
Lemma sqnorm_gt0 n (u : 'cV[R]_n) : u != 0 -> 0 < sqnorm u.
Proof. by move=> u0; rewrite lt0r sqnorm_ge0 andbT; apply: contraNneq u0 => /sqnorm_eq0P ->. Qed.

(** For a positive semidefinite matrix the columns of V are eigenvectors. *)
Lemma psd_eigen n (U : 'M[R]_n) s : psd U -> singular_values U s -> exists V, eigen U V s.
Proof.
case=> sU pU [ss _ hs [V [W [hV hW eU]]]]; exists V; split=> // i.
set D := diag_mx _ in eU; set v := col i V; set c := nth 0 s i.
have c0 : 0 <= c by apply: (allP hs); apply: mem_nth; rewrite ss.
have hV' : V^T *m V = 1%:M by apply: mulmx1C.
have hU : U *m (U *m v) = (c ^+ 2) *: v.
  have UU : U *m U = V *m (D *m D) *m V^T.
    by rewrite -{2}sU eU !trmx_mul tr_diag_mx !mulmxA -[V *m D *m W *m W^T]mulmxA hW mulmx1 -[V *m D *m D]mulmxA.
  rewrite mulmxA UU /v colE -[V *m _ *m V^T *m _]mulmxA [V^T *m _]mulmxA hV' mul1mx -mulmxA.
  have -> : D *m D *m delta_mx i 0 = c ^+ 2 *: (delta_mx i 0 : 'cV_n).
    apply/colP => j; rewrite -mulmxA /D 2!mul_diag_mx !mxE mulrA; case: eqP => [->|_]; last by rewrite !mulr0.
    by rewrite expr2.
  by rewrite -scalemxAr.
case: (eqVneq c 0) => [z0|cn].
  rewrite z0 scale0r; apply: sqnorm_eq0P; rewrite sqnormE trmx_mul sU mulmxA.
  by rewrite -[v^T *m U *m U]mulmxA -[v^T *m _ *m v]mulmxA -mulmxA hU z0 expr0n scale0r mulmx0 mxE.
pose w := U *m v - c *: v.
have hw : U *m w = - c *: w.
  by rewrite /w mulmxBr hU -scalemxAr scaleNr scalerBr scalerA opprB expr2.
have q : quad U w = - c * sqnorm w.
  by rewrite /quad -mulmxA hw -scalemxAr mxE sqnormE.
have := pU w; rewrite q mulNr oppr_ge0 pmulr_rle0 ?lt0r ?cn // => h.
have /sqnorm_eq0P/eqP : sqnorm w = 0 by apply/eqP; rewrite eq_le h sqnorm_ge0.
by rewrite /w subr_eq0 => /eqP.
Qed.

(** In the coordinates of the eigenvectors. *)
Lemma eigen_quad n (U V : 'M[R]_n) s (x : 'cV[R]_n) : eigen U V s ->
  quad U x = \sum_(i < n) nth 0 s i * (V^T *m x) i 0 ^+ 2 /\ sqnorm x = \sum_(i < n) (V^T *m x) i 0 ^+ 2.
Proof.
case=> hV hc; set y := V^T *m x.
have ex : x = V *m y by rewrite /y mulmxA hV mul1mx.
have hV' : V^T *m V = 1%:M by apply: mulmx1C.
have UV : U *m V = V *m diag_mx (\row_j nth 0 s j).
  apply/matrixP => i j; have e : col j (U *m V) = nth 0 s j *: col j V by rewrite -hc !colE mulmxA.
  have -> : (U *m V) i j = col j (U *m V) i 0 by rewrite [RHS]mxE.
  by rewrite e mul_mx_diag !mxE mulrC.
split.
  rewrite /quad ex trmx_mul -!mulmxA [U *m _]mulmxA UV -!mulmxA [V^T *m _]mulmxA hV' mul1mx mul_diag_mx mxE.
  by apply: eq_bigr => i _; rewrite !mxE mulrC expr2 -mulrA.
rewrite sqnormE {1 2}ex trmx_mul -!mulmxA [V^T *m _]mulmxA hV' mul1mx mxE.
by apply: eq_bigr => i _; rewrite !mxE expr2.
Qed.

Lemma sorted_le s i j : sorted (fun x y : R => y <= x) s -> (i <= j < size s)%N -> nth 0 s j <= nth 0 s i.
Proof.
move=> hs /andP [ij js]; apply: (sorted_leq_nth (leT := fun x y : R => y <= x)) => //.
- by move=> a b c h1 h2; apply: le_trans h2 h1.
- by rewrite inE (leq_ltn_trans ij js).
Qed.

Lemma quad_top n (U V : 'M[R]_n) s j (x : 'cV[R]_n) : size s = n -> sorted (fun x y => y <= x) s -> eigen U V s -> (j < n)%N ->
  (forall i : 'I_n, (j < i)%N -> (V^T *m x) i 0 = 0) -> nth 0 s j * sqnorm x <= quad U x.
Proof.
move=> ss hs he jn h; have [-> ->] := eigen_quad x he; rewrite mulr_sumr; apply: ler_sum => i _.
case: (leqP i j) => ij; last by rewrite h // expr0n !mulr0.
by apply: ler_wpmul2r; [exact: sqr_ge0 | apply: sorted_le; rewrite ?ij ?ss].
Qed.
Lemma quad_bottom n (U V : 'M[R]_n) s j (x : 'cV[R]_n) : size s = n -> sorted (fun x y => y <= x) s -> eigen U V s -> (j < n)%N ->
  (forall i : 'I_n, (i < j)%N -> (V^T *m x) i 0 = 0) -> quad U x <= nth 0 s j * sqnorm x.
Proof.
move=> ss hs he jn h; have [-> ->] := eigen_quad x he; rewrite mulr_sumr; apply: ler_sum => i _.
case: (leqP j i) => ij; last by rewrite h // expr0n !mulr0.
by apply: ler_wpmul2r; [exact: sqr_ge0 | apply: sorted_le; rewrite ?ij ?ss ?ltn_ord].
Qed.

(** Fewer equations than unknowns have a solution that is not zero. *)
Lemma solution m n (M : 'M[R]_(m, n)) : (m < n)%N -> exists2 x : 'cV[R]_n, x != 0 & M *m x = 0.
Proof.
move=> mn; have : kermx M^T != 0.
  rewrite kermx_eq0 /row_free; apply: contraTneq mn => e; rewrite -leqNgt -e.
  exact: rank_leq_col.
case/rowV0Pn => v /sub_kermxP hv v0; exists v^T; first by rewrite -trmx0 (inj_eq trmx_inj).
by apply: trmx_inj; rewrite trmx_mul trmxK hv trmx0.
Qed.

(** ** Bounds on singular values *)
(** Monotone: a larger matrix has larger singular values. *)
Theorem singular_monotone n (U U' : 'M[R]_n) s s' j : psd U -> psd U' -> singular_values U s -> singular_values U' s' ->
  (forall x, quad U' x <= quad U x) -> (j < n)%N -> nth 0 s' j <= nth 0 s j.
Proof.
case: n U U' => [//|n] U U' pU pU' hs hs' le jn.
have [V eV] := psd_eigen pU hs; have [V' eV'] := psd_eigen pU' hs'.
have [ss os _ _] := hs; have [ss' os' _ _] := hs'.
pose M : 'M[R]_(n, n.+1) := \matrix_(i, k) if (i < j)%N then V^T (inord i) k else V'^T (inord i.+1) k.
have [x x0 hx] := @solution _ _ M (ltnSn n).
have b1 : quad U x <= nth 0 s j * sqnorm x.
  apply: (quad_bottom ss os eV) => // i ij; have hi : (i < n)%N by apply: leq_trans ij _; rewrite -ltnS.
  have /colP/(_ (Ordinal hi)) := hx; rewrite !mxE => e; rewrite -[RHS]e; apply: eq_bigr => k _.
  by rewrite !mxE /= ij inord_val.
have b2 : nth 0 s' j * sqnorm x <= quad U' x.
  apply: (quad_top ss' os' eV') => // i ij; have hi : (i.-1 < n)%N by have := ltn_ord i; case: (nat_of_ord i) ij.
  have /colP/(_ (Ordinal hi)) := hx; rewrite !mxE => e; rewrite -[RHS]e; apply: eq_bigr => k _.
  have i0 : (0 < i)%N by apply: leq_ltn_trans ij.
  by rewrite !mxE /= prednK // inord_val leqNgt ij.
rewrite -(ler_pmul2r (sqnorm_gt0 x0)); exact: le_trans b2 (le_trans (le x) b1).
Qed.

(** A matrix B with q independent columns on whose range the form is at most c: the last q
    singular values are at most c. *)
Theorem singular_upper n q (U : 'M[R]_n) s (B : 'M[R]_(n, q)) c j : psd U -> singular_values U s ->
  (forall z : 'cV[R]_q, B *m z = 0 -> z = 0) -> (forall z, quad U (B *m z) <= c * sqnorm (B *m z)) ->
  (n - q <= j < n)%N -> nth 0 s j <= c.
Proof.
case: n U B => [|n] U B pU hs fB le /andP [jq jn] //; have [V eV] := psd_eigen pU hs; have [ss os _ _] := hs.
pose M : 'M[R]_(n.+1 - j.+1, q) := \matrix_(i, k) (V^T *m B) (inord (j.+1 + i)) k.
have hq : (n.+1 - j.+1 < q)%N by lia.
have [z z0 hz] := @solution _ _ M hq.
have x0 : B *m z != 0 by apply: contraNneq z0 => /fB ->.
rewrite -(ler_pmul2r (sqnorm_gt0 x0)); apply: le_trans (le z); apply: (quad_top ss os eV) => // i ij.
have hi : (i - j.+1 < n.+1 - j.+1)%N by have := ltn_ord i; lia.
have /colP/(_ (Ordinal hi)) := hz; rewrite [LHS]mxE [RHS]mxE => e.
rewrite mulmxA [LHS]mxE -[RHS]e; apply: eq_bigr => k _; congr (_ * _).
by rewrite [RHS]mxE /= subnKC // inord_val.
Qed.

(** A matrix P with q rows such that the form is at least c on its kernel: all but the last q
    singular values are at least c. *)
Theorem singular_lower n q (U : 'M[R]_n) s (P : 'M[R]_(q, n)) c j : psd U -> singular_values U s ->
  (forall x : 'cV[R]_n, P *m x = 0 -> c * sqnorm x <= quad U x) -> (j < n - q)%N -> c <= nth 0 s j.
Proof.
case: n U P => [//|n] U P pU hs le jq; have [V eV] := psd_eigen pU hs; have [ss os _ _] := hs.
pose M : 'M[R]_(q + j, n.+1) := col_mx P (\matrix_(i, k) V^T (inord i) k).
have [x x0 hx] := @solution _ _ M ltac:(lia).
have [h1 h2] : P *m x = 0 /\ (\matrix_(i < j, k < n.+1) V^T (inord i) k) *m x = 0.
  by move: hx; rewrite /M mul_col_mx -[0]vsubmxK => /eq_col_mx [-> ->]; rewrite !linear0.
rewrite -(ler_pmul2r (sqnorm_gt0 x0)); apply: le_trans (le x h1) _; apply: (quad_bottom ss os eV) => //; first by lia.
move=> i ij; have /colP/(_ (Ordinal ij)) := h2; rewrite !mxE => e; rewrite -[RHS]e; apply: eq_bigr => k _.
by rewrite !mxE /= inord_val.
Qed.

(** Positive definite: no singular value is zero. *)
Theorem singular_pos n (U : 'M[R]_n) s j : posdef U -> singular_values U s -> (j < n)%N -> 0 < nth 0 s j.
Proof.
move=> pU hs jn; have [V eV] := psd_eigen (posdef_psd pU) hs; case: (pU) => _ pos.
pose i := Ordinal jn; have [hV hc] := eV.
have v0 : col i V != 0.
  apply/eqP => e; have hV' : V^T *m V = 1%:M by apply: mulmx1C.
  have := congr1 (fun M : 'M[R]_n => M i i) hV'; rewrite !mxE eqxx => h.
  suff : (1 : R) == 0 by rewrite oner_eq0.
  rewrite -[1]/(true%:R) -h big1 // => k _; have /colP/(_ k) := e; rewrite !mxE => ->; by rewrite mulr0.
have := pos _ v0; rewrite /quad -mulmxA hc -scalemxAr mxE -sqnormE pmulr_lgt0 // sqnorm_gt0 //.
Qed.
End Eig.
