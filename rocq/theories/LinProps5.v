(** Further properties of the linear solvers: C75-C81. *)
Set Warnings "-notation-overridden,-ambiguous-paths".
From mathcomp Require Import all_ssreflect all_algebra.
From mathcomp.algebra_tactics Require Import ring.
From Coq Require Import String.
From Verif Require Import Py Nd Spec LinAlg Dmx DmxProofs LgpModel LgpTheory LgpProofs
  LinProps LinProps4.
Set Implicit Arguments. Unset Strict Implicit. Unset Printing Implicit Defensive.
Import Order.Theory GRing.Theory Num.Theory.
Local Open Scope ring_scope.

Section Theory.
Variable R : realFieldType.

(** C75 *)
Lemma mud_idem m n (A : 'M[R]_(m, n)) b y mu C C2 : posdef C -> posdef C2 ->
  mudx A b y (mudx A b y mu C) C2 = mudx A b y mu C.
Proof.
move=> pC pC2; set z := mudx A b y mu C; rewrite /mudx -[RHS]addr0; congr (_ + _).
have nz : A^T *m (A *m z + b - y) = 0 := mud_normal A b y mu pC.
have nr : A^T *m resid A b y z = 0.
  have -> : resid A b y z = - (A *m z + b - y).
    by rewrite residE opprB opprD [- (A *m z) + _]addrC addrA.
  by rewrite mulmxN nz oppr0.
rewrite gainE.
have sC2 : C2^T = C2 by case: pC2.
have sP := predcov_sym A sC2.
have [_ p2 _ _] := pinvP (predcov A C2).
have -> : pinv (predcov A C2)
   = pinv (predcov A C2) *m pinv (predcov A C2) *m predcov A C2.
  by rewrite -mulmxA predcov_comm // mulmxA p2.
by rewrite -!mulmxA predcovE -!mulmxA nr !mulmx0.
Qed.

Lemma quad_scalev n (P : 'M[R]_n) c u : quad P (c *: u) = c ^+ 2 * quad P u.
Proof.
have e : (c *: u)^T = c *: u^T by apply/matrixP=> i j; rewrite !mxE.
by rewrite /quad e -!scalemxAl -scalemxAr scalerA mxE expr2.
Qed.

(** Cauchy-Schwarz for a positive definite form and its inverse. *)
Lemma gen_CS n (P : 'M[R]_n) u v : posdef P ->
  ((u^T *m v) 0 0) ^+ 2 <= quad P u * quad (invmx P) v.
Proof.
move=> pP; have [sP _] := pP; have uP := posdef_unit pP; have pI := posdef_inv pP.
set s := (u^T *m v) 0 0; set q := quad (invmx P) v.
have q0 : 0 <= q by exact: posdef_quad.
case: (eqVneq q 0) => [qz|qn].
  have v0 := posdef_quad_eq0 pI qz.
  by rewrite /s v0 mulmx0 mxE expr0n qz mulr0.
have qp : 0 < q by rewrite lt0r qn.
have : 0 <= quad P (u + - (s / q) *: (invmx P *m v)) by exact: posdef_quad.
rewrite quad_addv //.
have -> : quad P (- (s / q) *: (invmx P *m v)) = (s / q) ^+ 2 * q.
  rewrite quad_scalev sqrrN; congr (_ * _); rewrite /quad.
  have [sI _] := pI; rewrite trmx_mul sI -!mulmxA (mulmxA P) mulmxV // mul1mx.
  by rewrite /q /quad !mulmxA.
have -> : (u^T *m P *m (- (s / q) *: (invmx P *m v))) 0 0 = - (s / q) * s.
  by rewrite -scalemxAr mxE -mulmxA (mulmxA P) mulmxV // mul1mx.
have -> : quad P u + (- (s / q) * s) *+ 2 + (s / q) ^+ 2 * q = quad P u - s ^+ 2 / q.
  by field.
by rewrite subr_ge0 ler_pdivr_mulr.
Qed.

Lemma sqnorm_bound n (P : 'M[R]_n) : posdef P ->
  exists2 c, 0 <= c & forall w, sqnorm w <= c * quad P w.
Proof.
move=> pP; have pI := posdef_inv pP.
exists (\sum_i quad (invmx P) (delta_mx i 0)).
  by apply: sumr_ge0 => i _; exact: posdef_quad.
move=> w; rewrite /sqnorm /dotv mulr_suml; apply: ler_sum => i _.
have -> : w i 0 = (w^T *m (delta_mx i 0 : 'cV_n)) 0 0.
  by rewrite -colE !mxE.
by rewrite -expr2 mulrC; exact: gen_CS.
Qed.

Lemma sqnorm_mul m n (M : 'M[R]_(m, n)) :
  exists2 c, 0 <= c & forall w : 'cV[R]_n, sqnorm (M *m w) <= c * sqnorm w.
Proof.
exists (\sum_i sqnorm (row i M)^T); first by apply: sumr_ge0 => i _; exact: sqnorm_ge0.
move=> w; rewrite {1}/sqnorm /dotv mulr_suml; apply: ler_sum => i _.
have := @gen_CS n 1%:M (row i M)^T w (posdef1 R n); rewrite invmx1 !quad1 trmxK.
have -> : (row i M *m w) 0 0 = (M *m w) i 0 by rewrite -row_mul mxE.
by rewrite -expr2.
Qed.

(** The MAP residual vector [w = (alpha P + S)^-1 r]. *)
Lemma mapx_kalman m n (A : 'M[R]_(m, n)) b y mu C S : posdef C -> posdef S ->
  mapx A b y mu C S
  = mu + C *m A^T *m (invmx (predcov A C + S) *m resid A b y mu).
Proof. by move=> pC pS; rewrite /mapx kalman_gain // !mulmxA. Qed.

Lemma predcovZ m n (A : 'M[R]_(m, n)) C a : predcov A (a *: C) = a *: predcov A C.
Proof. by rewrite !predcovE -scalemxAr -scalemxAl. Qed.

Lemma map_to_mud m n (A : 'M[R]_(m, n)) b y mu C S : row_free A -> posdef C -> posdef S ->
  exists2 K, 0 <= K & forall al, 0 < al ->
    sqnorm (mapx A b y mu (al *: C) S - mudx A b y mu C) * al ^+ 2 <= K.
Proof.
move=> fA pC pS; set P := predcov A C; have pP : posdef P by exact: predcov_posdef.
have uP := posdef_unit pP.
set r := resid A b y mu.
have [c1 c10 h1] := sqnorm_mul (gain A C *m S).
have [c2 c20 h2] := sqnorm_bound pP.
have q0 : 0 <= quad (invmx P) r by exact/posdef_quad/posdef_inv.
exists (c1 * (c2 * quad (invmx P) r)); first by rewrite !mulr_ge0.
move=> al a0; have a0' : al != 0 by rewrite gt_eqF.
have pC' := posdefZ a0 pC.
set G := predcov A (al *: C) + S.
have uG : G \in unitmx by exact: kalman_unit.
set w := invmx G *m r.
have GE : G = al *: P + S by rewrite /G predcovZ.
have rw : r = al *: (P *m w) + S *m w.
  by rewrite scalemxAl -mulmxDl -GE /w mulmxA mulmxV // mul1mx.
have gE : gain A C = C *m A^T *m invmx P by rewrite gainE pinv_unit.
have e : mapx A b y mu (al *: C) S - mudx A b y mu C = - (gain A C *m S *m w).
  rewrite mapx_kalman // -/G -/r -/w /mudx -/r opprD addrACA subrr add0r.
  rewrite {1}rw mulmxDr opprD -!scalemxAl.
  have -> : gain A C *m (al *: (P *m w)) = al *: (C *m A^T *m w).
    by rewrite -scalemxAr gE -!mulmxA (mulmxA _ P) mulVmx // mul1mx.
  by rewrite addrA subrr add0r mulmxA.
have -> : sqnorm (mapx A b y mu (al *: C) S - mudx A b y mu C) = sqnorm (gain A C *m S *m w).
  by rewrite e -!quad1 quadNv.
clearbody w; have wb : quad P w * al ^+ 2 <= quad (invmx P) r.
  have w0 : 0 <= quad P w by exact: posdef_quad.
  case: (eqVneq (quad P w) 0) => [->|wn]; first by rewrite mul0r.
  have wp : 0 < quad P w by rewrite lt0r wn.
  have cs := gen_CS w r pP.
  have le : al * quad P w <= (w^T *m r) 0 0.
    rewrite rw mulmxDr -scalemxAr !mulmxA mxDE mxZE -/(quad P w) -/(quad S w).
    by rewrite ler_addl; exact: posdef_quad.
  have : (al * quad P w) ^+ 2 <= quad P w * quad (invmx P) r.
    apply: le_trans cs; rewrite ler_expn2r // nnegrE; first by rewrite mulr_ge0 // ltW.
    by apply: le_trans le; rewrite mulr_ge0 // ltW.
  rewrite exprMn [X in X <= _]mulrC {1}expr2 -mulrA ler_pmul2l //.
have a2 : 0 <= al ^+ 2 by exact: sqr_ge0.
apply: (le_trans (ler_wpmul2r a2 (h1 w))); rewrite -mulrA ler_wpmul2l //.
apply: (le_trans (ler_wpmul2r a2 (h2 w))); rewrite -mulrA ler_wpmul2l //.
Qed.

Lemma map_to_mean m n (A : 'M[R]_(m, n)) b y mu C S : posdef C -> posdef S ->
  exists2 K, 0 <= K & forall al, 0 < al ->
    sqnorm (mapx A b y mu (al *: C) S - mu) <= K * al ^+ 2.
Proof.
move=> pC pS; set P := predcov A C.
set r := resid A b y mu.
have [c1 c10 h1] := sqnorm_mul (C *m A^T).
have [c2 c20 h2] := sqnorm_bound pS.
have q0 : 0 <= quad (invmx S) r by exact/posdef_quad/posdef_inv.
exists (c1 * (c2 * quad (invmx S) r)); first by rewrite !mulr_ge0.
move=> al a0; have pC' := posdefZ a0 pC.
set G := predcov A (al *: C) + S.
have uG : G \in unitmx by exact: kalman_unit.
set w := invmx G *m r.
have GE : G = al *: P + S by rewrite /G predcovZ.
have rw : r = al *: (P *m w) + S *m w.
  by rewrite scalemxAl -mulmxDl -GE /w mulmxA mulmxV // mul1mx.
have P0 : 0 <= quad P w.
  by rewrite /P predcovE; case: (psd_sandwich A (posdef_psd pC)).
have -> : mapx A b y mu (al *: C) S - mu = al *: (C *m A^T *m w).
  by rewrite mapx_kalman // -/G -/r -/w addrC addrA addNr add0r -!scalemxAl.
rewrite -quad1 quad_scalev quad1 mulrC ler_wpmul2r ?sqr_ge0 //.
clearbody w; have wb : quad S w <= quad (invmx S) r.
  have w0 : 0 <= quad S w by exact: posdef_quad.
  case: (eqVneq (quad S w) 0) => [->|wn] //.
  have wp : 0 < quad S w by rewrite lt0r wn.
  have cs := gen_CS w r pS.
  have le : quad S w <= (w^T *m r) 0 0.
    rewrite rw mulmxDr -scalemxAr !mulmxA mxDE mxZE -/(quad P w) -/(quad S w).
    by rewrite ler_addr mulr_ge0 // ltW.
  have : (quad S w) ^+ 2 <= quad S w * quad (invmx S) r.
    apply: le_trans cs; rewrite ler_expn2r // nnegrE //.
    by apply: le_trans le.
  by rewrite {1}expr2 ler_pmul2l.
apply: (le_trans (h1 w)); rewrite ler_wpmul2l //.
by apply: (le_trans (h2 w)); rewrite ler_wpmul2l.
Qed.

(** Sequential updates. *)
Lemma bayes_recenter m n (A : 'M[R]_(m, n)) b y mu C S x : posdef C -> posdef S ->
  bayes_objective A b y mu C S x
  = bayes_objective A b y mu C S (mapx A b y mu C S)
    + quad (invmx (covp A C S)) (x - mapx A b y mu C S).
Proof.
move=> pC pS; rewrite (map_expand _ _ _ _ _ pC pS) /covp invmxK /precis quadD quad_mul.
by [].
Qed.
End Theory.

Section Props.
Variable R : realFieldType.

(** Solving again from a MUD point, with any prior covariance and alpha, stays there. *)
Theorem C75_mud_idempotent m n (p p2 : lgp R) (A : 'M[R]_(m, n)) b y mu C C2 al al2 x :
  inputs p A b y mu C al -> posdef C -> 0 < al -> answer p "mud" x ->
  inputs p2 A b y x C2 al2 -> posdef C2 -> 0 < al2 -> answer p2 "mud" x.
Proof.
move=> ip pC a0 ax ip2 pC2 a02.
rewrite (answer_inj ax (mud_answer ip a0)) in ip2 *.
by rewrite -(mud_idem A b y mu pC pC2); exact: (mud_answer ip2 a02).
Qed.

(** The posterior covariance never exceeds the updated covariance. *)
Theorem C76_posterior_below_updated m n (p : lgp R) (A : 'M[R]_(m, n)) b y mu C (S : 'M[R]_m) al :
  inputs p A b y mu C al -> lcovo p = Dmx S -> posdef C -> posdef S -> 0 < al ->
  exists U P : 'M[R]_n,
  [/\ l_up_cov (solve p "mud_alt" None).1 = Some (Dmx U),
      l_cov_p (solve p "map" None).1 = Some (Dmx P) & psd (U - P)].
Proof.
move=> ip eS pC pS a0; have pC' := posdefZ a0 pC; have eS' := truncate_none_co ip eS.
exists (upcov A (al *: C) S), (covp A (al *: C) S); split.
- by rewrite (solve_mud_altE ip eS' (posdef_unit pS)).
- rewrite (solve_mapE ip eS') //; try exact: posdef_unit.
  exact/posdef_unit/precis_posdef.
- exact: covp_le_upcov.
Qed.

(** MAP interpolates between the MUD point (alpha large) and the mean (alpha small). *)
Theorem C77_map_alpha_limits m n (A : 'M[R]_(m, n)) b y mu C (S : 'M[R]_m) :
  posdef C -> posdef S ->
  exists2 K, 0 <= K & forall (p : lgp R) al, inputs p A b y mu C al -> lcovo p = Dmx S ->
    0 < al ->
    exists x z : 'cV[R]_n, [/\ answer p "map" x, answer p "mud" z,
      sqnorm (x - mu) <= K * al ^+ 2
    & row_free A -> sqnorm (x - z) <= K / al ^+ 2].
Proof.
move=> pC pS; have [K1 K10 h1] := map_to_mean A b y mu pC pS.
have [K2 K20 h2] : exists2 K, 0 <= K & forall al, 0 < al -> row_free A ->
    sqnorm (mapx A b y mu (al *: C) S - mudx A b y mu C) * al ^+ 2 <= K.
  case: (boolP (row_free A)) => [fA|nf]; last by exists 0.
  by have [K K0 h] := map_to_mud b y mu fA pC pS; exists K => // al a0 _; exact: h.
exists (K1 + K2); first exact: addr_ge0.
move=> p al ip eS a0; exists (mapx A b y mu (al *: C) S), (mudx A b y mu C); split.
- exact: (map_answer ip eS pC pS a0).
- exact: (mud_answer ip a0).
- by apply: (le_trans (h1 al a0)); rewrite ler_wpmul2r ?sqr_ge0 // ler_addl.
- move=> fA; rewrite ler_pdivl_mulr; last by rewrite exprn_gt0.
  by apply: (le_trans (h2 al a0 fA)); rewrite ler_addr.
Qed.

(** A larger alpha fits the data at least as well and departs at least as far from
    the prior mean. *)
Theorem C78_map_monotone_in_alpha m n (p1 p2 : lgp R) (A : 'M[R]_(m, n)) b y mu C (S : 'M[R]_m)
    al1 al2 (x1 x2 : 'cV[R]_n) :
  inputs p1 A b y mu C al1 -> inputs p2 A b y mu C al2 ->
  lcovo p1 = Dmx S -> lcovo p2 = Dmx S -> posdef C -> posdef S -> 0 < al1 -> al1 < al2 ->
  answer p1 "map" x1 -> answer p2 "map" x2 ->
  quad (invmx S) (A *m x2 + b - y) <= quad (invmx S) (A *m x1 + b - y) /\
  mahal C mu x1 <= mahal C mu x2.
Proof.
move=> ip1 ip2 eS1 eS2 pC pS a1 a12 h1 h2; have a2 := lt_trans a1 a12.
have obj al x : 0 < al -> bayes_objective A b y mu (al *: C) S x
   = quad (invmx S) (A *m x + b - y) + al^-1 * mahal C mu x.
  move=> a0; rewrite /bayes_objective /mahal invmxZ' ?quadZ ?gt_eqF //.
  exact: posdef_unit.
have [m1 _] := @map_min _ _ _ A b y mu (al1 *: C) S x2 (posdefZ a1 pC) pS.
have [m2 _] := @map_min _ _ _ A b y mu (al2 *: C) S x1 (posdefZ a2 pC) pS.
rewrite -(answer_inj h1 (map_answer ip1 eS1 pC pS a1)) !obj // in m1.
rewrite -(answer_inj h2 (map_answer ip2 eS2 pC pS a2)) !obj // in m2.
move: m1 m2; set D1 := quad _ (A *m x1 + b - y); set D2 := quad _ (A *m x2 + b - y).
set Q1 := mahal C mu x1; set Q2 := mahal C mu x2 => m1 m2.
have i12 : al2^-1 < al1^-1 by rewrite ltf_pinv ?posrE.
have i2 : 0 < al2^-1 by rewrite invr_gt0.
have q : Q1 <= Q2.
  have := ler_add m1 m2; rewrite [D1 + _ + _]addrACA [D2 + al1^-1 * _ + _]addrACA.
  rewrite [D2 + D1]addrC ler_add2l -subr_ge0.
  have -> : al1^-1 * Q2 + al2^-1 * Q1 - (al1^-1 * Q1 + al2^-1 * Q2)
     = (al1^-1 - al2^-1) * (Q2 - Q1) by ring.
  by rewrite pmulr_rge0 ?subr_gt0 // subr_ge0.
split=> //; rewrite -(ler_add2r (al2^-1 * Q2)); apply: (le_trans m2).
by rewrite ler_add2l ler_pmul2l.
Qed.

(** Two independent blocks of data: solving for the first and feeding the result
    (map and cov_p) as the prior of the second is solving for both. *)
Theorem C79_sequential_map m1 m2 n (p1 p2 p12 : lgp R)
    (A1 : 'M[R]_(m1, n)) (A2 : 'M[R]_(m2, n)) b1 b2 y1 y2 mu C
    (S1 : 'M[R]_m1) (S2 : 'M[R]_m2) al (x1 : 'cV[R]_n) (P1 : 'M[R]_n) :
  inputs p1 A1 b1 y1 mu C al -> lcovo p1 = Dmx S1 ->
  answer p1 "map" x1 -> l_cov_p (solve p1 "map" None).1 = Some (Dmx P1) ->
  inputs p2 A2 b2 y2 x1 P1 1 -> lcovo p2 = Dmx S2 ->
  inputs p12 (col_mx A1 A2) (col_mx b1 b2) (col_mx y1 y2) mu C al ->
  lcovo p12 = Dmx (block_mx S1 0 0 S2) ->
  posdef C -> posdef S1 -> posdef S2 -> 0 < al ->
  exists2 x : 'cV[R]_n, answer p2 "map" x /\ answer p12 "map" x
    & l_cov_p (solve p2 "map" None).1 = l_cov_p (solve p12 "map" None).1.
Proof.
move=> ip1 eS1 ax1 ec1 ip2 eS2 ip12 eS12 pC pS1 pS2 a0.
have pC' := posdefZ a0 pC; set C' := al *: C in pC'.
have uS1 := posdef_unit pS1; have uS2 := posdef_unit pS2.
have p12S : posdef (block_mx S1 0 0 S2).
  have [s1 _] := pS1; have [s2 _] := pS2.
  split; first by rewrite tr_block_mx !trmx0 s1 s2.
  move=> u u0; have qe : quad (block_mx S1 0 0 S2) u
     = quad S1 (usubmx u) + quad S2 (dsubmx u).
    rewrite -{1}[u]vsubmxK /quad tr_col_mx mul_row_block !mulmx0 addr0 add0r.
    by rewrite mul_row_col mxDE.
  rewrite qe; case: (eqVneq (usubmx u) 0) => [e1|n1].
    rewrite e1 quad0 add0r; apply: (proj2 pS2); apply: contra u0 => /eqP e2.
    by rewrite -[u]vsubmxK e1 e2 col_mx0.
  by rewrite ltr_paddr //; [exact: posdef_quad | apply: (proj2 pS1)].
have iS : invmx (block_mx S1 0 0 S2) = block_mx (invmx S1) 0 0 (invmx S2).
  apply: invmx_unique; rewrite mulmx_block !mulmx0 !mul0mx !addr0 !add0r.
  by rewrite !mulmxV // -scalar_mx_block.
have e1 : x1 = mapx A1 b1 y1 mu C' S1 := answer_inj ax1 (map_answer ip1 eS1 pC pS1 a0).
have eP : P1 = covp A1 C' S1.
  have [P [h _ _ _]] := C11_posterior_covariance_contracts ip1 eS1 pC pS1 a0.
  move: ec1; rewrite (solve_mapE ip1 (truncate_none_co ip1 eS1) uS1 (posdef_unit pC')) /=.
    have inj (u v : dmx R) : Some u = Some v -> u = v by case.
    by move/inj/Dmx_inj.
  exact/posdef_unit/precis_posdef.
have pP : posdef P1 by rewrite eP; exact: covp_posdef.
have prec : precis (col_mx A1 A2) C' (block_mx S1 0 0 S2) = precis A2 P1 S2.
  rewrite /precis iS tr_col_mx mul_row_block !mulmx0 addr0 add0r mul_row_col.
  by rewrite eP /covp invmxK /precis [RHS]addrC addrAC.
have a1 : 1 *: P1 = P1 by rewrite scale1r.
have am2 : answer p2 "map" (mapx A2 b2 y2 x1 P1 S2).
  by rewrite -a1; exact: (map_answer ip2 eS2 pP pS2 ltr01).
exists (mapx A2 b2 y2 x1 P1 S2); last first.
  rewrite (solve_mapE ip2 (truncate_none_co ip2 eS2) uS2) ?a1 /=; first last.
  - exact/posdef_unit/precis_posdef.
  - exact: posdef_unit.
  rewrite (solve_mapE ip12 (truncate_none_co ip12 eS12) (posdef_unit p12S)) /=; first last.
  - exact/posdef_unit/precis_posdef.
  - exact: posdef_unit.
  by rewrite /covp -/C' prec.
split=> //.
suff <- : mapx (col_mx A1 A2) (col_mx b1 b2) (col_mx y1 y2) mu C' (block_mx S1 0 0 S2)
    = mapx A2 b2 y2 x1 P1 S2 by exact: (map_answer ip12 eS12 pC p12S a0).
have obj x : bayes_objective (col_mx A1 A2) (col_mx b1 b2) (col_mx y1 y2) mu C'
     (block_mx S1 0 0 S2) x
   = bayes_objective A2 b2 y2 x1 P1 S2 x + bayes_objective A1 b1 y1 mu C' S1 x1.
  rewrite {1}/bayes_objective iS mul_col_mx add_col_mx opp_col_mx add_col_mx.
  have qe u v : quad (block_mx (invmx S1) 0 0 (invmx S2)) (col_mx u v)
     = quad (invmx S1) u + quad (invmx S2) v.
    by rewrite /quad tr_col_mx mul_row_block !mulmx0 addr0 add0r mul_row_col mxDE.
  rewrite qe [quad (invmx S1) _ + _]addrC -addrA.
  rewrite -/(bayes_objective A1 b1 y1 mu C' S1 x) (bayes_recenter _ _ _ _ _ pC' pS1).
  by rewrite -e1 -eP [bayes_objective A1 _ _ _ _ _ _ + _]addrC addrA.
have [_ u] := @map_min _ _ _ A2 b2 y2 x1 P1 S2
  (mapx (col_mx A1 A2) (col_mx b1 b2) (col_mx y1 y2) mu C' (block_mx S1 0 0 S2)) pP pS2.
apply: u; rewrite -(ler_add2r (bayes_objective A1 b1 y1 mu C' S1 x1)) -!obj.
by case: (@map_min _ _ _ (col_mx A1 A2) (col_mx b1 b2) (col_mx y1 y2) mu C'
   (block_mx S1 0 0 S2) (mapx A2 b2 y2 x1 P1 S2) pC' p12S).
Qed.

(** Data as uncertain as the prediction leave the covariance alone; more certain data
    never give a larger updated covariance. *)
Theorem C80_updated_cov_neutral m n (A : 'M[R]_(m, n)) C :
  updated_cov_returns A C (A *m C *m A^T) C.
Proof.
have := updated_covE A C (A *m C *m A^T).
have -> // : upcov A C (A *m C *m A^T) = C.
by rewrite /upcov predcovE subrr mulmx0 mul0mx subr0.
Qed.

Theorem C80_updated_cov_monotone m n (A : 'M[R]_(m, n)) C S1 S2 :
  psd (S2 - S1) -> exists U1 U2,
  [/\ updated_cov_returns A C S1 U1, updated_cov_returns A C S2 U2 & psd (U2 - U1)].
Proof.
move=> h; exists (upcov A C S1), (upcov A C S2); split; try exact: updated_covE.
have -> : upcov A C S2 - upcov A C S1 = gain A C *m (S2 - S1) *m (gain A C)^T.
  rewrite /upcov; set K := gain A C; set P := predcov A C.
  have gen (V : zmodType) (c q u v : V) : c - (q - u) - (c - (q - v)) = u - v.
    by rewrite !opprB [c + _]addrC addrACA subrr addr0 addrA subrK.
  by rewrite !mulmxBr !mulmxBl gen.
exact: psd_sandwich.
Qed.

(** Rewriting the observations in other coordinates (with the observation covariance
    transformed accordingly) does not change the MAP point. *)
Theorem C81_map_data_coordinates m n (p p' : lgp R) (A : 'M[R]_(m, n)) b y mu C (S L : 'M[R]_m) al (x : 'cV[R]_n) :
  inputs p A b y mu C al -> lcovo p = Dmx S ->
  inputs p' (L *m A) (L *m b) (L *m y) mu C al -> lcovo p' = Dmx (L *m S *m L^T) ->
  posdef C -> posdef S -> L \in unitmx -> 0 < al ->
  answer p "map" x -> answer p' "map" x.
Proof.
move=> ip eS ip' eS' pC pS uL a0 ax.
have pC' := posdefZ a0 pC; have fL : row_free L by rewrite row_free_unit.
have pS' := posdef_sandwich fL pS.
have uL' : L^T \in unitmx by rewrite unitmx_tr.
have uS := posdef_unit pS.
have iE : invmx (L *m S *m L^T) = (invmx L)^T *m invmx S *m invmx L.
  apply: invmx_unique.
  rewrite trmx_inv !mulmxA -[L *m S *m L^T *m _]mulmxA mulmxV // mulmx1.
  by rewrite -[L *m S *m invmx S]mulmxA mulmxV // mulmx1 mulmxV.
have obj z : bayes_objective (L *m A) (L *m b) (L *m y) mu (al *: C) (L *m S *m L^T) z
   = bayes_objective A b y mu (al *: C) S z.
  rewrite /bayes_objective -[L *m A *m z]mulmxA -mulmxDr -mulmxBr iE quad_mul mulmxA mulVmx // mul1mx.
  by [].
suff -> : x = mapx (L *m A) (L *m b) (L *m y) mu (al *: C) (L *m S *m L^T).
  exact: (map_answer ip' eS' pC pS' a0).
have [_ u] := @map_min _ _ _ (L *m A) (L *m b) (L *m y) mu (al *: C) (L *m S *m L^T) x pC' pS'.
apply: u; rewrite !obj (answer_inj ax (map_answer ip eS pC pS a0)).
by case: (@map_min _ _ _ A b y mu (al *: C) S
  (mapx (L *m A) (L *m b) (L *m y) mu (al *: C) (L *m S *m L^T)) pC' pS).
Qed.

End Props.
