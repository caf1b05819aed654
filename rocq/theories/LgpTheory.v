(** Linear-Gaussian inversion: the mathematics behind LinearGaussianProblem,
    for matrices of fixed shapes.  The connection with the model of the code is
    made in LgpProofs.v. *)
Set Warnings "-notation-overridden,-ambiguous-paths".
From mathcomp Require Import all_ssreflect all_algebra.
From mathcomp.algebra_tactics Require Import ring.
From Verif Require Import Spec LinAlg.
Set Implicit Arguments. Unset Strict Implicit. Unset Printing Implicit Defensive.
Import Order.Theory GRing.Theory Num.Theory.
Local Open Scope ring_scope.

Section Theory.
Variable R : realFieldType.

Section Defs.
Variables (m n : nat) (A : 'M[R]_(m, n)) (b y : 'cV[R]_m).
Variables (mu : 'cV[R]_n) (C : 'M[R]_n) (S : 'M[R]_m).

Definition predcov : 'M[R]_m := locked (A *m C *m A^T).
Definition resid : 'cV[R]_m := locked (y - b - A *m mu).
Definition gain : 'M[R]_(n, m) := locked (C *m A^T *m pinv predcov).
Definition mudx : 'cV[R]_n := mu + gain *m resid.
Definition upcov : 'M[R]_n := C - gain *m (predcov - S) *m gain^T.
Definition mudaltx : 'cV[R]_n := mu + upcov *m A^T *m invmx S *m resid.
Definition precis : 'M[R]_n := A^T *m invmx S *m A + invmx C.
Definition covp : 'M[R]_n := invmx precis.
Definition mapx : 'cV[R]_n := mu + covp *m A^T *m invmx S *m resid.
Definition lsx : 'cV[R]_n := pinv A *m (y - b).
End Defs.

Section Facts.
Variables (m n : nat).
Implicit Types (A : 'M[R]_(m, n)) (b y : 'cV[R]_m).
Implicit Types (mu x : 'cV[R]_n) (C : 'M[R]_n) (S : 'M[R]_m).

Lemma predcovE A C : predcov A C = A *m C *m A^T.
Proof. by rewrite /predcov -lock. Qed.

Lemma residE A b y mu : resid A b y mu = y - b - A *m mu.
Proof. by rewrite /resid -lock. Qed.

Lemma gainE A C : gain A C = C *m A^T *m pinv (predcov A C).
Proof. by rewrite /gain -lock. Qed.

Lemma predcov_posdef A C : row_free A -> posdef C -> posdef (predcov A C).
Proof. by move=> fA pC; rewrite predcovE; apply: posdef_sandwich. Qed.

Lemma predcov_unit A C : row_free A -> posdef C -> predcov A C \in unitmx.
Proof. by move=> fA pC; apply/posdef_unit/predcov_posdef. Qed.

Lemma predcov_sym A C : C^T = C -> (predcov A C)^T = predcov A C.
Proof. by rewrite predcovE; exact: trmx_sandwich. Qed.

Lemma quad_predcov A C u : quad (predcov A C) u = quad C (A^T *m u).
Proof. by rewrite predcovE quad_mulT. Qed.

(** [P P^+ A = A]: the projector onto the range of the predicted covariance
    fixes the range of [A]. *)
Lemma predcov_range A C : posdef C -> predcov A C *m pinv (predcov A C) *m A = A.
Proof.
move=> pC; set P := predcov A C; set X := pinv P.
have sP : P^T = P by apply: predcov_sym; case: pC.
case: (pinvP P) => p1 p2 p3 p4; rewrite -/X in p1 p2 p3 p4.
pose N := 1%:M - P *m X.
have sN : N^T = N by rewrite /N trmxB trmx1 p3.
have NP : N *m P = 0 by rewrite /N mulmxBl mul1mx p1 subrr.
suff h : A^T *m N = 0.
  have : N *m A = 0 by rewrite -sN -[A]trmxK -trmx_mul h trmx0.
  by rewrite /N mulmxBl mul1mx => /eqP; rewrite subr_eq0 => /eqP.
apply/matrixP => i j; rewrite [RHS]mxE.
have -> : (A^T *m N) i j = (A^T *m N *m delta_mx j 0 : 'cV_n) i 0.
  by rewrite -colE [RHS]mxE.
suff -> : A^T *m N *m (delta_mx j 0 : 'cV_m) = 0 by rewrite mxE.
apply: (posdef_quad_eq0 pC).
have -> : A^T *m N *m (delta_mx j 0 : 'cV_m) = A^T *m (N *m delta_mx j 0).
  by rewrite mulmxA.
rewrite -quad_predcov -/P /quad trmx_mul sN.
by rewrite -[_ *m N *m P]mulmxA NP mulmx0 mul0mx mxE.
Qed.

Lemma predcov_rangeT A C : posdef C -> A^T *m pinv (predcov A C) *m predcov A C = A^T.
Proof.
move=> pC; have sP : (predcov A C)^T = predcov A C by apply: predcov_sym; case: pC.
apply: (can_inj (@trmxK _ _ _)); rewrite !trmx_mul trmxK sP (pinv_sym sP) mulmxA.
exact: predcov_range.
Qed.

(** *** best fits *)
Lemma normal_best A b y x : A^T *m (A *m x + b - y) = 0 -> best_fit A b y x.
Proof.
move=> h x'; rewrite /misfit.
have -> : A *m x' + b - y = (A *m x + b - y) + A *m (x' - x).
  by rewrite mulmxBr [RHS]addrC addrA addrA subrK addrAC.
rewrite -!quad1 [in leRHS]quad_addv ?trmx1 // mulmx1 mulmxA.
have -> : (A *m x + b - y)^T *m A = 0.
  by apply: (can_inj (@trmxK _ _ _)); rewrite trmx_mul trmxK h trmx0.
by rewrite mul0mx mxE mul0rn addr0 ler_addl quad1 sqnorm_ge0.
Qed.

Lemma best_same A b y x x' : A^T *m (A *m x + b - y) = 0 ->
  best_fit A b y x' -> A *m x' = A *m x.
Proof.
move=> h /(_ x); rewrite /misfit.
have -> : A *m x' + b - y = (A *m x + b - y) + A *m (x' - x).
  by rewrite mulmxBr [RHS]addrC addrA addrA subrK addrAC.
rewrite -!quad1 [in leLHS]quad_addv ?trmx1 // mulmx1 mulmxA.
have -> : (A *m x + b - y)^T *m A = 0.
  by apply: (can_inj (@trmxK _ _ _)); rewrite trmx_mul trmxK h trmx0.
rewrite mul0mx mxE mul0rn addr0 ger_addl quad1 => le0.
have : sqnorm (A *m (x' - x)) == 0 by rewrite eq_le le0 sqnorm_ge0.
by rewrite sqnorm_eq0 mulmxBr subr_eq0 => /eqP.
Qed.

Lemma mud_normal A b y mu C : posdef C ->
  A^T *m (A *m mudx A b y mu C + b - y) = 0.
Proof.
move=> pC.
have sP : (predcov A C)^T = predcov A C by apply: predcov_sym; case: pC.
have e : A *m mudx A b y mu C + b - y
   = predcov A C *m pinv (predcov A C) *m resid A b y mu - resid A b y mu.
  rewrite /mudx mulmxDr gainE !mulmxA -predcovE.
  move: (_ *m _ *m resid _ _ _ _) => w; rewrite residE.
  by move: (A *m mu) => v; mxring.
rewrite e mulmxBr mulmxA [A^T *m (_ *m _)]mulmxA.
case: (pinvP (predcov A C)) => _ _ p3 _.
have -> : A^T *m predcov A C *m pinv (predcov A C) = A^T.
  by apply: (can_inj (@trmxK _ _ _)); rewrite -mulmxA trmx_mul trmxK p3 predcov_range.
by rewrite subrr.
Qed.

Lemma mud_best A b y mu C : posdef C -> best_fit A b y (mudx A b y mu C).
Proof. by move=> pC; apply/normal_best/mud_normal. Qed.

Lemma mud_fit A b y mu C : row_free A -> posdef C ->
  A *m mudx A b y mu C + b = y.
Proof.
move=> fA pC; have /(row_free_inj fA) /eqP := mud_normal A b y mu pC.
by rewrite subr_eq0 => /eqP.
Qed.

(** Pythagoras in the prior metric along the fibre of the MUD point. *)
Lemma mud_pythagoras A b y mu C x' : posdef C ->
  A *m x' = A *m mudx A b y mu C ->
  mahal C mu x' = mahal C mu (mudx A b y mu C) + quad (invmx C) (x' - mudx A b y mu C).
Proof.
move=> pC h; set x := mudx A b y mu C; rewrite /mahal.
have uC := posdef_unit pC; have sC : C^T = C by case: pC.
have -> : x' - mu = (x - mu) + (x' - x) by mxring.
rewrite quad_addv ?trmx_inv ?sC //; congr (_ + _).
suff -> : (x - mu)^T *m invmx C *m (x' - x) = 0 by rewrite mxE mul0rn addr0.
have -> : x - mu = C *m (A^T *m (pinv (predcov A C) *m resid A b y mu)).
  by rewrite /x /mudx addrC addKr gainE !mulmxA.
rewrite trmx_mul sC -mulmxA -[_ *m C *m _]mulmxA [C *m (_ *m _)]mulmxA mulmxV // mul1mx.
move: (pinv _ *m _) => w.
by rewrite trmx_mul trmxK -[_ *m A *m _]mulmxA mulmxBr h subrr mulmx0.
Qed.

Lemma mud_closest A b y mu C x' : posdef C -> best_fit A b y x' ->
  mahal C mu (mudx A b y mu C) <= mahal C mu x' /\
  (mahal C mu x' <= mahal C mu (mudx A b y mu C) -> x' = mudx A b y mu C).
Proof.
move=> pC bx; have h := best_same (mud_normal A b y mu pC) bx.
rewrite (mud_pythagoras pC h); have pI := posdef_inv pC.
split; first by rewrite ler_addl posdef_quad.
rewrite ger_addl => le0; apply/eqP; rewrite -subr_eq0; apply/eqP.
apply: (posdef_quad_eq0 pI); apply/eqP; rewrite eq_le le0.
by rewrite /= posdef_quad.
Qed.

Lemma gain_scale A C a : a != 0 -> gain A (a *: C) = gain A C.
Proof.
move=> a0; rewrite !gainE.
have -> : predcov A (a *: C) = a *: predcov A C.
  by rewrite !predcovE -scalemxAr -scalemxAl.
by rewrite pinv_scale // -!scalemxAl -scalemxAr scalerA mulfV // scale1r.
Qed.

Lemma mud_alpha A b y mu C a : a != 0 -> mudx A b y mu (a *: C) = mudx A b y mu C.
Proof. by move=> a0; rewrite /mudx gain_scale. Qed.

Lemma resid0 A b y mu : A *m mu + b = y -> resid A b y mu = 0.
Proof. by move=> <-; rewrite residE addrK subrr. Qed.

(** *** the updated covariance *)
Lemma gainT A C : C^T = C -> (gain A C)^T = pinv (predcov A C) *m A *m C.
Proof.
move=> sC; have sP := predcov_sym A sC.
by rewrite gainE !trmx_mul trmxK (pinv_sym sP) sC mulmxA.
Qed.

Lemma upcov_At A C S : posdef C ->
  upcov A C S *m A^T
  = gain A C *m S *m (pinv (predcov A C) *m predcov A C).
Proof.
move=> pC; have sC : C^T = C by case: pC.
have e : (gain A C)^T *m A^T = pinv (predcov A C) *m predcov A C.
  by rewrite gainT // predcovE !mulmxA.
have e2 : gain A C *m predcov A C *m (pinv (predcov A C) *m predcov A C) = C *m A^T.
  rewrite gainE -!mulmxA; congr (C *m _).
  rewrite [predcov A C *m (_ *m _)]mulmxA.
  case: (pinvP (predcov A C)) => -> _ _ _.
  by rewrite mulmxA predcov_rangeT.
rewrite /upcov mulmxBl -mulmxA e mulmxBr mulmxBl e2.
by rewrite opprB addrC subrK.
Qed.

(** Condition under which the two MUD formulas agree: the observation covariance
    commutes with the orthogonal projector onto the range of [A]. *)
Definition obs_compatible A S : Prop := A *m pinv A *m S = S *m (A *m pinv A).

Lemma projA A C : posdef C -> predcov A C *m pinv (predcov A C) = A *m pinv A.
Proof.
move=> pC; set P := predcov A C; set Q := P *m pinv P; set Q' := A *m pinv A.
have [p1 p2 p3 p4] := pinvP P; have [a1 a2 a3 a4] := pinvP A.
have QQ' : Q *m Q' = Q' by rewrite /Q' mulmxA predcov_range.
have Q'Q : Q' *m Q = Q by rewrite /Q /P predcovE !mulmxA a1.
by rewrite -[LHS]p3 -/Q -Q'Q trmx_mul p3 a3 -/Q' -/Q.
Qed.

Lemma predcov_comm A C : C^T = C ->
  pinv (predcov A C) *m predcov A C = predcov A C *m pinv (predcov A C).
Proof.
move=> sC; have sP := predcov_sym A sC; have [_ _ p3 _] := pinvP (predcov A C).
by rewrite -[RHS]p3 trmx_mul sP (pinv_sym sP).
Qed.

Lemma upcov_At_compat A C S : posdef C -> obs_compatible A S ->
  upcov A C S *m A^T = gain A C *m S.
Proof.
move=> pC cS; have sC : C^T = C by case: pC.
rewrite upcov_At // predcov_comm // (projA _ pC) -mulmxA -cS -(projA _ pC).
rewrite mulmxA; congr (_ *m S); rewrite gainE -mulmxA; congr (_ *m _).
by case: (pinvP (predcov A C)) => _ p2 _ _; rewrite mulmxA p2.
Qed.

Lemma compat_full A S : row_free A -> obs_compatible A S.
Proof.
move=> fA; rewrite /obs_compatible.
have uA := predcov_unit fA (posdef1 R n).
by rewrite -(projA A (posdef1 R n)) pinv_unit // mulmxV // mul1mx mulmx1.
Qed.

Lemma compat_scalar A c : obs_compatible A c%:M.
Proof. by rewrite /obs_compatible scalar_mxC. Qed.

Lemma mud_alt_eq A b y mu C S : posdef C -> S \in unitmx -> obs_compatible A S ->
  mudaltx A b y mu C S = mudx A b y mu C.
Proof.
move=> pC uS cS; rewrite /mudaltx /mudx upcov_At_compat //; congr (_ + _ *m _).
by rewrite -mulmxA mulmxV // mulmx1.
Qed.

Lemma gain_rinv A C : row_free A -> posdef C -> A *m gain A C = 1%:M.
Proof.
move=> fA pC; rewrite gainE !mulmxA -predcovE pinv_unit ?predcov_unit //.
by rewrite mulmxV // predcov_unit.
Qed.

Lemma upcov_push A C S : row_free A -> posdef C ->
  A *m upcov A C S *m A^T = S.
Proof.
move=> fA pC; rewrite -mulmxA upcov_At_compat //; last exact: compat_full.
by rewrite mulmxA gain_rinv // mul1mx.
Qed.

Lemma gainAC A C : C^T = C -> gain A C *m A *m C = C *m A^T *m (gain A C)^T.
Proof. by move=> sC; rewrite gainT // gainE !mulmxA. Qed.

Lemma gainPgain A C : C^T = C ->
  gain A C *m predcov A C *m (gain A C)^T = C *m A^T *m (gain A C)^T.
Proof.
move=> sC; rewrite gainT // {1}gainE -!mulmxA; congr (_ *m (_ *m _)).
rewrite [in RHS]mulmxA !mulmxA; case: (pinvP (predcov A C)) => _ p2 _ _.
by rewrite p2.
Qed.

(** The Joseph form of the updated covariance. *)
Lemma upcov_joseph A C S : C^T = C ->
  upcov A C S = (1%:M - gain A C *m A) *m C *m (1%:M - gain A C *m A)^T
                + gain A C *m S *m (gain A C)^T.
Proof.
move=> sC; rewrite /upcov.
have e1 := gainAC A sC; have e2 := gainPgain A sC.
move: (gain A C) e1 e2 => K e1 e2; rewrite predcovE !mulmxA in e2 *.
rewrite trmxB trmx1 trmx_mul !(mulmxBl, mulmxBr) !mul1mx !mulmx1 !mulmxA.
by rewrite e2 e1; mxring.
Qed.

Lemma upcov_psd A C S : psd C -> psd S -> psd (upcov A C S).
Proof.
move=> pC pS; rewrite upcov_joseph; last by case: pC.
by apply: psdD; apply: psd_sandwich.
Qed.

Lemma upcov_posdef A C S : posdef C -> posdef S -> posdef (upcov A C S).
Proof.
move=> pC pS; have sC : C^T = C by case: pC.
case: (upcov_psd A (posdef_psd pC) (posdef_psd pS)) => sU pU; split=> // u u0.
rewrite lt0r pU andbT; apply: contraNneq u0.
rewrite upcov_joseph // quadD; move: (gain A C) => K.
have [_ q1] := psd_sandwich (1%:M - K *m A) (posdef_psd pC).
have [_ q2] := psd_sandwich K (posdef_psd pS).
move/eqP; rewrite paddr_eq0 //= => /andP [/eqP h1 /eqP h2].
rewrite quad_mulT in h1; rewrite quad_mulT in h2.
move: (posdef_quad_eq0 pC h1) (posdef_quad_eq0 pS h2).
rewrite trmxB trmx1 trmx_mul mulmxBl mul1mx -mulmxA => + h3.
by rewrite h3 mulmx0 subr0 => ->.
Qed.

(** The documented inverse formula. *)
Lemma upcov_doc A C S : posdef C -> posdef S -> obs_compatible A S ->
  upcov A C S
  = invmx (A^T *m (invmx S - pinv (predcov A C)) *m A + invmx C).
Proof.
move=> pC pS cS; have sC : C^T = C by case: pC.
have uC := posdef_unit pC; have uS := posdef_unit pS.
set U := upcov A C S; set M := (X in invmx X).
suff e : U *m M = 1%:M.
  have [_ uM] := mulmx1_unit e.
  by rewrite -[U]mulmx1 -(mulmxV uM) mulmxA e mul1mx.
have e1 : U *m A^T = gain A C *m S by apply: upcov_At_compat.
have e2 : U *m invmx C
  = 1%:M - gain A C *m (predcov A C - S) *m (pinv (predcov A C) *m A).
  rewrite /U /upcov mulmxBl mulmxV // gainT //; congr (_ - _).
  by rewrite -!mulmxA mulmxV // mulmx1.
have e3 : gain A C *m predcov A C *m (pinv (predcov A C) *m A) = gain A C *m A.
  rewrite gainE -!mulmxA; congr (_ *m (_ *m _)).
  by rewrite !mulmxA; case: (pinvP (predcov A C)) => _ -> _ _.
rewrite /M; move: (gain A C) (predcov A C) e1 e2 e3 => K P e1 e2 e3.
rewrite mulmxDr e2.
have -> : U *m (A^T *m (invmx S - pinv P) *m A) = K *m A - K *m S *m (pinv P *m A).
  by rewrite !mulmxA e1 mulmxBr mulmxBl -[K *m S *m invmx S]mulmxA mulmxV // mulmx1.
by rewrite mulmxBr mulmxBl e3; mxring.
Qed.

(** *** MAP *)
Lemma precis_posdef A C S : posdef C -> posdef S -> posdef (precis A C S).
Proof.
move=> pC pS; apply: posdef_addr; last exact: posdef_inv.
rewrite -{2}[A]trmxK; apply: psd_sandwich; exact/posdef_psd/posdef_inv.
Qed.

Lemma map_normal A b y mu C S : posdef C -> posdef S ->
  A^T *m invmx S *m (A *m mapx A b y mu C S + b - y)
  + invmx C *m (mapx A b y mu C S - mu) = 0.
Proof.
move=> pC pS; have uH := posdef_unit (precis_posdef A pC pS).
set H := precis A C S; set z := resid A b y mu.
pose d := covp A C S *m A^T *m invmx S *m z.
have -> : mapx A b y mu C S = mu + d by [].
have -> : A *m (mu + d) + b - y = A *m d - z.
  by rewrite mulmxDr /z residE; move: (A *m mu) (A *m d) => v w; mxring.
have -> : mu + d - mu = d by rewrite addrC addKr.
rewrite mulmxBr addrAC mulmxA -mulmxDl -/(precis A C S) -/H.
by rewrite /d /covp -/H !mulmxA mulmxV // mul1mx subrr.
Qed.

Lemma quad2_expand A (S' : 'M[R]_m) (C' : 'M[R]_n) r d e :
  S'^T = S' -> C'^T = C' -> A^T *m S' *m r + C' *m d = 0 ->
  quad S' (r + A *m e) + quad C' (d + e)
  = quad S' r + quad C' d + (quad S' (A *m e) + quad C' e).
Proof.
move=> sS sC h; rewrite (quad_addv r (A *m e) sS) (quad_addv d e sC).
have h2 : (r^T *m S' *m (A *m e)) 0 0 + (d^T *m C' *m e) 0 0 = 0.
  have : (A^T *m S' *m r + C' *m d)^T *m e = 0 by rewrite h trmx0 mul0mx.
  rewrite trmxD !trmx_mul trmxK sC sS mulmxDl !mulmxA => h'.
  by rewrite -mxDE h' mx0E.
have h3 : (r^T *m S' *m (A *m e)) 0 0 *+ 2 + (d^T *m C' *m e) 0 0 *+ 2 = 0.
  by rewrite -mulrnDl h2 mul0rn.
move: h3; move: (_ *+ 2) (_ *+ 2) => s t st.
have -> : t = - s by apply/eqP; rewrite -addr_eq0 st.
by ring.
Qed.

Lemma map_expand A b y mu C S x' : posdef C -> posdef S ->
  bayes_objective A b y mu C S x'
  = bayes_objective A b y mu C S (mapx A b y mu C S)
    + (quad (invmx S) (A *m (x' - mapx A b y mu C S))
       + quad (invmx C) (x' - mapx A b y mu C S)).
Proof.
move=> pC pS; have := map_normal A b y mu pC pS.
set x := mapx A b y mu C S => h; rewrite /bayes_objective.
have [sC _] := posdef_inv pC; have [sS _] := posdef_inv pS.
have -> : A *m x' + b - y = (A *m x + b - y) + A *m (x' - x).
  by rewrite mulmxBr; move: (A *m x) (A *m x') => v w; mxring.
have -> : x' - mu = (x - mu) + (x' - x) by mxring.
exact: quad2_expand.
Qed.

Lemma map_min A b y mu C S x' : posdef C -> posdef S ->
  bayes_objective A b y mu C S (mapx A b y mu C S) <= bayes_objective A b y mu C S x'
  /\ (bayes_objective A b y mu C S x'
        <= bayes_objective A b y mu C S (mapx A b y mu C S) ->
      x' = mapx A b y mu C S).
Proof.
move=> pC pS; rewrite (map_expand A b y mu x' pC pS).
have [_ qS] := posdef_psd (posdef_inv pS); have [_ qC] := posdef_psd (posdef_inv pC).
split; first by rewrite ler_addl addr_ge0.
rewrite ger_addl => le0; apply/eqP; rewrite -subr_eq0; apply/eqP.
apply: (posdef_quad_eq0 (posdef_inv pC)); apply/eqP; rewrite eq_le qC andbT.
by apply: le_trans le0; rewrite ler_addr.
Qed.

Lemma kalman_unit A C S : posdef C -> posdef S -> predcov A C + S \in unitmx.
Proof.
move=> pC pS; apply/posdef_unit/posdef_addr => //.
by rewrite predcovE; apply: psd_sandwich; apply: posdef_psd.
Qed.

Lemma woodbury A C S : posdef C -> posdef S ->
  covp A C S = C - C *m A^T *m invmx (predcov A C + S) *m A *m C.
Proof.
move=> pC pS; have uC := posdef_unit pC; have uS := posdef_unit pS.
have uG := kalman_unit A pC pS; set G := predcov A C + S.
apply: invmx_unique; rewrite /precis mulmxDl !mulmxBr mulVmx //.
rewrite !mulmxA mulVmx // mul1mx.
have -> : A^T *m invmx S *m A *m C *m A^T = A^T *m invmx S *m predcov A C.
  by rewrite predcovE !mulmxA.
have -> : predcov A C = G - S by rewrite /G addrK.
rewrite mulmxBr 3!mulmxBl -[_ *m G *m invmx G]mulmxA mulmxV // mulmx1.
rewrite -[_ *m invmx S *m S]mulmxA mulVmx // mulmx1.
by move: (_ *m C) => v; move: (_ *m C) => w; mxring.
Qed.

Lemma covp_posdef A C S : posdef C -> posdef S -> posdef (covp A C S).
Proof. by move=> pC pS; apply/posdef_inv/precis_posdef. Qed.

Lemma covp_contracts A C S : posdef C -> posdef S -> psd (C - covp A C S).
Proof.
move=> pC pS; have sC : C^T = C by case: pC.
rewrite woodbury // opprB addrC subrK.
have -> : C *m A^T *m invmx (predcov A C + S) *m A *m C
  = C *m A^T *m invmx (predcov A C + S) *m (C *m A^T)^T.
  by rewrite trmx_mul trmxK sC !mulmxA.
apply/psd_sandwich/posdef_psd/posdef_inv/posdef_addr => //.
by rewrite predcovE; apply: psd_sandwich; apply: posdef_psd.
Qed.

Lemma kalman_gain A C S : posdef C -> posdef S ->
  covp A C S *m A^T *m invmx S = C *m A^T *m invmx (predcov A C + S).
Proof.
move=> pC pS; have uS := posdef_unit pS; have uG := kalman_unit A pC pS.
set G := predcov A C + S.
suff e : covp A C S *m A^T = C *m A^T *m invmx G *m S by rewrite e -mulmxA mulmxV // mulmx1.
rewrite woodbury // -/G mulmxBl.
have -> : C *m A^T *m invmx G *m A *m C *m A^T = C *m A^T *m invmx G *m predcov A C.
  by rewrite predcovE !mulmxA.
have -> : predcov A C = G - S by rewrite /G addrK.
by rewrite mulmxBr -[_ *m invmx G *m G]mulmxA mulVmx // mulmx1 opprB addrC subrK.
Qed.

(** The posterior covariance is the smallest member of the Joseph family, in
    particular it never exceeds the updated covariance. *)
Lemma covp_le_upcov A C S : posdef C -> posdef S -> psd (upcov A C S - covp A C S).
Proof.
move=> pC pS; have sC : C^T = C by case: pC.
have [sS _] := pS; have uG := kalman_unit A pC pS.
set G := predcov A C + S; set K := gain A C.
have sG : G^T = G by rewrite /G trmxD predcov_sym // sS.
pose L := C *m A^T *m invmx G.
have eL : L^T = invmx G *m A *m C by rewrite !trmx_mul trmxK sC trmx_inv sG mulmxA.
suff -> : upcov A C S - covp A C S = (K - L) *m G *m (K - L)^T.
  apply/psd_sandwich/posdef_psd/posdef_addr => //.
  by rewrite predcovE; apply: psd_sandwich; apply: posdef_psd.
rewrite upcov_joseph // woodbury // -/G -/K.
rewrite !trmxB trmx1 trmx_mul eL !(mulmxBl, mulmxBr) !mul1mx !mulmx1 !mulmxA.
have -> : L *m G = C *m A^T by rewrite /L -mulmxA mulVmx // mulmx1.
have -> : K *m G *m invmx G *m A *m C = K *m A *m C by rewrite -[K *m G *m _]mulmxA mulmxV // mulmx1.
rewrite /G mulmxDr mulmxDl predcovE !mulmxA -/G.
by mxring.
Qed.

(** *** least squares *)
Lemma ls_normal A b y : A^T *m (A *m lsx A b y + b - y) = 0.
Proof.
case: (pinvP A) => a1 a2 a3 a4; rewrite /lsx -addrA -[y - b]opprB.
move: (b - y) => w; rewrite !mulmxN mulmxDr !mulmxN !mulmxA.
have -> : A^T *m A *m pinv A = A^T.
  by apply: (can_inj (@trmxK _ _ _)); rewrite -mulmxA trmx_mul a3 trmxK a1.
by rewrite addNr.
Qed.

Lemma ls_best A b y : best_fit A b y (lsx A b y).
Proof. exact/normal_best/ls_normal. Qed.

Lemma ls_min_norm A b y x' : best_fit A b y x' ->
  sqnorm (lsx A b y) <= sqnorm x' /\
  (sqnorm x' <= sqnorm (lsx A b y) -> x' = lsx A b y).
Proof.
move=> bx; have h := best_same (ls_normal A b y) bx.
set x := lsx A b y in h *; case: (pinvP A) => a1 a2 a3 a4.
have ex : x = pinv A *m (A *m x) by rewrite /x /lsx !mulmxA a2.
have e : x' = x + (x' - x) by rewrite addrC subrK.
have orth : x^T *m (x' - x) = 0.
  rewrite {1}ex mulmxA trmx_mul a4 -mulmxA -[pinv A *m A *m _]mulmxA.
  by rewrite mulmxBr h subrr !mulmx0.
have -> : sqnorm x' = sqnorm x + sqnorm (x' - x).
  rewrite {1}e -!quad1 quad_addv ?trmx1 // mulmx1 orth.
  by rewrite mxE mul0rn addr0.
split; first by rewrite ler_addl sqnorm_ge0.
rewrite ger_addl => le0; apply/eqP; rewrite -subr_eq0 -sqnorm_eq0.
by rewrite eq_le le0 sqnorm_ge0.
Qed.

Lemma gain1 A : gain A 1%:M = pinv A.
Proof.
rewrite gainE mul1mx; apply/esym/pinv_unique.
have sP : (predcov A 1%:M)^T = predcov A 1%:M by apply: predcov_sym; rewrite trmx1.
case: (pinvP (predcov A 1%:M)) => p1 p2 p3 p4.
have e : A *m A^T = predcov A 1%:M by rewrite predcovE mulmx1.
split.
- by rewrite !mulmxA e; apply: predcov_range; apply: posdef1.
- rewrite -!mulmxA; congr (_ *m _).
  by rewrite [A *m (_ *m _)]mulmxA e mulmxA p2.
- by rewrite !mulmxA e p3.
- by rewrite !trmx_mul trmxK (pinv_sym sP) mulmxA.
Qed.

Lemma mud_ls A b y a : a != 0 -> mudx A b y 0 (a%:M) = lsx A b y.
Proof.
move=> a0; rewrite -scalemx1 mud_alpha // /mudx gain1 residE mulmx0 subr0 add0r.
by [].
Qed.

(** *** the data-consistent objective *)
Lemma dc_split A b y mu C S x : row_free A -> posdef C ->
  dc_objective A b y mu C S x
  = quad (invmx S) (A *m x + b - y)
    + quad C ((1%:M - gain A C *m A)^T *m invmx C *m (x - mu)).
Proof.
move=> fA pC; have uC := posdef_unit pC; have sC : C^T = C by case: pC.
rewrite /dc_objective /bayes_objective -addrA; congr (_ + _).
rewrite -predcovE -quad_mul -quadN -quadD -[in RHS]quad_mul; congr quad.
rewrite trmx_mul trmxK trmx_inv sC.
have eK : invmx C *m gain A C = A^T *m invmx (predcov A C).
  by rewrite gainE !mulmxA mulVmx // mul1mx pinv_unit // predcov_unit.
have e1 := gainAC A sC; have e2 := gainPgain A sC; rewrite predcovE !mulmxA in e2.
have e0 : (gain A C)^T *m invmx C = invmx (predcov A C) *m A.
  apply: (can_inj (@trmxK _ _ _)); rewrite !trmx_mul trmxK !trmx_inv sC eK.
  by rewrite predcov_sym.
move: (gain A C) (invmx (predcov A C)) eK e1 e2 e0 => K X eK e1 e2 e0.
rewrite trmxB trmx1 trmx_mul !(mulmxBl, mulmxBr) !mul1mx !mulmx1 !mulmxA.
rewrite mulVmx // mul1mx.
have -> : invmx C *m K *m A *m C *m A^T *m K^T *m invmx C = A^T *m X *m A.
  have -> : invmx C *m K *m A *m C *m A^T *m K^T *m invmx C
     = invmx C *m (K *m A *m C *m A^T *m K^T) *m invmx C by rewrite !mulmxA.
  by rewrite e2 !mulmxA mulVmx // mul1mx -mulmxA e0 mulmxA.
rewrite eK -[_ *m C *m invmx C]mulmxA mulmxV // mulmx1.
by rewrite mul1mx -[A^T *m K^T *m _]mulmxA e0 mulmxA; mxring.
Qed.

Lemma dc_ge0 A b y mu C S x : row_free A -> posdef C -> posdef S ->
  0 <= dc_objective A b y mu C S x.
Proof.
move=> fA pC pS; rewrite dc_split //.
by apply: addr_ge0; [case: (posdef_psd (posdef_inv pS))|case: (posdef_psd pC)].
Qed.

Lemma dc_eq0 A b y mu C S x : row_free A -> posdef C -> posdef S ->
  dc_objective A b y mu C S x = 0 <-> x = mudx A b y mu C.
Proof.
move=> fA pC pS; have uC := posdef_unit pC; have sC : C^T = C by case: pC.
rewrite dc_split //; set K := gain A C.
have eK : C *m A^T *m K^T *m invmx C = K *m A.
  by rewrite -gainAC // -mulmxA mulmxV // mulmx1.
split.
  move/eqP; rewrite paddr_eq0; first last.
  - by case: (posdef_psd pC).
  - by case: (posdef_psd (posdef_inv pS)).
  move=> /andP [/eqP h1 /eqP h2].
  move/(posdef_quad_eq0 (posdef_inv pS))/eqP: h1; rewrite subr_eq0 => /eqP h1.
  move/(posdef_quad_eq0 pC): h2 => h2.
  have : C *m ((1%:M - K *m A)^T *m invmx C *m (x - mu)) = 0 by rewrite h2 mulmx0.
  have e3 : C *m ((1%:M - K *m A)^T *m invmx C) = 1%:M - K *m A.
    by rewrite trmxB trmx1 trmx_mul mulmxBl mul1mx mulmxBr mulmxV // !mulmxA eK.
  rewrite mulmxA e3 mulmxBl mul1mx -mulmxA mulmxBr.
  have -> : A *m x - A *m mu = resid A b y mu by rewrite residE -h1 addrK.
  by move/eqP; rewrite subr_eq0 => /eqP h; rewrite /mudx -/K -h addrC subrK.
move=> ->; rewrite mud_fit // subrr quad0 add0r.
suff -> : (1%:M - K *m A)^T *m invmx C *m (mudx A b y mu C - mu) = 0 by rewrite quad0.
rewrite /mudx -/K [mu + _]addrC addrK mulmxA.
have -> : (1%:M - K *m A)^T *m invmx C *m K = 0; last by rewrite mul0mx.
have e : invmx C *m K = A^T *m invmx (predcov A C).
  by rewrite /K gainE !mulmxA mulVmx // mul1mx pinv_unit // predcov_unit.
rewrite -mulmxA e mulmxA trmxB trmx1 trmx_mul mulmxBl mul1mx.
rewrite -[A^T *m K^T *m A^T]mulmxA -(trmx_mul A K) gain_rinv // trmx1 mulmx1.
by rewrite subrr mul0mx.
Qed.

(** *** coordinates *)
Lemma mud_param_coord A b y mu C T : T \in unitmx ->
  mudx (A *m invmx T) b y (T *m mu) (T *m C *m T^T) = T *m mudx A b y mu C.
Proof.
move=> uT; have uT' : T^T \in unitmx by rewrite unitmx_tr.
rewrite /mudx mulmxDr mulmxA; congr (_ + _ *m _).
  have e : T^T *m (A *m invmx T)^T = A^T.
    by rewrite trmx_mul trmx_inv mulmxA mulmxV // mul1mx.
  have eP : predcov (A *m invmx T) (T *m C *m T^T) = predcov A C.
    rewrite !predcovE -!mulmxA e; congr (A *m _).
    by rewrite mulmxA mulVmx // mul1mx.
  by rewrite !gainE eP -[T *m C *m _ *m _]mulmxA e !mulmxA.
by rewrite !residE !mulmxA mulmxKV.
Qed.

Lemma map_param_coord A b y mu C S T : T \in unitmx -> C \in unitmx ->
  precis A C S \in unitmx ->
  mapx (A *m invmx T) b y (T *m mu) (T *m C *m T^T) S = T *m mapx A b y mu C S.
Proof.
move=> uT uC uH; have uT' : T^T \in unitmx by rewrite unitmx_tr.
have uiT : invmx T \in unitmx by rewrite unitmx_inv.
have eH : covp (A *m invmx T) (T *m C *m T^T) S = T *m covp A C S *m T^T.
  apply: invmx_unique; rewrite /precis.
  have -> : invmx (T *m C *m T^T) = invmx T^T *m invmx C *m invmx T.
    apply: invmx_unique; rewrite !mulmxA mulmxK // mulmxK //.
    by rewrite mulmxV.
  have -> : (A *m invmx T)^T *m invmx S *m (A *m invmx T)
     + invmx T^T *m invmx C *m invmx T = invmx T^T *m precis A C S *m invmx T.
    by rewrite /precis mulmxDr mulmxDl trmx_mul trmx_inv !mulmxA.
  rewrite !mulmxA mulmxKV // -[_ *m precis A C S *m _]mulmxA mulmxV // mulmx1.
  by rewrite mulVmx.
rewrite /mapx mulmxDr !mulmxA; congr (_ + _ *m _).
  by rewrite eH -[_ *m T^T *m _]mulmxA trmx_mul trmx_inv [T^T *m _]mulmxA mulmxV // mul1mx.
by rewrite !residE !mulmxA mulmxKV.
Qed.

Lemma mud_data_coord A b y mu C L : row_free A -> posdef C -> L \in unitmx ->
  mudx (L *m A) (L *m b) (L *m y) mu C = mudx A b y mu C.
Proof.
move=> fA pC uL; have uP := predcov_unit fA pC.
have uL' : L^T \in unitmx by rewrite unitmx_tr.
have eP : predcov (L *m A) C = L *m predcov A C *m L^T.
  by rewrite !predcovE trmx_mul !mulmxA.
have uP' : predcov (L *m A) C \in unitmx by rewrite eP !unitmx_mul uL uP uL'.
rewrite /mudx; congr (_ + _).
have -> : resid (L *m A) (L *m b) (L *m y) mu = L *m resid A b y mu.
  by rewrite !residE !mulmxBr mulmxA.
rewrite mulmxA; congr (_ *m _); rewrite !gainE !pinv_unit //.
have -> : invmx (predcov (L *m A) C) = invmx L^T *m invmx (predcov A C) *m invmx L.
  by rewrite eP; apply: invmx_unique; rewrite !mulmxA mulmxK // mulmxK // mulmxV.
by rewrite trmx_mul !mulmxA mulmxK // mulmxKV.
Qed.

End Facts.

(** *** square invertible maps *)
Lemma mud_invertible n (A : 'M[R]_n) b y mu C : A \in unitmx -> posdef C ->
  mudx A b y mu C = invmx A *m (y - b).
Proof.
move=> uA pC; have fA : row_free A by rewrite row_free_unit.
have <- : A *m mudx A b y mu C = y - b by rewrite -[in y - b](mud_fit b y mu fA pC) addrK.
by rewrite mulmxA mulVmx // mul1mx.
Qed.

Lemma ls_invertible n (A : 'M[R]_n) b y : A \in unitmx ->
  lsx A b y = invmx A *m (y - b).
Proof. by move=> uA; rewrite /lsx pinv_unit. Qed.

End Theory.
