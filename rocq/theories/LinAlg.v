(** Linear algebra over a real field: definiteness and the Moore-Penrose
    inverse (the mathematical content of numpy's [inv] and [pinv]). *)
Set Warnings "-notation-overridden,-ambiguous-paths".
From mathcomp Require Import all_ssreflect all_algebra.
From mathcomp.algebra_tactics Require Import ring.
From Verif Require Import Spec.
Set Implicit Arguments. Unset Strict Implicit. Unset Printing Implicit Defensive.
Import Order.Theory GRing.Theory Num.Theory.
Local Open Scope ring_scope.

Lemma mxDE (R : zmodType) m n (A B : 'M[R]_(m, n)) i j : (A + B) i j = A i j + B i j.
Proof. by rewrite mxE. Qed.
Lemma mxNE (R : zmodType) m n (A : 'M[R]_(m, n)) i j : (- A) i j = - A i j.
Proof. by rewrite mxE. Qed.
Lemma mx0E (R : zmodType) m n i j : (0 : 'M[R]_(m, n)) i j = 0.
Proof. by rewrite mxE. Qed.
Lemma mxZE (R : ringType) m n a (A : 'M[R]_(m, n)) i j : (a *: A) i j = a * A i j.
Proof. by rewrite mxE. Qed.

(** Equality of matrix sums, entry by entry; every entry becomes a variable, so
    that [ring] sees convertible entries as equal atoms. *)
Ltac gen_entries :=
  repeat match goal with
  | |- context [@fun_of_matrix ?T ?m ?n ?M ?i ?j] =>
      let x := fresh "x" in move: (@fun_of_matrix T m n M i j) => x
  end.
Ltac mxring :=
  let i := fresh "i" in let j := fresh "j" in
  apply/matrixP => i j; rewrite ?(mxDE, mxNE, mx0E, mxZE); gen_entries; ring.

Section LinAlg.
Variable R : realFieldType.

Lemma mx11P (M N : 'M[R]_1) : M 0 0 = N 0 0 -> M = N.
Proof. by move=> h; apply/matrixP => i j; rewrite !ord1. Qed.

Lemma trmxB m n (M N : 'M[R]_(m, n)) : (M - N)^T = M^T - N^T.
Proof. by rewrite linearB. Qed.

Lemma trmxD m n (M N : 'M[R]_(m, n)) : (M + N)^T = M^T + N^T.
Proof. by rewrite linearD. Qed.

Lemma dotvE n (u v : 'cV[R]_n) : dotv u v = (u^T *m v) 0 0.
Proof. by rewrite mxE; apply: eq_bigr => i _; rewrite mxE. Qed.

Lemma sqnorm_ge0 n (u : 'cV[R]_n) : 0 <= sqnorm u.
Proof. by apply: sumr_ge0 => i _; apply: sqr_ge0. Qed.

Lemma sqnorm_eq0 n (u : 'cV[R]_n) : (sqnorm u == 0) = (u == 0).
Proof.
apply/idP/idP => [/eqP h|/eqP ->]; last first.
  by apply/eqP; apply: big1 => i _; rewrite mxE mul0r.
apply/eqP/matrixP => i j; rewrite ord1 [RHS]mxE.
have h2 : forall k, true -> 0 <= u k 0 * u k 0 by move=> k _; apply: sqr_ge0.
have := psumr_eq0P h2 h; move=> /(_ i isT) /eqP.
by rewrite mulf_eq0 orbb => /eqP.
Qed.

Lemma sqnorm_gt0 n (u : 'cV[R]_n) : (0 < sqnorm u) = (u != 0).
Proof. by rewrite lt0r sqnorm_ge0 andbT sqnorm_eq0. Qed.

Lemma quad1 n (u : 'cV[R]_n) : quad 1%:M u = sqnorm u.
Proof. by rewrite /quad mulmx1 /sqnorm dotvE. Qed.

Lemma quad0 n (M : 'M[R]_n) : quad M 0 = 0.
Proof. by rewrite /quad mulmx0 mxE. Qed.

Lemma quadD n (M N : 'M[R]_n) u : quad (M + N) u = quad M u + quad N u.
Proof. by rewrite /quad mulmxDr mulmxDl mxE. Qed.

Lemma quadZ n a (M : 'M[R]_n) u : quad (a *: M) u = a * quad M u.
Proof. by rewrite /quad -scalemxAr -scalemxAl mxE. Qed.

Lemma quadN n (M : 'M[R]_n) u : quad (- M) u = - quad M u.
Proof. by rewrite -scaleN1r quadZ mulN1r. Qed.

Lemma quadNv n (M : 'M[R]_n) u : quad M (- u) = quad M u.
Proof.
have e : (- u)^T = - u^T by apply/matrixP=> i j; rewrite !mxE.
by rewrite /quad e mulNmx mulNmx mulmxN opprK.
Qed.

Lemma quad_mul m n (A : 'M[R]_(n, m)) (M : 'M[R]_n) u :
  quad (A^T *m M *m A) u = quad M (A *m u).
Proof. by rewrite /quad trmx_mul !mulmxA. Qed.

Lemma quad_mulT m n (A : 'M[R]_(m, n)) (M : 'M[R]_n) u :
  quad (A *m M *m A^T) u = quad M (A^T *m u).
Proof. by rewrite -{1}[A]trmxK quad_mul. Qed.

Lemma quad_addv n (M : 'M[R]_n) u v : M^T = M ->
  quad M (u + v) = quad M u + (u^T *m M *m v) 0 0 *+ 2 + quad M v.
Proof.
move=> sM; rewrite /quad [(u + v)^T]linearD /= !mulmxDl !mulmxDr !mxE.
have e : (v^T *m M *m u) 0 0 = (u^T *m M *m v) 0 0.
  by rewrite -[in LHS](trmxK (v^T *m M *m u)) [LHS]mxE !trmx_mul trmxK sM mulmxA.
rewrite !mxE in e; rewrite e mulr2n !addrA; congr (_ + _).
Qed.

Lemma posdef_psd n (M : 'M[R]_n) : posdef M -> psd M.
Proof.
move=> [sM pM]; split=> // u; case: (eqVneq u 0) => [->|/pM /ltW //].
by rewrite quad0.
Qed.

Lemma psd_quad n (M : 'M[R]_n) u : psd M -> 0 <= quad M u.
Proof. by case. Qed.

Lemma posdef_quad n (M : 'M[R]_n) u : posdef M -> 0 <= quad M u.
Proof. by move/posdef_psd/psd_quad. Qed.

Lemma posdef_quad_eq0 n (M : 'M[R]_n) u : posdef M -> quad M u = 0 -> u = 0.
Proof.
by move=> [_ pM] h; apply/eqP/negPn/negP => /pM; rewrite h ltxx.
Qed.

Lemma unitmx_inj n (M : 'M[R]_n) :
  (forall u : 'cV[R]_n, M *m u = 0 -> u = 0) -> M \in unitmx.
Proof.
move=> inj; rewrite -unitmx_tr -row_free_unit -kermx_eq0.
apply/eqP/row_matrixP => i; rewrite row0.
apply: (can_inj (@trmxK _ _ _)); rewrite trmx0; apply: inj.
by apply: (can_inj (@trmxK _ _ _)); rewrite trmx_mul trmxK trmx0 -row_mul mulmx_ker row0.
Qed.

Lemma posdef_unit n (M : 'M[R]_n) : posdef M -> M \in unitmx.
Proof.
move=> pM; apply: unitmx_inj => u h.
by apply: (posdef_quad_eq0 pM); rewrite /quad -mulmxA h mulmx0 mxE.
Qed.

Lemma row_free_inj m n (A : 'M[R]_(m, n)) (u : 'cV[R]_m) :
  row_free A -> A^T *m u = 0 -> u = 0.
Proof.
move=> fA h; apply: (can_inj (@trmxK _ _ _)); rewrite trmx0.
by apply: (row_free_inj fA); rewrite mul0mx -[u^T *m A]trmxK trmx_mul trmxK h trmx0.
Qed.

Lemma row_free_of_inj m n (A : 'M[R]_(m, n)) :
  (forall u : 'cV[R]_m, A^T *m u = 0 -> u = 0) -> row_free A.
Proof.
move=> inj; rewrite -kermx_eq0; apply/eqP/row_matrixP => i; rewrite row0.
apply: (can_inj (@trmxK _ _ _)); rewrite trmx0; apply: inj.
by rewrite -trmx_mul -row_mul mulmx_ker row0 trmx0.
Qed.

Lemma trmx_sandwich m n (A : 'M[R]_(m, n)) (C : 'M[R]_n) :
  C^T = C -> (A *m C *m A^T)^T = A *m C *m A^T.
Proof. by move=> sC; rewrite !trmx_mul trmxK sC mulmxA. Qed.

Lemma psd_sandwich m n (A : 'M[R]_(m, n)) (C : 'M[R]_n) :
  psd C -> psd (A *m C *m A^T).
Proof.
by move=> [sC pC]; split; [apply: trmx_sandwich|move=> u; rewrite quad_mulT].
Qed.

Lemma posdef_sandwich m n (A : 'M[R]_(m, n)) (C : 'M[R]_n) :
  row_free A -> posdef C -> posdef (A *m C *m A^T).
Proof.
move=> fA [sC pC]; split; first exact: trmx_sandwich.
move=> u u0; rewrite quad_mulT; apply: pC.
by apply: contraNneq u0 => /(row_free_inj fA) ->.
Qed.

Lemma posdefZ n a (M : 'M[R]_n) : 0 < a -> posdef M -> posdef (a *: M).
Proof.
move=> a0 [sM pM]; split; first by rewrite linearZ /= sM.
by move=> u u0; rewrite quadZ mulr_gt0 // pM.
Qed.

Lemma psdZ n a (M : 'M[R]_n) : 0 <= a -> psd M -> psd (a *: M).
Proof.
move=> a0 [sM pM]; split; first by rewrite linearZ /= sM.
by move=> u; rewrite quadZ mulr_ge0 // pM.
Qed.

Lemma posdef1 n : posdef (1%:M : 'M[R]_n).
Proof.
split; first exact: trmx1.
by move=> u u0; rewrite quad1 sqnorm_gt0.
Qed.

Lemma posdef_addl n (M N : 'M[R]_n) : posdef M -> psd N -> posdef (M + N).
Proof.
move=> [sM pM] [sN pN]; split; first by rewrite linearD /= sM sN.
by move=> u u0; rewrite quadD ltr_paddr // pM.
Qed.

Lemma posdef_addr n (M N : 'M[R]_n) : psd M -> posdef N -> posdef (M + N).
Proof. by move=> pM pN; rewrite addrC; apply: posdef_addl. Qed.

Lemma psdD n (M N : 'M[R]_n) : psd M -> psd N -> psd (M + N).
Proof.
move=> [sM pM] [sN pN]; split; first by rewrite linearD /= sM sN.
by move=> u; rewrite quadD addr_ge0.
Qed.

Lemma posdef_inv n (M : 'M[R]_n) : posdef M -> posdef (invmx M).
Proof.
move=> pM; have uM := posdef_unit pM; case: (pM) => sM qM.
split; first by rewrite trmx_inv sM.
move=> u u0.
have -> : quad (invmx M) u = quad M (invmx M *m u).
  by rewrite -quad_mul trmx_inv sM mulVmx // mul1mx.
apply: qM; apply: contraNneq u0 => h.
by rewrite -[u]mul1mx -(mulmxV uM) -mulmxA h mulmx0.
Qed.

Lemma invmx_unique n (M N : 'M[R]_n) : M *m N = 1%:M -> invmx M = N.
Proof.
move=> h; have [uM _] := mulmx1_unit h.
by rewrite -[N]mul1mx -(mulVmx uM) -mulmxA h mulmx1.
Qed.

Lemma invmxZ' n a (M : 'M[R]_n) : a != 0 -> M \in unitmx ->
  invmx (a *: M) = a^-1 *: invmx M.
Proof. by move=> a0 uM; rewrite invmxZ // unitmxZ // unitfE. Qed.

(** ** Moore-Penrose inverse *)

Lemma gram_unit m r (B : 'M[R]_(m, r)) : row_free B^T -> B^T *m B \in unitmx.
Proof.
move=> fB; have := posdef_sandwich fB (posdef1 m).
by rewrite mulmx1 trmxK => /posdef_unit.
Qed.

(** The Moore-Penrose inverse through a full-rank factorisation A = B C.
    Models numpy.linalg.pinv (called at base.py:1154, 1173, 1230 and
    funs.py:90) in exact arithmetic; numpy's relative cut-off of singular values
    (rcond = 1e-15) is not modelled.  ([locked] only stops Coq from unfolding it.) *)
Definition pinv m n (A : 'M[R]_(m, n)) : 'M[R]_(n, m) :=
  let B := col_base A in let C := row_base A in
  locked (C^T *m invmx (C *m C^T) *m invmx (B^T *m B) *m B^T).

Lemma pinv_factor m r n (B : 'M[R]_(m, r)) (C : 'M[R]_(r, n)) :
  row_free B^T -> row_free C ->
  is_pinv (B *m C)
    (C^T *m invmx (C *m C^T) *m invmx (B^T *m B) *m B^T).
Proof.
move=> fB fC.
have uB : B^T *m B \in unitmx by apply: gram_unit.
have uC : C *m C^T \in unitmx.
  by have := @gram_unit _ _ C^T; rewrite trmxK; apply.
set X := (X in is_pinv _ X).
have eX : X = C^T *m invmx (C *m C^T) *m (invmx (B^T *m B) *m B^T).
  by rewrite /X mulmxA.
have e1 : B *m C *m (C^T *m invmx (C *m C^T)) = B.
  by rewrite mulmxA -[B *m C *m C^T]mulmxA -mulmxA mulmxV // mulmx1.
have e2 : invmx (B^T *m B) *m B^T *m (B *m C) = C.
  by rewrite mulmxA -[_ *m B^T *m B]mulmxA mulVmx // mul1mx.
have eAX : B *m C *m X = B *m (invmx (B^T *m B) *m B^T).
  by rewrite eX mulmxA e1.
have eXA : X *m (B *m C) = C^T *m invmx (C *m C^T) *m C.
  by rewrite eX -mulmxA e2.
have symG k (G : 'M[R]_k) : G^T = G -> (invmx G)^T = invmx G.
  by move=> h; rewrite trmx_inv h.
split.
- by rewrite eAX -mulmxA e2.
- rewrite eXA [in X in _ *m X]eX [in RHS]eX mulmxA; congr (_ *m _).
  by rewrite -!mulmxA [C *m (C^T *m _)]mulmxA mulmxV // mulmx1.
- by rewrite eAX !trmx_mul trmxK symG ?mulmxA // trmx_mul trmxK.
- by rewrite eXA !trmx_mul trmxK symG ?mulmxA // trmx_mul trmxK.
Qed.

Lemma pinvP m n (A : 'M[R]_(m, n)) : is_pinv A (pinv A).
Proof.
have := @pinv_factor _ _ _ (col_base A) (row_base A).
rewrite mulmx_base /pinv -lock; apply; last exact: row_base_free.
by rewrite /row_free mxrank_tr; exact: col_base_full.
Qed.

Lemma is_pinv_unique m n (A : 'M[R]_(m, n)) X Y :
  is_pinv A X -> is_pinv A Y -> X = Y.
Proof.
case=> x1 x2 x3 x4 [y1 y2 y3 y4].
have e1 : A *m X = A *m Y.
  rewrite -x3 -[in LHS]y1 -[A *m Y *m A *m X]mulmxA trmx_mul x3 y3.
  by rewrite mulmxA x1.
have e2 : X *m A = Y *m A.
  rewrite -x4 -[in LHS]y1 -[A *m Y *m A]mulmxA mulmxA trmx_mul x4 y4.
  by rewrite -mulmxA (mulmxA A X A) x1.
by rewrite -x2 -mulmxA e1 mulmxA e2 y2.
Qed.

Lemma pinv_unique m n (A : 'M[R]_(m, n)) X : is_pinv A X -> pinv A = X.
Proof. by apply: is_pinv_unique; apply: pinvP. Qed.

Lemma pinv_tr m n (A : 'M[R]_(m, n)) : pinv A^T = (pinv A)^T.
Proof.
apply: pinv_unique; case: (pinvP A) => p1 p2 p3 p4; split.
- by rewrite -!trmx_mul mulmxA p1.
- by rewrite -!trmx_mul mulmxA p2.
- by rewrite -trmx_mul p4.
- by rewrite -trmx_mul p3.
Qed.

Lemma pinv_sym n (A : 'M[R]_n) : A^T = A -> (pinv A)^T = pinv A.
Proof. by move=> sA; rewrite -pinv_tr sA. Qed.

Lemma pinv_scale m n a (A : 'M[R]_(m, n)) : a != 0 ->
  pinv (a *: A) = a^-1 *: pinv A.
Proof.
move=> a0; apply: pinv_unique; case: (pinvP A) => p1 p2 p3 p4.
have e1 : (a *: A) *m (a^-1 *: pinv A) = A *m pinv A.
  by rewrite -scalemxAl -scalemxAr scalerA mulfV // scale1r.
have e2 : (a^-1 *: pinv A) *m (a *: A) = pinv A *m A.
  by rewrite -scalemxAl -scalemxAr scalerA mulVf // scale1r.
split; rewrite ?e1 ?e2 //.
- by rewrite -scalemxAr p1.
- by rewrite -scalemxAr p2.
Qed.

Lemma pinv_unit n (A : 'M[R]_n) : A \in unitmx -> pinv A = invmx A.
Proof.
move=> uA; apply: pinv_unique.
by split; rewrite ?mulmxV ?mulVmx ?mul1mx ?trmx1.
Qed.

End LinAlg.
