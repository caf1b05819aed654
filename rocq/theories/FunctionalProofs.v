(** compute_functionals and norm.py on well-shaped arguments. *)
Set Warnings "-notation-overridden,-ambiguous-paths".
From mathcomp Require Import all_ssreflect all_algebra.
From Coq Require Import String.
From Verif Require Import Py Nd Spec LinAlg Dmx DmxProofs LgpModel LgpTheory LgpProofs.
Set Implicit Arguments. Unset Strict Implicit. Unset Printing Implicit Defensive.
Import Order.Theory GRing.Theory Num.Theory.
Local Open Scope ring_scope.

Section FunctionalProofs.
Variable R : realFieldType.
Notation dmx := (dmx R).

(** Per-sample values: one entry for each row of the sample matrix. *)
Definition samplewise k n (f : 'cV[R]_n -> R) (X : 'M[R]_(k, n)) : seq R :=
  [seq f (row i X)^T | i <- enum 'I_k].

Lemma bdim1r n : bdim n 1 = Some n.
Proof. by rewrite /bdim; case: eqP => // _; case: eqP => [->|]. Qed.

Lemma bdim1l n : bdim 1 n = Some n.
Proof. by rewrite /bdim; case: eqP => [<-|]. Qed.

Lemma dsub_row k n (X : 'M[R]_(k, n)) (u : 'cV[R]_n) :
  dsub (Dmx X) (Dmx u^T) = Ok (Dmx (\matrix_(i, j) (X i j - u j 0))).
Proof.
rewrite /dsub /dbop /= bdim1r bdim_same; congr Ok; apply: dbuildE => i j.
rewrite !bidx_ord dgetE /bidx eqxx -[0%N]/(nat_of_ord (ord0 : 'I_1)).
by rewrite dgetE !mxE.
Qed.

Lemma dbop_col f m k (Z : 'M[R]_(m, k)) (u : 'cV[R]_m) :
  dbop f (Dmx Z) (Dmx u) = Ok (Dmx (\matrix_(i, j) f (Z i j) (u i 0))).
Proof.
rewrite /dbop /= bdim1r bdim_same; congr Ok; apply: dbuildE => i j.
rewrite !bidx_ord dgetE /bidx [1%N == 1%N]eqxx -[0%N]/(nat_of_ord (ord0 : 'I_1)).
by rewrite dgetE !mxE.
Qed.

Lemma inner_productE m k (X : 'M[R]_(m, k)) (M : 'M[R]_m) : M \in unitmx ->
  inner_product (Dmx X) (Dmx M) = Ok [seq quad (invmx M) (col j X) | j <- enum 'I_k].
Proof.
move=> uM; rewrite /inner_product dinvE //= dmulE /= /dhad dbopE /= dsum0E.
congr Ok; apply: eq_map => j; rewrite /quad -mulmxA mxE.
apply: eq_bigr => i _; rewrite !mxE; congr (_ * _).
by apply: eq_bigr => l _; rewrite !mxE.
Qed.

Lemma inner_product_sing m k (X : 'M[R]_(m, k)) (M : 'M[R]_m) : M \notin unitmx ->
  inner_product (Dmx X) (Dmx M) = Err LinAlgError.
Proof. by move=> uM; rewrite /inner_product dinv_sing. Qed.

Lemma vbop_map (I : Type) f (g h : I -> R) (s : seq I) :
  vbop f (map g s) (map h s) = Ok [seq f (g i) (h i) | i <- s].
Proof.
rewrite /vbop !size_map bdim_same; congr Ok.
apply: (@eq_from_nth _ 0); rewrite !size_map size_iota // => i hi.
rewrite (nth_map 0%N) ?size_iota // nth_iota // add0n bidx_lt //.
case: s hi => [//|i0 s] hi.
by rewrite !(nth_map i0).
Qed.

Lemma vbop_sw f k n g h (X : 'M[R]_(k, n)) :
  vbop f (samplewise g X) (samplewise h X)
  = Ok (samplewise (fun x => f (g x) (h x)) X).
Proof. exact: vbop_map. Qed.

Lemma vscale_map (I : Type) c (g : I -> R) (s : seq I) :
  vscale c (map g s) = [seq c * g i | i <- s].
Proof. by rewrite /vscale -map_comp. Qed.

(** columns of the arrays the code builds *)
Lemma col_dev k n (X : 'M[R]_(k, n)) (u : 'cV[R]_n) j :
  col j (\matrix_(i, l) (X i l - u l 0))^T = (row j X)^T - u.
Proof. by apply/matrixP=> i l; rewrite !mxE ord1. Qed.

Lemma col_mul m n k (A : 'M[R]_(m, n)) (B : 'M[R]_(n, k)) j :
  col j (A *m B) = A *m col j B.
Proof. by rewrite !colE mulmxA. Qed.

Lemma col_AX m k n (A : 'M[R]_(m, n)) (X : 'M[R]_(k, n)) (j : 'I_k) :
  col j (A *m X^T) = A *m (row j X)^T.
Proof. by rewrite col_mul; congr (_ *m _); apply/matrixP=> i l; rewrite !mxE. Qed.

Lemma col_affine m k (f : R -> R -> R) (Z : 'M[R]_(m, k)) (u : 'cV[R]_m) j :
  col j (\matrix_(i, l) (f (Z i l) (u i 0)))
  = \matrix_(i, l) f (col j Z i l) (u i l).
Proof. by apply/matrixP=> i l; rewrite !mxE ord1. Qed.

(** *** norm.py *)
Lemma norm_inputE k n (X : 'M[R]_(k, n)) mu (C : 'M[R]_n) : C \in unitmx ->
  norm_input (Dmx X) (Dmx mu) (CMat (Dmx C))
  = Ok (samplewise (fun x => quad (invmx C) (x - mu)) X).
Proof.
move=> uC; rewrite /norm_input dsub_row /= inner_productE //.
by congr Ok; apply: eq_map => j; rewrite col_dev.
Qed.

Lemma norm_dataE m k n (A : 'M[R]_(m, n)) (X : 'M[R]_(k, n)) b y (S : 'M[R]_m) :
  S \in unitmx ->
  norm_data (Dmx A) (Dmx X) (Dmx b) (Some (Dmx y^T)) (CMat (Dmx S))
  = Ok (samplewise (fun x => quad (invmx S) (A *m x + b - y)) X).
Proof.
move=> uS; rewrite /norm_data /= dmulE /= /dadd dbop_col /=.
have -> : dtr (Dmx y^T) = Dmx y by rewrite /dtr /= trmxK.
rewrite /dsub dbop_col /= inner_productE //.
congr Ok; apply: eq_map => j; congr (quad _ _).
rewrite (col_affine (fun x y => x - y)) (col_affine +%R) col_AX.
by apply/matrixP=> i l; rewrite !mxE.
Qed.

Lemma norm_predictedE m k n (A : 'M[R]_(m, n)) (X : 'M[R]_(k, n)) mu (C : 'M[R]_n) :
  A *m C *m A^T \in unitmx ->
  norm_predicted (Dmx A) (Dmx X) (Dmx mu) (CMat (Dmx C))
  = Ok (samplewise (fun x => quad (invmx (A *m C *m A^T)) (A *m (x - mu))) X).
Proof.
move=> uP; rewrite /norm_predicted /= dmulE /= dmulE /= dsub_row /= dmulE /=.
rewrite inner_productE //; congr Ok; apply: eq_map => j.
by rewrite col_mul col_dev.
Qed.

Lemma full_functionalE m k n (A : 'M[R]_(m, n)) (X : 'M[R]_(k, n)) b y mu
    (C : 'M[R]_n) (S : 'M[R]_m) :
  C \in unitmx -> S \in unitmx -> A *m C *m A^T \in unitmx ->
  full_functional (Dmx A) (Dmx X) (Dmx b) (Dmx mu) (CMat (Dmx C)) (Some (Dmx y^T))
    (CMat (Dmx S))
  = Ok (samplewise (dc_objective A b y mu C S) X).
Proof.
move=> uC uS uP; rewrite /full_functional norm_inputE //= norm_dataE //=.
rewrite /vadd vbop_map /= norm_predictedE //= /vsub vbop_map.
congr Ok; apply: eq_map => j; rewrite /dc_objective /bayes_objective.
by congr (_ - _); rewrite addrC.
Qed.

(** *** compute_functionals *)
Lemma dc0E m k n (A : 'M[R]_(m, n)) (X : 'M[R]_(k, n)) mu (C : 'M[R]_n) :
  A *m C *m A^T \in unitmx ->
  (d' <- dsub (Dmx X) (Dmx mu^T) ;;
   Ad <- dmul (Dmx A) (dtr d') ;;
   AC <- dmul (Dmx A) (Dmx C) ;;
   ACA <- dmul AC (Dmx A^T) ;;
   inner_product Ad ACA)
  = Ok (samplewise (fun x => quad (invmx (A *m C *m A^T)) (A *m (x - mu))) X).
Proof.
move=> uP; rewrite dsub_row /= dmulE /= dmulE /= dmulE /= inner_productE //.
by congr Ok; apply: eq_map => j; rewrite col_mul col_dev.
Qed.

(** What the code's data term computes when the observation is a scalar. *)
Lemma data_chain k n (A : 'M[R]_(1, n)) (X : 'M[R]_(k, n)) (b y : 'cV[R]_1)
    (S : 'M[R]_1) : S \in unitmx ->
  exists Z : 'M[R]_(1, k), [/\ dsub (Dmx y) (Dmx b) = Ok (Dmx (y - b)),
    dadd (Dmx (A *m X^T)) (Dmx b) = Ok (Dmx Z) &
    exists W : 'M[R]_(1, k), dsub (Dmx Z) (dtr (Dmx (y - b))) = Ok (Dmx W) /\
    inner_product (Dmx W) (Dmx S)
    = Ok (samplewise (fun x => quad (invmx S) (A *m x + b - (y - b))) X)].
Proof.
move=> uS; exists (\matrix_(i, j) ((A *m X^T) i j + b i 0)); split.
- by rewrite dsubE.
- by rewrite /dadd dbop_col.
have -> : dtr (Dmx (y - b)) = Dmx (y - b).
  by rewrite /dtr /=; congr Dmx; apply/matrixP=> i j; rewrite !mxE !ord1.
rewrite /dsub dbop_col; eexists; split; first by [].
rewrite inner_productE //; congr Ok.
apply: eq_map => j; congr (quad _ _).
rewrite (col_affine (fun x y => x - y)) (col_affine +%R) col_AX.
by apply/matrixP=> i l; rewrite !mxE.
Qed.

Lemma cf_dataE k n (A : 'M[R]_(1, n)) (X : 'M[R]_(k, n)) (b y : 'cV[R]_1) (S : 'M[R]_1)
    (p : lgp R) mu C al :
  inputs p A b y mu C al -> lcovo p = Dmx S -> S \in unitmx ->
  compute_functionals p (Dmx X) "data"
  = Ok (FArr (samplewise (fun x => quad (invmx S) (A *m x + b - (y - b))) X)).
Proof.
case=> eA eb ey [em eC ea] eS uS; rewrite /compute_functionals eA eb ey eS.
have [Z [h1 h2 [W [h3 h4]]]] := data_chain A X b y uS.
by rewrite h1 /rbind dmulE h2 h3 h4.
Qed.

Lemma cf_allE k n (A : 'M[R]_(1, n)) (X : 'M[R]_(k, n)) (b y : 'cV[R]_1) (S : 'M[R]_1)
    (p : lgp R) mu C al :
  inputs p A b y mu C al -> lcovo p = Dmx S -> S \in unitmx -> C \in unitmx ->
  A *m C *m A^T \in unitmx ->
  let d x := quad (invmx S) (A *m x + b - (y - b)) in
  let r x := al * quad (invmx C) (x - mu) in
  let q x := al * quad (invmx (A *m C *m A^T)) (A *m (x - mu)) in
  [/\ compute_functionals p (Dmx X) "reg" = Ok (FArr (samplewise r X)),
      compute_functionals p (Dmx X) "dc_term" = Ok (FArr (samplewise q X)),
      compute_functionals p (Dmx X) "bayes"
        = Ok (FArr (samplewise (fun x => d x + r x) X))
    & compute_functionals p (Dmx X) "dc"
        = Ok (FArr (samplewise (fun x => d x + r x - q x) X))].
Proof.
move=> i eS uS uC uP d r q.
case: i => eA eb ey [em eC ea]; rewrite /compute_functionals eA eb ey em eC ea eS.
have [Z [h1 h2 [W [h3 h4]]]] := data_chain A X b y uS.
rewrite h1 /rbind (dmulE A X^T) h2 h3 h4 -/d /=.
rewrite dsub_row /= inner_productE //= vscale_map.
have -> : [seq al * quad (invmx C) (col i (\matrix_(i0, j) (X i0 j - mu j 0))^T)
          | i <- enum 'I_k] = samplewise r X.
  by apply: eq_map => j; rewrite col_dev.
rewrite dmulE /= dmulE /= dmulE /= inner_productE //= vscale_map.
set w := [seq _ | _ <- _].
have -> : w = samplewise q X.
  by apply: eq_map => j; rewrite col_mul col_dev.
rewrite /vadd /vsub (vbop_sw _ r q) (vbop_sw _ d r) /= (vbop_sw _ _ q).
by [].
Qed.

End FunctionalProofs.
