(** Concrete cases for C123-C127, over any real closed field. *)
Set Warnings "-notation-overridden,-ambiguous-paths".
From mathcomp Require Import all_ssreflect all_algebra.
From Coq Require Import String.
From Verif Require Import Py Nd Spec LinAlg Dmx DmxProofs LgpModel LgpTheory LgpProofs FunctionalProofs LinProps LinProps2 LinExamples
  IterModel UtilModel UtilModel2 PlotModel StModel StProps StProps3 StExamples DrawModel DrawProps DrawProps2 DrawProps3.
Set Implicit Arguments. Unset Strict Implicit. Unset Printing Implicit Defensive.
Import Order.Theory GRing.Theory Num.Theory.
Local Open Scope ring_scope.

Section DrawExamples.
Variable R : rcfType.
Notation art := (art R).

(** Three parameters: asked for the third against the second, the plot shows the first two. *)
Definition three : nd R := Nd [:: 2; 3]%N [:: 1; 2%:R; 3%:R; 4%:R; 5%:R; 6%:R].
Definition obs : nd R := Nd [:: 2; 1]%N [:: 7%:R; 8%:R].
Theorem C123_asked_columns_refuted tri :
  plot_params_2d tri three obs 2 1 0 false false =
    Ok [:: Points [:: 1; 4%:R] [:: 2%:R; 5%:R] (Some [:: 7%:R; 8%:R]); XLabelParam R 3; YLabelParam R 2].
Proof. by []. Qed.
Example C123_qoi_met : plot_qoi three (-1) 0 = Ok [:: Points [:: 3%:R; 6%:R] [:: 1; 4%:R] None].
Proof. by []. Qed.

(** x + 2 y = 3 with mean (1, -1). *)
Definition dA : 'M[R]_(1, 2) := \matrix_(i, j) (if j == 0 then 1 else 2%:R).
Definition db : 'cV[R]_1 := 0.
Definition dy : 'cV[R]_1 := const_mx 3%:R.
Definition dmu : 'cV[R]_2 := \matrix_(i, j) (if i == 0 then 1 else -1).
Definition dC : 'M[R]_2 := sym2 2%:R 1 2%:R.
Definition dS : 'M[R]_1 := (1 / 4%:R)%:M.
Definition dp : lgp R := @Lgp R (Dmx dA) (Dmx db) (Dmx dy) (Dmx dmu) (Dmx dC) (Dmx dS) 1 None None None None None None.
Let ip : inputs dp dA db dy dmu dC 1. Proof. by []. Qed.
Let fA : row_free dA.
Proof.
apply/row_freeP; exists (\matrix_(i, j) (if i == 0 then 1 else 0)).
apply/matrixP=> i j; rewrite !mxE !big_ord_recl big_ord0 !mxE (ord1 i) (ord1 j) /=.
by rewrite mulr0 !addr0 mulr1.
Qed.
Let pC : posdef dC.
Proof. by apply: posdef_sym2; rewrite ?ltr0n // expr1n -natrM (ltr_nat R 1 4). Qed.
Let pS : posdef dS.
Proof. by apply: posdef_scalar1; rewrite div1r invr_gt0 ltr0n. Qed.

Example C124_met : exists x : 'cV[R]_2, dA *m x + db = dy /\ (plot_sol dp "mud" true (Some "mud"%string) None).2 =
  Ok [:: Points [:: x 0 0] [:: x 1 0] None; Curve [:: dmu 0 0; x 0 0] [:: dmu 1 0; x 1 0];
         Note "mud" (x 0 0 - 2%:R / 100%:R) (x 1 0 + 2%:R / 100%:R)].
Proof.
have [x hx fx] := C01_mud_reproduces_data ip fA pC ltr01.
exists x; split=> //; by rewrite (@C124_solution R 0 dp dmu x "mud" true _ _ erefl _ hx).
Qed.

(** The contour of the only row: a line through ref = (1, 1) in the direction (2, -1). *)
Example C125_met ns : ns [:: 1; 2%:R] = Ok [:: [:: 2%:R; -1]] ->
  lgp_plot_contours ns dp (Some [:: 1; 1]) None 1 [:: "color"; "ls"]%string false None (fun _ => ""%string) =
    (dp, Ok [:: Curve [:: 1 - 1 * 2%:R; 1 + 1 * 2%:R] [:: 1 - 1 * -1; 1 + 1 * -1]]).
Proof.
move=> e; have [-> _ _] := @C125_lines R ns 1 2 dp dA 0 None 1 [:: "color"; "ls"]%string None (fun _ => ""%string) erefl isT.
have -> : arows dA = [:: [:: 1; 2%:R]].
  by rewrite /arows !enum_ordSl enum_ord0 /= !mxE.
by rewrite /plot_contours /= e.
Qed.
Example C125_ls_met ns : exists x, answer dp "ls" x /\ forall ann,
  (lgp_plot_contours ns dp None None 1 [:: "color"]%string ann None (fun _ => ""%string)).2 =
  (lgp_plot_contours ns dp (Some [seq x i 0 | i <- enum 'I_2]) None 1 [:: "color"]%string ann None (fun _ => ""%string)).2.
Proof.
have [x [hx _ _]] := C12_ls_min_norm_best_fit ip; exists x; split=> // ann.
by have [_ _ ->] := @C125_lines R ns 1 2 dp dA x None 1 [:: "color"]%string None (fun _ => ""%string) erefl isT.
Qed.

Example C126_met : exists X Y Z, [/\ plot_fun_contours dp None "dc" 3 1 = Ok [:: Contour X Y Z],
  is_array 3 X (fun i j => 1 * j%:R / 2%:R), is_array 3 Y (fun i j => 1 * i%:R / 2%:R) &
  is_array 3 Z (fun i j => let z := pt2 (1 * j%:R / 2%:R) (1 * i%:R / 2%:R) in
    quad (invmx dS) (dA *m z + db - (dy - db)) + 1 * quad (invmx dC) (z - dmu)
    - 1 * quad (invmx (dA *m dC *m dA^T)) (dA *m (z - dmu)))].
Proof. by have [] := @C126_functionals R dp 3 dA db dy dmu dC dS 1 1 ip erefl fA pC pS isT. Qed.

Example C125_chain_met : plot_chain (@Ilp R (Dmx dA) [:: 0] [:: 3%:R] (Dmx dmu) (Dmx dC) (Dmx dS) [:: 0] [:: [:: Dmx dmu; Dmx dmu]] [::])
  (Dmx dmu) = Err TypeError.
Proof. by apply: (@C125_chain_type_error R 0 _ dmu [:: [:: dmu; dmu]]); rewrite // inE. Qed.

(** The second sensor of the data set of StExamples: the measurement 1 and the values 1, 1. *)
Example C127_met : plot_ts (exst R) None None (Some (-1)) 5 =
  Ok [:: OnCurrent (Points [:: 0] [:: 1] None); Curve [:: 0] [:: 1]; Curve [:: 0] [:: 1]].
Proof. by []. Qed.
Example C127_hypotheses_met : setup (exst R) 2 2 2 1 (exdat R) (exlam R) (exse R) (exti R) /\ Nd.shape (exse R) = [:: 2; 2]%N /\
  picked 2 None = Ok [:: 0; 1]%N /\ picked 1 None = Ok [:: 0%N] /\ meant 2 (-1) 1.
Proof. by split; [exact: C59_hypotheses_met | do !split=> //; right]. Qed.
End DrawExamples.
