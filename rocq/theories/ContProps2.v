(** Property C130, continued: the default problem of run_contours, the one of mud_paper, several data. *)
Set Warnings "-notation-overridden,-ambiguous-paths".
From mathcomp Require Import all_ssreflect all_algebra.
From mathcomp.algebra_tactics Require Import ring.
From Coq Require Import String.
From Verif Require Import Py Nd Spec LinAlg Dmx DmxProofs LgpModel LgpTheory LgpProofs FunctionalProofs LinProps LinProps2 LinProps3 LinExamples
  UtilModel2 PlotModel PlotProps3 DrawModel DrawProps2 DrawProps3 ContModel ContProps.
Set Implicit Arguments. Unset Strict Implicit. Unset Printing Implicit Defensive.
Import Order.Theory GRing.Theory Num.Theory.
Local Open Scope ring_scope.

Section ContProps2.
Variable R : rcfType.
Notation nd := (nd R).
Notation dmx := (dmx R).
Notation lgp := (lgp R).
Notation art := (art R).
Variable ns : seq R -> res (seq (seq R)).

(** The map x + y. *)
Definition sumA : 'M[R]_(1, 2) := const_mx 1.
Lemma sumA_free : row_free sumA.
Proof.
apply/row_freeP; exists (\matrix_(i, j) (if i == 0 then 1 else 0)).
apply/matrixP=> i j; rewrite !mxE !big_ord_recl big_ord0 !mxE (ord1 i) (ord1 j) /=.
by rewrite mulr0 !addr0 mulr1.
Qed.
Lemma sumA_pred a c e : sumA *m sym2 a c e *m sumA^T = (a + c + (c + e))%:M.
Proof.
apply/matrixP => i j; rewrite (ord1 i) (ord1 j) !mxE !big_ord_recl big_ord0 !mxE !big_ord_recl !big_ord0 !mxE /=.
by rewrite ?eqxx; ring.
Qed.
Lemma sumA_CAt a c e : sym2 a c e *m sumA^T = pt2 (a + c) (c + e).
Proof.
apply/matrixP => i j; rewrite !mxE !big_ord_recl big_ord0 !mxE /= !mulr1 addr0.
by case: i => [[|[|//]] hi].
Qed.
Lemma sumA_apply (z : 'cV[R]_2) : sumA *m z = (z 0 0 + z 1 0)%:M.
Proof.
apply/matrixP => i j; rewrite (ord1 i) (ord1 j) !mxE !big_ord_recl big_ord0 !mxE /= !mul1r addr0 ?eqxx ?mulr1n.
by congr (_ + z _ _); apply/val_inj.
Qed.
Lemma pt2D a c a' c' : pt2 a c + pt2 a' c' = pt2 (a + a') (c + c') :> 'cV[R]_2.
Proof. by apply/matrixP => i j; rewrite !mxE; case: eqP. Qed.
Lemma pt2Z a c k : pt2 a c *m (k%:M : 'M[R]_1) = pt2 (a * k) (c * k).
Proof. by rewrite mul_mx_scalar; apply/matrixP => i j; rewrite !mxE; case: eqP => _; rewrite mulrC. Qed.

Lemma sumA_mud a c e y m : posdef (sym2 a c e) -> let s := a + c + (c + e) in
  mudx sumA 0 (y%:M) (pt2 m m) (sym2 a c e) =
  pt2 (m + (a + c) * (s^-1 * (y - (m + m)))) (m + (c + e) * (s^-1 * (y - (m + m)))).
Proof.
move=> pC s; rewrite /mudx gainE pinv_unit ?predcov_unit ?sumA_free // predcovE sumA_pred -/s invmx_scalar.
rewrite residE subr0 sumA_apply !mxE /= -raddfB sumA_CAt -mulmxA -scalar_mxM pt2Z pt2D //.
Qed.
Lemma sumA_map a c e y m k : posdef (sym2 a c e) -> 0 < k -> let s := a + c + (c + e) + k in
  mapx sumA 0 (y%:M) (pt2 m m) (sym2 a c e) k%:M =
  pt2 (m + (a + c) * (s^-1 * (y - (m + m)))) (m + (c + e) * (s^-1 * (y - (m + m)))).
Proof.
move=> pC k0 s; rewrite /mapx kalman_gain //; last exact: posdef_scalar1.
rewrite predcovE sumA_pred -raddfD -/s invmx_scalar.
rewrite residE subr0 sumA_apply !mxE /= -raddfB sumA_CAt -mulmxA -scalar_mxM pt2Z pt2D //.
Qed.
Lemma sumA_ls y : lsx sumA 0 (y%:M) = pt2 (y / 2%:R) (y / 2%:R).
Proof.
rewrite -(@mud_ls _ _ _ _ _ _ 1) ?oner_eq0 //.
have -> : (1%:M : 'M[R]_2) = sym2 1 0 1.
  by apply/matrixP => i j; rewrite !mxE; case: i => [[|[|//]] hi]; case: j => [[|[|//]] hj].
have -> : (0 : 'cV[R]_2) = pt2 0 0 by apply/matrixP => i j; rewrite !mxE; case: eqP.
rewrite sumA_mud; last by apply: posdef_sym2; rewrite ?ltr01 // expr0n mulr1 ltr01.
by rewrite !addr0 !add0r subr0 !mul1r mulrC.
Qed.

Lemma sumA_problem (a c e k m y : R) (al : option R) p :
  lgp_init (Nd [:: 1; 2]%N [:: 1; 1]) (Some (Nd [:: 1; 1]%N [:: 0])) (Some (Nd [:: 1; 1]%N [:: y]))
    (Some (Nd [:: 2; 1]%N [:: m; m])) (Some (Dmx (sym2 a c e))) (Some (Dmx (k%:M : 'M[R]_1))) al = Ok p ->
  inputs p sumA 0 (y%:M) (pt2 m m) (sym2 a c e) (odflt 1 al) /\ lcovo p = Dmx (k%:M : 'M[R]_1).
Proof.
have h2 : holds2 (Nd [:: 1; 2]%N [:: 1; 1 : R]) sumA.
  by split=> // i j; rewrite (ord1 i) mxE; case: j => [[|[|//]] hj].
have hb : holds1 (Nd [:: 1; 1]%N [:: (0 : R)]) (0 : 'cV[R]_1) by split=> // i; rewrite (ord1 i) mxE.
have hy : holds1 (Nd [:: 1; 1]%N [:: y]) (y%:M) by split=> // i; rewrite (ord1 i) mxE eqxx mulr1n.
have hm : holds1 (Nd [:: 2; 1]%N [:: m; m]) (pt2 m m).
  by split=> // i; rewrite mxE; case: i => [[|[|//]] hj].
have [p' [e' ip eS]] := C21_init_inputs (sym2 a c e) (k%:M : 'M[R]_1) (odflt 1 al) h2 hb hy hm.
have -> : lgp_init (Nd [:: 1; 2]%N [:: 1; 1]) (Some (Nd [:: 1; 1]%N [:: 0])) (Some (Nd [:: 1; 1]%N [:: y]))
    (Some (Nd [:: 2; 1]%N [:: m; m])) (Some (Dmx (sym2 a c e))) (Some (Dmx (k%:M : 'M[R]_1))) al = Ok p'.
  by rewrite -e'; case: al {e' ip}.
by case=> <-.
Qed.

Lemma sumA_build (a c e k m y : R) (al : option R) : exists p,
  lgp_init (Nd [:: 1; 2]%N [:: 1; 1]) (Some (Nd [:: 1; 1]%N [:: 0])) (Some (Nd [:: 1; 1]%N [:: y]))
    (Some (Nd [:: 2; 1]%N [:: m; m])) (Some (Dmx (sym2 a c e))) (Some (Dmx (k%:M : 'M[R]_1))) al = Ok p.
Proof. by eexists. Qed.

(** The arrays of linear.py:554-561 and of examples.py:889-897 as matrices. *)
Lemma array2 (a c e : R) : dbuild 2 2 (fun i j => nth 0 (nth [::] [:: [:: a; c]; [:: c; e]] i) j) = Dmx (sym2 a c e).
Proof.
rewrite /dbuild; congr Dmx; apply/matrixP => i j; rewrite !mxE.
by case: i => [[|[|//]] hi]; case: j => [[|[|//]] hj].
Qed.
Lemma array1 (k : R) : dbuild 1 1 (fun _ _ => k) = Dmx (k%:M : 'M[R]_1).
Proof. by rewrite /dbuild; congr Dmx; apply/matrixP => i j; rewrite !mxE !ord1. Qed.

(** By default: x + y = 1 from the mean (1/4, 1/4).  The MUD point is (5/8, 3/8), the MAP point
    (7/16, 5/16), the least-squares solution (1/2, 1/2); the hypotheses of [C130_figures] hold. *)
Theorem C130_default : exists p, 
  let C := sym2 1 (- (1 / 4%:R)) (1 / 2%:R) in let q : R := 1 / 4%:R in
  [/\ contour_problem (no_overrides R) = Ok p,
      inputs p sumA 0 1%:M (pt2 q q) C 1 /\ lcovo p = Dmx (1%:M : 'M[R]_1),
      [/\ row_free sumA, posdef C & posdef (1%:M : 'M[R]_1)] &
      [/\ answer p "mud" (pt2 (5%:R / 8%:R) (3%:R / 8%:R)), answer p "map" (pt2 (7%:R / 16%:R) (5%:R / 16%:R)) &
          answer p "ls" (pt2 (1 / 2%:R) (1 / 2%:R))]].
Proof.
have [p e] := sumA_build 1 (- dec R 1 4) (dec R 1 2) 1 (dec R 1 4) 1 None.
have [ip eS] := sumA_problem e; rewrite [odflt _ _]/= in ip.
have pC : posdef (sym2 1 (- dec R 1 4) (dec R 1 2)).
  apply: posdef_sym2; first exact: ltr01.
  by rewrite mul1r sqrrN /dec mulr1n !div1r exprVn ltf_pinv ?posrE ?exprn_gt0 ?ltr0n // -natrX ltr_nat.
have pS : posdef (1%:M : 'M[R]_1) by exact: posdef_scalar1 ltr01.
exists p; split=> //.
- by rewrite /contour_problem; cbn [no_overrides o_A o_b o_y o_mean o_covi o_covo o_alpha odflt oapp]; rewrite array2 array1.
- by split=> //; exact: sumA_free.
split.
- rewrite /answer (mudE ltr01 ip) sumA_mud //= /dec; congr (Ok (VArr (Dmx (pt2 _ _)))); by field.
- rewrite /answer (mapE pC pS ltr01 ip eS) scale1r sumA_map ?ltr01 //= /dec; congr (Ok (VArr (Dmx (pt2 _ _)))); by field.
- by rewrite /answer (solve_lsE ip) sumA_ls.
Qed.

(** The figure of mud_paper (examples.py:889-899): the MUD point is (3/4, 1/4), the MAP point
    (1/2, 1/4).  It is saved under the name of the comparison figure of the default problem. *)
Definition paper_overrides : overrides R :=
  Overrides (Some (Nd [:: 1; 2]%N [:: 1; 1])) (Some (Some (Nd [:: 1; 1]%N [:: 0]))) (Some (Some (Nd [:: 1; 1]%N [:: 1])))
    (Some (Some (Nd [:: 2; 1]%N [:: dec R 1 4; dec R 1 4])))
    (Some (Some (dbuild 2 2 (fun i j => nth 0 (nth [::] [:: [:: 1; - dec R 1 2]; [:: - dec R 1 2; dec R 1 2]] i) j))))
    (Some (Some (dbuild 1 1 (fun _ _ => dec R 1 2)))) (Some (Some 1)).
Theorem C130_paper : exists p,
  let C := sym2 1 (- (1 / 2%:R)) (1 / 2%:R) in let q : R := 1 / 4%:R in let S : 'M[R]_1 := (1 / 2%:R)%:M in
  [/\ contour_problem paper_overrides = Ok p,
      inputs p sumA 0 1%:M (pt2 q q) C 1 /\ lcovo p = Dmx S,
      [/\ row_free sumA, posdef C & posdef S],
      [/\ answer p "mud" (pt2 (3%:R / 4%:R) (1 / 4%:R)), answer p "map" (pt2 (1 / 2%:R) (1 / 4%:R)) &
          answer p "ls" (pt2 (1 / 2%:R) (1 / 2%:R))] &
      filter (asked (Some (FigString "comparison"%string))) keys = [:: "comparison"%string]].
Proof.
have [p e] := sumA_build 1 (- dec R 1 2) (dec R 1 2) (dec R 1 2) (dec R 1 4) 1 (Some 1).
have [ip eS] := sumA_problem e; rewrite [odflt _ _]/= in ip.
have d0 : 0 < dec R 1 2 by rewrite /dec mulr1n div1r invr_gt0 ltr0n.
have pC : posdef (sym2 1 (- dec R 1 2) (dec R 1 2)).
  apply: posdef_sym2; first exact: ltr01.
  by rewrite mul1r sqrrN /dec mulr1n !div1r exprVn ltf_pinv ?posrE ?exprn_gt0 ?ltr0n // -natrX ltr_nat.
have pS : posdef ((dec R 1 2)%:M : 'M[R]_1) by exact: posdef_scalar1.
exists p; split=> //.
- by rewrite /contour_problem; cbn [paper_overrides o_A o_b o_y o_mean o_covi o_covo o_alpha odflt oapp]; rewrite array2 array1.
- by split=> //; exact: sumA_free.
split.
- rewrite /answer (mudE ltr01 ip) sumA_mud //= /dec; congr (Ok (VArr (Dmx (pt2 _ _)))); by field.
- rewrite /answer (mapE pC pS ltr01 ip eS) scale1r sumA_map //= /dec; congr (Ok (VArr (Dmx (pt2 _ _)))); by field.
- by rewrite /answer (solve_lsE ip) sumA_ls.
Qed.

(** In both, the contour drawn is the line x + y = 1, the null space of (1, 1) being spanned by v;
    the MUD points and the point labelled "Truth" are on it, the MAP points are not. *)
Theorem C130_contour (v : R * R) : v.1 + v.2 = 0 ->
  exists a c a' c', [/\ contour_of (pt2 (1 / 2%:R) (1 / 2%:R)) v = Curve [:: a; a'] [:: c; c'],
    a + c = 1 & a' + c' = 1].
Proof.
move=> h; do 4 eexists; split; first by rewrite /contour_of !mxE /=; reflexivity.
  by rewrite addrACA -opprD h subr0; field.
by rewrite addrACA h addr0; field.
Qed.

(** With several data every figure raises ValueError: the first one asked for, before anything is
    finished; if none is, the solved problem is returned. *)
Theorem C130_many_data m kw pf sp cl p (A : 'M[R]_(m, 2)) b y mu C S al :
  contour_problem kw = Ok p -> inputs p A b y mu C al -> lcovo p = Dmx S ->
  (1 < m)%N -> m <> (250 * 250)%N -> posdef C -> posdef S -> 0 < al ->
  if has (asked pf) keys then run_contours ns pf sp cl kw = ([::], Err ValueError)
  else exists p', [/\ run_contours ns pf sp cl kw = ([::], Ok p'),
    l_mud p' = Some (Dmx (mudx A b y mu C)), l_map p' = Some (Dmx (mapx A b y mu (al *: C) S)) & l_ls p' = Some (Dmx (lsx A b y))].
Proof.
move=> ep ip eS m1 m2 pC pS a0; have pC' := posdefZ a0 pC.
have s1 : solve p "mud" None = (set_mud p (Dmx (mudx A b y mu C)), Ok (VArr (Dmx (mudx A b y mu C)))).
  by rewrite (solve_mudE ip) mud_alpha // gt_eqF.
set p1 := set_mud _ _ in s1.
have i1 : inputs p1 A b y mu C al by exact: ip.
have s2 : solve p1 "map" None = (set_map p1 (Dmx (mapx A b y mu (al *: C) S)) (Dmx (covp A (al *: C) S)),
    Ok (VArr (Dmx (mapx A b y mu (al *: C) S)))).
  rewrite (solve_mapE i1 (truncate_none_co i1 eS)) //; try exact: posdef_unit.
  exact/posdef_unit/precis_posdef.
set p2 := set_map _ _ _ in s2.
have i2 : inputs p2 A b y mu C al by exact: ip.
have s3 := solve_lsE i2; set p3 := set_ls _ _ in s3.
have i3 : inputs p3 A b y mu C al by exact: ip.
have bad t ds : draw_all (@fun_contours R t :: ds) p3 = (p3, Err ValueError).
  by cbn [draw_all]; rewrite {1}/fun_contours (C126_many_data t 1 i3 m1 _ m2).
have run : run_contours ns pf sp cl kw =
    draw_figures (odflt (FigNames [:: "all"%string]) pf) sp cl (contour_figures ns) p3.
  by rewrite /run_contours ep s1 s2 s3.
have badc k : call_of ns k p3 = (p3, Err ValueError).
  rewrite /call_of /call_mismatch /call_tikhonov /call_consistent /call_map /call_mud /call_comparison.
  case: (k =? "data_mismatch")%string; first by rewrite bad.
  case: (k =? "tikhonov")%string; first by rewrite bad.
  case: (k =? "consistent")%string; first by rewrite bad.
  case: (k =? "map")%string; first by rewrite bad.
  by case: (k =? "mud")%string; rewrite bad.
have sel k : fig_in k (odflt (FigNames [:: "all"%string]) pf) || fig_in "all" (odflt (FigNames [:: "all"%string]) pf) = asked pf k.
  by case: pf {run} => //; rewrite /= orbT.
have main ks : draw_figures (odflt (FigNames [:: "all"%string]) pf) sp cl [seq (k, file_of k, call_of ns k) | k <- ks] p3 =
    if has (asked pf) ks then ([::], Err ValueError) else ([::], Ok p3).
  elim: ks => [//|k ks ih]; cbn [map draw_figures has]; rewrite sel.
  by case: (asked pf k); [rewrite badc | exact: ih].
rewrite run; have := main keys; rewrite /keys; cbn [map]; move=> e.
have -> : draw_figures (odflt (FigNames [:: "all"%string]) pf) sp cl (contour_figures ns) p3 =
  if has (asked pf) keys then ([::], Err ValueError) else ([::], Ok p3) by exact: e.
by case: (has _ keys) => //; exists p3.
Qed.
End ContProps2.
