(** Property C130: the figures of run_contours. *)
Set Warnings "-notation-overridden,-ambiguous-paths".
From mathcomp Require Import all_ssreflect all_algebra.
From mathcomp.algebra_tactics Require Import ring.
From Coq Require Import String.
From Verif Require Import Py Nd Spec LinAlg Dmx DmxProofs LgpModel LgpTheory LgpProofs FunctionalProofs LinProps LinProps2
  UtilModel2 PlotModel PlotProps3 DrawModel DrawProps2 DrawProps3 ContModel.
Set Implicit Arguments. Unset Strict Implicit. Unset Printing Implicit Defensive.
Import Order.Theory GRing.Theory Num.Theory.
Local Open Scope ring_scope.

(** ** Which figures are asked for *)
Theorem C130_names k l : fig_in k (FigNames l) = true <-> List.In k l.
Proof.
rewrite /fig_in; elim: l => [//|a l ih] /=; case: (String.eqb_spec k a) => [->|n] /=; first by split=> // _; left.
by rewrite ih; split=> [h|[e|//]]; [right | case: n].
Qed.
Lemma substring_append (a k b : string) : String.substring (String.length a) (String.length k) (a ++ k ++ b)%string = k.
Proof.
elim: a => [|c a ih] /=; last exact: ih.
by elim: k => [|c k ih] /=; [case: b | rewrite ih].
Qed.
Lemma substring_prefix m s : exists b, s = (String.substring 0 m s ++ b)%string.
Proof.
elim: s m => [|c s ih] [|m] /=; try by eexists.
by have [b e] := ih m; exists b; rewrite -e.
Qed.
Lemma substring_split n m s : exists a b, s = (a ++ String.substring n m s ++ b)%string.
Proof.
elim: s n => [|c s ih] [|n]; try by exists ""%string; exact: substring_prefix.
- by exists ""%string, ""%string.
- by have [a [b e]] := ih n; exists (String c a), b; rewrite /= -e.
Qed.
(** A string asks for every figure whose name it contains. *)
Theorem C130_string k t : k <> ""%string -> fig_in k (FigString t) = true <-> exists a b, t = (a ++ k ++ b)%string.
Proof.
move=> k0; rewrite /fig_in; case E: (String.index 0 k t) => [n|].
  split=> // _; have h := String.index_correct1 _ _ _ _ E.
  by have := substring_split n (String.length k) t; rewrite h.
split=> // -[a [b e]].
have := @String.index_correct3 0 (String.length a) k t E k0 (le_0_n _).
by rewrite e substring_append.
Qed.

Section ContProps.
Variable R : rcfType.
Notation nd := (nd R).
Notation dmx := (dmx R).
Notation lgp := (lgp R).
Notation art := (art R).
Variable ns : seq R -> res (seq (seq R)).

(** ** Specification: what the figures show *)
Definition keys : seq string := [:: "data_mismatch"; "tikhonov"; "consistent"; "map"; "mud"; "comparison"]%string.
Definition file_of (k : string) : string :=
  if (k =? "map")%string then "classical_solution.png"%string
  else if (k =? "mud")%string then "consistent_solution.png"%string
  else if (k =? "comparison")%string then "map_compare_contour.png"%string
  else (k ++ "_contour.png")%string.
(** By default every figure is asked for. *)
Definition asked (pf : option figsel) (k : string) : bool :=
  if pf is Some s then fig_in k s || fig_in "all" s else true.

(** Contours of f over the 250 x 250 points of the unit square. *)
Definition shows (f : 'cV[R]_2 -> R) (a : art) : Prop :=
  let t (i : nat) : R := i%:R / 249%:R in
  exists X Y Z, [/\ a = Contour X Y Z, is_array 250 X (fun i j => t j), is_array 250 Y (fun i j => t i) &
    is_array 250 Z (fun i j => f (pt2 (t j) (t i)))].
(** The point x; its label, close to it; the segment from the initial mean to it. *)
Definition pt (x : 'cV[R]_2) : art := Points [:: x 0 0] [:: x 1 0] None.
Definition named (t : string) (x : 'cV[R]_2) : art := Note t (x 0 0 - 2%:R / 100%:R) (x 1 0 + 2%:R / 100%:R).
Definition segment (m x : 'cV[R]_2) : art := Curve [:: m 0 0; x 0 0] [:: m 1 0; x 1 0].
(** The line drawn through x in direction v (C97). *)
Definition contour_of (x : 'cV[R]_2) (v : R * R) : art :=
  Curve [:: x 0 0 - v.1; x 1 0 + v.1] [:: x 0 0 - v.2; x 1 0 + v.2].

Section Problem.
Variables (A : 'M[R]_(1, 2)) (b y : 'cV[R]_1) (mu : 'cV[R]_2) (C : 'M[R]_2) (S : 'M[R]_1) (al : R) (v : R * R).
Variables (xmud xmap xls : 'cV[R]_2).
Let d z : R := quad (invmx S) (A *m z + b - (y - b)).
Let reg z : R := al * quad (invmx C) (z - mu).
Let q z : R := al * quad (invmx (A *m C *m A^T)) (A *m (z - mu)).
Let least := [:: pt xls; segment mu xls; Note "Least Squares" (49%:R / 100%:R) (55%:R / 100%:R)].
Definition figure_shows (k : string) (l : seq art) : Prop :=
  if (k =? "data_mismatch")%string then exists2 c, shows d c &
    l = [:: c; contour_of xls v; Note "Solution Contour" (1 / 10%:R) (9%:R / 10%:R)]
  else if (k =? "tikhonov")%string then exists2 c, shows reg c & l = [:: c; pt mu; named "Initial Mean" mu]
  else if (k =? "consistent")%string then exists2 c, shows (fun z => reg z - q z) c & l = [:: c; pt mu; named "Initial Mean" mu]
  else if (k =? "map")%string then exists c c', [/\ shows (fun z => d z + reg z) c, shows d c' &
    l = [:: c; c'; pt mu] ++ least ++ [:: pt xmap; named "MAP" xmap; contour_of xls v]]
  else if (k =? "mud")%string then exists c c', [/\ shows (fun z => d z + reg z - q z) c, shows d c' &
    l = [:: c; c'; pt mu] ++ least ++ [:: pt xmud; segment mu xmud; named "MUD" xmud; contour_of xls v]]
  else if (k =? "comparison")%string then exists c c', [/\ shows (fun z => d z + reg z) c, shows d c' &
    l = [:: c; c'; pt mu] ++ least ++ [:: pt xmap; named "MAP" xmap; pt xmud; segment mu xmud; named "MUD" xmud;
      contour_of xls v; pt (pt2 (7%:R / 10%:R) (3%:R / 10%:R)); named "Truth" (pt2 (7%:R / 10%:R) (3%:R / 10%:R))]]
  else False.
End Problem.

(** ** Proof *)
Lemma cf_regmE k n (A : 'M[R]_(1, n)) (X : 'M[R]_(k, n)) (b y : 'cV[R]_1) (S : 'M[R]_1) (p : lgp) mu C al :
  inputs p A b y mu C al -> lcovo p = Dmx S -> S \in unitmx -> C \in unitmx -> A *m C *m A^T \in unitmx ->
  compute_functionals p (Dmx X) "reg_m" = Ok (FArr (samplewise (fun x => al * quad (invmx C) (x - mu)
    - al * quad (invmx (A *m C *m A^T)) (A *m (x - mu))) X)).
Proof.
move=> i eS uS uC uP.
pose r x := al * quad (invmx C) (x - mu); pose q x := al * quad (invmx (A *m C *m A^T)) (A *m (x - mu)).
case: i => eA eb ey [em eC ea]; rewrite /compute_functionals eA eb ey em eC ea eS.
have [Z [h1 h2 [W [h3 h4]]]] := data_chain A X b y uS.
rewrite h1 /rbind (dmulE A X^T) h2 h3 h4 /=.
rewrite dsub_row /= inner_productE //= vscale_map.
have -> : [seq al * quad (invmx C) (col i (\matrix_(i0, j) (X i0 j - mu j 0))^T)
          | i <- enum 'I_k] = samplewise r X.
  by apply: eq_map => j; rewrite col_dev.
rewrite dmulE /= dmulE /= dmulE /= inner_productE //= vscale_map.
set w := [seq _ | _ <- _].
have -> : w = samplewise q X by apply: eq_map => j; rewrite col_mul col_dev.
by rewrite /vsub (vbop_sw _ r q).
Qed.

Section Solved.
Variables (p0 : lgp) (A : 'M[R]_(1, 2)) (b y : 'cV[R]_1) (mu : 'cV[R]_2) (C : 'M[R]_2) (S : 'M[R]_1) (al : R).
Hypotheses (ip : inputs p0 A b y mu C al) (eS : lcovo p0 = Dmx S) (fA : row_free A) (pC : posdef C) (pS : posdef S)
  (a0 : 0 < al).
Let xmud := mudx A b y mu C.
Let xmap := mapx A b y mu (al *: C) S.
Let xls := lsx A b y.
Let p1 := set_mud p0 (Dmx xmud).
Let p2 := set_map p1 (Dmx xmap) (Dmx (covp A (al *: C) S)).
Let p3 := set_ls p2 (Dmx xls).

Lemma mudE p : inputs p A b y mu C al -> solve p "mud" None = (set_mud p (Dmx xmud), Ok (VArr (Dmx xmud))).
Proof. by move=> i; rewrite (solve_mudE i) mud_alpha // gt_eqF. Qed.
Lemma mapE p : inputs p A b y mu C al -> lcovo p = Dmx S ->
  solve p "map" None = (set_map p (Dmx xmap) (Dmx (covp A (al *: C) S)), Ok (VArr (Dmx xmap))).
Proof.
move=> i e; have pC' := posdefZ a0 pC.
rewrite (solve_mapE i (truncate_none_co i e)) //; try exact: posdef_unit.
exact/posdef_unit/precis_posdef.
Qed.
Lemma i1 : inputs p1 A b y mu C al. Proof. exact: ip. Qed.
Lemma i2 : inputs p2 A b y mu C al. Proof. exact: ip. Qed.
Lemma i3 : inputs p3 A b y mu C al. Proof. exact: ip. Qed.
Lemma e3 : lcovo p3 = Dmx S. Proof. exact: eS. Qed.

Lemma sol_mud : sol "mud" true (Some "MUD"%string) None p3 =
  (p3, Ok [:: pt xmud; segment mu xmud; named "MUD" xmud]).
Proof.
have [_ _ _ [em _ _]] := i3.
have h : answer p3 "mud" xmud by rewrite /answer (mudE i3).
have := @C124_solution R 0 p3 mu xmud "mud" true (Some "MUD"%string) None em.
rewrite (mudE i3) => e; rewrite /sol e //.
Qed.
Lemma sol_map : sol "map" false (Some "MAP"%string) None p3 = (p3, Ok [:: pt xmap; named "MAP" xmap]).
Proof.
have [_ _ _ [em _ _]] := i3.
have h : answer p3 "map" xmap by rewrite /answer (mapE i3 e3).
have := @C124_solution R 0 p3 mu xmap "map" false (Some "MAP"%string) None em.
rewrite (mapE i3 e3) => e; rewrite /sol e //.
Qed.
Lemma sol_ls loc : sol "ls" true (Some "Least Squares"%string) (Some loc) p3 =
  (p3, Ok [:: pt xls; segment mu xls; Note "Least Squares" loc.1 loc.2]).
Proof.
have [_ _ _ [em _ _]] := i3.
have h : answer p3 "ls" xls by rewrite /answer (solve_lsE i3).
have := @C124_solution R 0 p3 mu xls "ls" true (Some "Least Squares"%string) (Some loc) em.
rewrite (solve_lsE i3) => e; rewrite /sol e //.
Qed.
Lemma sol_initial l : sol "initial" l None None p3 = (p3, Ok [:: pt mu]).
Proof. have [_ _ _ [em _ _]] := i3; by rewrite /sol (@C124_initial R 0 p3 mu l None None em). Qed.
Lemma sol_initial_named l : sol "initial" l (Some "Initial Mean"%string) None p3 = (p3, Ok [:: pt mu; named "Initial Mean" mu]).
Proof. have [_ _ _ [em _ _]] := i3; by rewrite /sol (@C124_initial R 0 p3 mu l (Some "Initial Mean"%string) None em). Qed.

Lemma showsP terms f : (forall k (X : 'M[R]_(k, 2)), compute_functionals p3 (Dmx X) terms = Ok (FArr (samplewise f X))) ->
  exists2 c, fun_contours terms p3 = (p3, Ok [:: c]) & shows f c.
Proof.
move=> h; have [X [Y [Z [e hX hY hZ]]]] := @C126_default_mesh R p3 250 terms f 1 isT h.
exists (Contour X Y Z); first by rewrite /fun_contours e.
exists X, Y, Z; split=> //; first by apply: is_array_eq hX => i j _ _; rewrite mul1r.
  by apply: is_array_eq hY => i j _ _; rewrite mul1r.
by apply: is_array_eq hZ => i j _ _; rewrite !mul1r.
Qed.

Variable v : R * R.
Hypothesis nsv : ns [seq A 0 j | j <- enum 'I_2] = Ok [:: [:: v.1; v.2]].
Lemma arows1 : arows A = [:: [seq A 0 j | j <- enum 'I_2]].
Proof. by rewrite /arows (enum_ordSl 0) (size0nil (size_enum_ord 0)). Qed.
Lemma contour_lineE ann : solution_contour ns ann p3 = (p3, Ok (contour_of xls v ::
  (if ann then [:: Note "Solution Contour" (1 / 10%:R) (9%:R / 10%:R)] else [::]))).
Proof.
have [eA _ _ _] := i3; have okk : all is_key [:: "color"%string] by [].
have [h1 h2 h3] := @C125_lines R ns 1 2 p3 A xls None 1 [:: "color"%string]
  (Some (dec R 1 10, dec R 9 10)) (fun _ => "Solution Contour"%string) eA okk.
have al_ : answer p3 "ls" xls by rewrite /answer (solve_lsE i3).
rewrite /solution_contour (h3 ann al_) (solve_lsE i3).
have en : [seq xls i 0 | i <- enum 'I_2] = [:: xls 0 0; xls 1 0].
  by rewrite !enum_ordSl (size0nil (size_enum_ord 0)) /=; congr [:: _; xls _ _]; apply/val_inj.
have e2 : plot_contours ns (arows A) [:: xls 0 0; xls 1 0] None 1 =
    Ok [:: (([:: xls 0 0 - v.1; xls 1 0 + v.1], [:: xls 0 0 - v.2; xls 1 0 + v.2]), 0 + 1)].
  by rewrite /plot_contours arows1 /= nsv /= !mul1r.
by case: ann; rewrite en; [rewrite h2 | rewrite h1]; rewrite e2.
Qed.

Lemma draw_cons (d : drawing R) ds p p' a : d p = (p', Ok a) -> draw_all (d :: ds) p = ((draw_all ds p').1, rmap (cat a) (draw_all ds p').2).
Proof. by move=> e; cbn [draw_all]; rewrite e; case: (draw_all ds p'). Qed.

(** The drawing of a figure. *)
Definition call_of (k : string) : drawing R :=
  if (k =? "data_mismatch")%string then call_mismatch ns
  else if (k =? "tikhonov")%string then @call_tikhonov R
  else if (k =? "consistent")%string then @call_consistent R
  else if (k =? "map")%string then call_map ns
  else if (k =? "mud")%string then call_mud ns
  else call_comparison ns.

Lemma call_ofP k : List.In k keys -> exists2 l, call_of k p3 = (p3, Ok l) &
  figure_shows A b y mu C S al v xmud xmap xls k l.
Proof.
have uC := posdef_unit pC; have uS := posdef_unit pS.
have uP := predcov_unit fA pC; rewrite predcovE in uP.
have h n (Y : 'M[R]_(n, 2)) := cf_allE Y i3 e3 uS uC uP.
have [cd ed sd] := showsP (fun n Y => cf_dataE Y i3 e3 uS).
have [cr er sr] := showsP (fun n Y => let: And4 x _ _ _ := h n Y in x).
have [cb eb sb] := showsP (fun n Y => let: And4 _ _ x _ := h n Y in x).
have [cc ec sc] := showsP (fun n Y => let: And4 _ _ _ x := h n Y in x).
have [cm em sm] := showsP (fun n Y => cf_regmE Y i3 e3 uS uC uP).
have truth : art_const [:: Points [:: dec R 7 10] [:: dec R 3 10] None;
    Note "Truth" (dec R 7 10 - dec R 2 100) (dec R 3 10 + dec R 2 100)] p3 =
    (p3, Ok [:: pt (pt2 (7%:R / 10%:R) (3%:R / 10%:R)); named "Truth" (pt2 (7%:R / 10%:R) (3%:R / 10%:R))]).
  by rewrite /art_const /pt /named /pt2 !mxE.
have nil_ : @draw_all R [::] p3 = (p3, Ok [::]) by [].
rewrite /keys; cbn [List.In].
case=> [<-|[<-|[<-|[<-|[<-|[<-|[]]]]]]].
- rewrite /call_of /figure_shows; cbn [String.eqb Ascii.eqb Bool.eqb]; rewrite /call_mismatch.
  rewrite (draw_cons _ ed) (draw_cons _ (contour_lineE true)) nil_; cbn [fst snd rmap].
  by eexists; [reflexivity | exists cd].
- rewrite /call_of /figure_shows; cbn [String.eqb Ascii.eqb Bool.eqb]; rewrite /call_tikhonov.
  rewrite (draw_cons _ er) (draw_cons _ (sol_initial_named true)) nil_; cbn [fst snd rmap].
  by eexists; [reflexivity | exists cr].
- rewrite /call_of /figure_shows; cbn [String.eqb Ascii.eqb Bool.eqb]; rewrite /call_consistent.
  rewrite (draw_cons _ em) (draw_cons _ (sol_initial_named true)) nil_; cbn [fst snd rmap].
  by eexists; [reflexivity | exists cm].
- rewrite /call_of /figure_shows; cbn [String.eqb Ascii.eqb Bool.eqb]; rewrite /call_map.
  rewrite (draw_cons _ eb) (draw_cons _ ed) (draw_cons _ (sol_initial true)) (draw_cons _ (sol_ls (dec R 49 100, dec R 55 100))) (draw_cons _ sol_map) (draw_cons _ (contour_lineE false)) nil_; cbn [fst snd rmap].
  by eexists; [reflexivity | exists cb, cd].
- rewrite /call_of /figure_shows; cbn [String.eqb Ascii.eqb Bool.eqb]; rewrite /call_mud.
  rewrite (draw_cons _ ec) (draw_cons _ ed) (draw_cons _ (sol_initial true)) (draw_cons _ (sol_ls (dec R 49 100, dec R 55 100))) (draw_cons _ sol_mud) (draw_cons _ (contour_lineE false)) nil_; cbn [fst snd rmap].
  by eexists; [reflexivity | exists cc, cd].
- rewrite /call_of /figure_shows; cbn [String.eqb Ascii.eqb Bool.eqb]; rewrite /call_comparison.
  rewrite (draw_cons _ eb) (draw_cons _ ed) (draw_cons _ (sol_initial true)) (draw_cons _ (sol_ls (dec R 49 100, dec R 55 100))) (draw_cons _ sol_map) (draw_cons _ sol_mud) (draw_cons _ (contour_lineE false)) (draw_cons _ truth) nil_; cbn [fst snd rmap].
  by eexists; [reflexivity | exists cb, cd].
Qed.

Lemma draw_figuresE pf sp cl : exists figs content,
  [/\ draw_figures (odflt (FigNames [:: "all"%string]) pf) sp cl (contour_figures ns) p3 = (figs, Ok p3),
      forall k, List.In k keys -> figure_shows A b y mu C S al v xmud xmap xls k (content k) &
      figs = [seq finish (file_of k) sp cl (content k) | k <- filter (asked pf) keys]].
Proof.
pose content k := if (call_of k p3).2 is Ok l then l else [::].
exists [seq finish (file_of k) sp cl (content k) | k <- filter (asked pf) keys], content; split=> //; last first.
  by move=> k /call_ofP [l e h]; rewrite /content e.
have sel k : fig_in k (odflt (FigNames [:: "all"%string]) pf) || fig_in "all" (odflt (FigNames [:: "all"%string]) pf) = asked pf k.
  by case: pf => //; rewrite /= orbT.
have main ks : (forall k, List.In k ks -> List.In k keys) ->
  draw_figures (odflt (FigNames [:: "all"%string]) pf) sp cl [seq (k, file_of k, call_of k) | k <- ks] p3 =
  ([seq finish (file_of k) sp cl (content k) | k <- filter (asked pf) ks], Ok p3).
  elim: ks => [//|k ks ih] hk; cbn [map draw_figures filter]; rewrite sel.
  have {}ih := ih (fun k' h => hk k' (or_intror h)).
  case: (asked pf k) => //=; have [l e _] := call_ofP (hk k (or_introl erefl)).
  by rewrite e ih /content e.
exact: (main keys).
Qed.
End Solved.

(** ** C130 *)
Theorem C130_figures kw pf sp cl p (A : 'M[R]_(1, 2)) (b y : 'cV[R]_1) mu C S al (v : R * R) :
  contour_problem kw = Ok p -> inputs p A b y mu C al -> lcovo p = Dmx S ->
  row_free A -> posdef C -> posdef S -> 0 < al ->
  ns [seq A 0 j | j <- enum 'I_2] = Ok [:: [:: v.1; v.2]] ->
  exists figs p' content xmud xmap, exists xls,
  [/\ run_contours ns pf sp cl kw = (figs, Ok p'),
      [/\ answer p "mud" xmud, answer p "map" xmap & answer p "ls" xls],
      [/\ inputs p' A b y mu C al, l_mud p' = Some (Dmx xmud), l_map p' = Some (Dmx xmap) & l_ls p' = Some (Dmx xls)],
      [seq f_art f | f <- figs] = [seq content k | k <- filter (asked pf) keys] /\
      (forall k, List.In k keys -> figure_shows A b y mu C S al v xmud xmap xls k (content k)) &
      [seq (f_saved f, f_closed f) | f <- figs] =
      [seq (if sp is Some dir then if (dir =? "")%string then (None, false) else (Some (if (dir =? ".")%string then file_of k else (dir ++ "/" ++ file_of k)%string), cl)
            else (None, false)) | k <- filter (asked pf) keys]].
Proof.
move=> ep ip eS fA pC pS a0 nsv.
have [figs [content [e h ef]]] := draw_figuresE ip eS fA pC pS a0 nsv pf sp cl.
eexists figs, _, content, (mudx A b y mu C), (mapx A b y mu (al *: C) S), (lsx A b y); split.
- rewrite /run_contours ep (mudE a0 ip).
  rewrite (mapE pC pS a0 (ip : inputs (set_mud _ _) A b y mu C al) eS).
  by rewrite (solve_lsE (ip : inputs (set_map (set_mud _ _) _ _) A b y mu C al)); exact: e.
- split; rewrite /answer; [by rewrite (mudE a0 ip) | by rewrite (mapE pC pS a0 ip) | by rewrite (solve_lsE ip)].
- by split=> //; exact: ip.
- split=> //; rewrite ef -map_comp; apply: eq_map => k /=; rewrite /finish.
  by case: sp {e ef} => [dir|//]; case: (dir =? "")%string.
- rewrite ef -map_comp; apply: eq_map => k /=; rewrite /finish.
  by case: sp {e ef} => [dir|//]; case: (dir =? "")%string.
Qed.
End ContProps.
