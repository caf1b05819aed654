(** Model of examples/poisson.py:129-469: plot_qoi_ex, plot_response_ex, run_2d_poisson_sol and
    run_2d_poisson_trials, with what plot_param_space (base.py:425-532) draws. *)
Set Warnings "-notation-overridden,-ambiguous-paths".
From Coq Require Import String ZArith DecimalString.
From mathcomp Require Import all_ssreflect all_algebra.
From Verif Require Import Py Nd Xnum UtilModel DensityModel UtilModel2 StModel DrawModel PoisModel StExModel.
Set Implicit Arguments. Unset Strict Implicit. Unset Printing Implicit Defensive.
Import Order.Theory GRing.Theory Num.Theory.
Local Open Scope ring_scope.

(** [str(N)] for an integer. *)
Definition z_of (N : int) : Z := match N with Posz n => Z.of_nat n | Negz n => Z.opp (Z.of_nat n.+1) end.
Definition str_int (N : int) : string := NilZero.string_of_int (Z.to_int (z_of N)).

(** [str(Path(d) / Path(f))] (plot.py:92).  Simplification: d does not end with "/". *)
Definition path_join (d f : string) : string := if ((d =? "") || (d =? "."))%string then f else (d ++ "/" ++ f)%string.

(** [l[a:b]] for a list *)
Definition pyslice A (l : seq A) (a b : int) : seq A :=
  let lo := slice_bound (size l) 0 (Some a) in let hi := slice_bound (size l) (size l) (Some b) in
  take (hi - lo) (drop lo l).

Section PoisEx.
Variable R : rcfType.
Notation xnum := (xnum R).
Notation nd := (nd R).
(** Oracles of the density problem and of SpatioTemporalProblem. *)
Variables (D KW BW : Type) (pdf : D -> KW -> nd -> res (pdfval xnum)) (nokw : KW) (nobw : BW)
  (uniform : seq R -> seq R -> D) (norm01 : D) (kde : nd -> BW -> seq xnum -> res D)
  (kde_pdf : D -> nd -> res (seq xnum)) (trunc : R -> R).
Variables (pca_components : nd -> int -> res nd) (svd_v : nd -> res nd).
Variables (G : Type) (reseed : int -> res G) (randn : nat -> G -> seq R * G).
(** Oracles: Python's generator ([random.seed], [random.sample(range(n), n)]); the points
    plot_dist draws for a distribution over a range; the triangulation; the result of
    [minimize(spline_objective_function_2d, x0=[-3, -1])]; the mesh (its columns) and values that
    [raw_data["u"]] holds. *)
Variables (H : Type) (pyseed : int -> H) (pysample : nat -> H -> seq nat * H).
Variable curve : string -> D -> seq (R * R) -> int -> res (seq R * seq R).
Variable tri : seq R -> seq R -> seq R -> res unit.
Variable closest : R * R.
Variable field : dset R -> res (seq R * seq R * seq R).

Notation dprob := (dprob R D).
Notation estimate := (estimate pdf nokw nobw uniform norm01 kde kde_pdf).
Notation expected_ratio := (expected_ratio pdf nokw nobw uniform norm01 kde kde_pdf).
Notation mud_problem := (st_mud_problem D trunc pca_components svd_v).

(** What is drawn: a density curve ("in", "up", "win"), a vertical line ("mud", "true" or "knot"),
    the texts with N and E(r) at a place, the sensors of a group with its colour and marker, and
    the drawings of DrawModel. *)
Inductive mark :=
  | DensityCurve of string & seq R & seq R
  | VLine of string & R
  | TextN of int & R & R
  | TextRatio of xnum & R & R
  | Group of string & string & seq R & seq R
  | Art of art R.

(** ** base.py:425-532 plot_param_space *)
(** Its keyword arguments, with their defaults.  The flags: the dictionary is not None (for
    [pp_true_on]: not empty either). *)
Record ppargs := PP {
  pp_true : option (seq R); pp_range : option (seq (R * R)); pp_pad : R;
  pp_in : bool; pp_up : bool; pp_win : bool; pp_mud : bool; pp_true_on : bool }.
Definition pp0 : ppargs := PP None None (5%:R / 100%:R) true true false true true.

Definition put_dom (s : dprob) (B : nd) : dprob :=
  DP (dX s) (dy s) B (d_int s) (d_w s) (d_r s) (d_up s) (d_in s) (d_pr s)
     (d_ob s) (d_in_dist s) (d_pr_dist s) (d_ob_dist s).
(** A range as its intervals. *)
Definition intervals (B : nd) : seq (R * R) := [seq (nth 0 r 0, nth 0 r 1) | r <- rows B].
(** base.py:505-512: [gkde] with weights None is a kde with equal weights. *)
Definition updated_kde (s : dprob) : res D :=
  w <- (if d_r s is Some r then xvbop (@xmul R) r (d_w s) else Ok (nseq (dim (dX s) 0) (Fin 1))) ;;
  kde (dX s) nobw w.
(** [v[i]] for a 1-D array *)
Definition at_idx (v : seq R) (i : int) : res R := k <- py_index (size v) i ;; Ok (nth 0 v k).

(** base.py:425-532 plot_param_space: as DensityModel.plot_param_space, with what it draws.
    Simplification: ylim, aff and the style options are not modelled. *)
Definition param_plot (s : dprob) (idx : int) (a : ppargs) : dprob * res (seq mark) :=
  sbind (if pp_range a is Some r then (s, Ok r) else
         match fit_domain (cast_of trunc (d_int s)) None (Some (ddom s)) (pp_pad a) with
         | Err e => (s, Err e)
         | Ok B => (put_dom s B, Ok (intervals B))
         end) (fun s xr =>
  sbind (lift s (of_opt AssertionError (d_in_dist s))) (fun s d =>
  sbind (lift s (if pp_in a then c <- curve "pdf" d xr idx ;; Ok [:: DensityCurve "in" c.1 c.2] else Ok [::])) (fun s m1 =>
  sbind (lift s (if pp_up a then k <- updated_kde s ;; c <- curve "kde" k xr idx ;; Ok [:: DensityCurve "up" c.1 c.2] else Ok [::])) (fun s m2 =>
  sbind (lift s (if pp_win a then k <- kde (dX s) nobw (d_w s) ;; c <- curve "kde" k xr idx ;; Ok [:: DensityCurve "win" c.1 c.2] else Ok [::])) (fun s m3 =>
  sbind (if pp_mud a then sbind (estimate s) (fun s m => lift s (x <- at_idx m idx ;; Ok [:: VLine "mud" x])) else (s, Ok [::])) (fun s m4 =>
  lift s (m5 <- (if pp_true a is Some t then
                   if pp_true_on a then x <- at_idx t idx ;; Ok [:: VLine "true" x] else Ok [::]
                 else Ok [::]) ;;
          Ok (m1 ++ m2 ++ m3 ++ m4 ++ m5)))))))).

(** ** The order of the sensors, poisson.py:266-276 and 398-408 *)
(** [np.lexsort((s[:, 1], s[:, 0]))]: by the first coordinate, then by the second, then by position. *)
Definition lex_le (se : nd) (i j : nat) : bool :=
  let x i := nth 0 (nth [::] (rows se) i) 0 in let y i := nth 0 (nth [::] (rows se) i) 1 in
  (x i < x j) || ((x i == x j) && (y i <= y j)).
Definition lexsort (se : nd) : res (seq nat) :=
  _ <- guard (ndim se == 2%N) IndexError ;; _ <- guard (2 <= dim se 1)%N IndexError ;;
  Ok (sort (lex_le se) (iota 0 (dim se 0))).
Definition sensor_order (order : string) (s : st R) (h : H) : H * res (seq nat) :=
  match n_sensors s with
  | Err e => (h, Err e)
  | Ok n =>
    if (order =? "random")%string then let (l, h') := pysample n h in (h', Ok l) else
    if (order =? "sorted")%string then (h, se <- of_opt TypeError (s_sens s) ;; lexsort se)
    else (h, Ok (iota 0 n))
  end.
(** A list of positions as the sensors_mask. *)
Definition positions (l : seq nat) : option mask := Some (MInts (map Posz l)).

(** ** Figures *)
(** A figure: its axes, the file it was saved to, whether it was closed afterwards. *)
Record pfig := PFig { pf_axes : seq (seq mark); pf_file : option string; pf_closed : bool }.
(** plot.py:71-97 save_figure, when it is called if save_path is not None, and if it is truthy. *)
Definition saved (name : string) (sp : option string) (cl : bool) (a : seq (seq mark)) : pfig :=
  if sp is Some d then PFig a (Some (path_join d name)) cl else PFig a None false.
Definition saved_truthy (name : string) (sp : option string) (cl : bool) (a : seq (seq mark)) : pfig :=
  saved name (if sp is Some d then if (d =? "")%string then None else sp else None) cl a.

(** ** poisson.py:328-469 run_2d_poisson_trials *)
Definition closest_pt : seq R := [:: closest.1; closest.2].
(** poisson.py:418-421, 438-444: densities over the range given, no MUD line, no true value. *)
Definition pp_curves (xr : seq (R * R)) : ppargs := PP None (Some xr) (5%:R / 100%:R) true true false false false.
(** poisson.py:423, 446-448: MUD point and true value only. *)
Definition pp_lines : ppargs := PP (Some closest_pt) None (5%:R / 100%:R) false false false true true.
(** poisson.py:426-432, 451-457 *)
Definition annotate (s : dprob) (N : int) (loc : option (R * R * R)) : dprob * res (seq mark) :=
  if loc is Some (x, y1, y2) then
    sbind (expected_ratio s) (fun s e => (s, Ok [:: TextN N x y1; TextRatio e x y2]))
  else (s, Ok [::]).
(** One axes of a trial, poisson.py:417-433 (param_idx 0, by default) and 435-458. *)
Definition trial_axes (s : dprob) (idx : int) (xr : seq (R * R)) (N : int) (loc : option (R * R * R))
  : dprob * res (seq mark) :=
  sbind (param_plot s idx (pp_curves xr)) (fun s m1 =>
  sbind (param_plot s idx pp_lines) (fun s m2 =>
  sbind (annotate s N loc) (fun s m3 => (s, Ok (m1 ++ m2 ++ m3))))).
(** poisson.py:409-458: a trial, its problem afterwards and its two axes. *)
Definition trial (s : st R) (idx_o : seq nat) (xr : seq (R * R)) (loc1 loc2 : option (R * R * R)) (N : int)
  : res (dprob * seq (seq mark)) :=
  P <- mud_problem s "pca" None None 2 None None (positions (take (slice_len (size idx_o) (Some N)) idx_o)) ;;
  let m := sbind (estimate P) (fun P _ =>
           sbind (trial_axes P 0 xr N loc1) (fun P a1 =>
           sbind (trial_axes P 1 xr N loc2) (fun P a2 => (P, Ok [:: a1; a2])))) in
  a <- m.2 ;; Ok (m.1, a).
(** poisson.py:409-469: the figures finished before an exception, if any, and the problems. *)
Fixpoint trials (s : st R) (idx_o : seq nat) xr loc1 loc2 (sp : option string) (cl : bool) (Ns : seq int)
  : seq pfig * res (seq dprob) :=
  if Ns is N :: Ns' then
    match trial s idx_o xr loc1 loc2 N with
    | Err e => ([::], Err e)
    | Ok (P, a) =>
        let (fs, r) := trials s idx_o xr loc1 loc2 sp cl Ns' in
        (saved ("solution_n" ++ str_int N) sp cl a :: fs, rmap (cons P) r)
    end
  else ([::], Ok [::]).
(** poisson.py:328-469.  The ranges of the axes: [xlim1], [xlim2]; the limits ylim1, ylim2 are not
    modelled.  The result: both generators, the figures, and (poisson_prob, probs) or the exception. *)
Definition run_2d_poisson_trials (file : res (dset R)) (Ns : seq int) (order : string)
    (xlim1 xlim2 : R * R) (loc1 loc2 : option (R * R * R)) (sigma : R) (seed : option int)
    (sp : option string) (cl : bool) (g : G) (h : H) : (G * H) * (seq pfig * res (st R * seq dprob)) :=
  let h := if seed is Some q then pyseed q else h in
  match load_poisson_prob reseed randn file sigma seed g with
  | (g, Err e) => ((g, h), ([::], Err e))
  | (g, Ok (_, s)) =>
    match sensor_order order s h with
    | (h, Err e) => ((g, h), ([::], Err e))
    | (h, Ok idx_o) =>
        let (fs, r) := trials s idx_o [:: xlim1; xlim2] loc1 loc2 sp cl Ns in
        ((g, h), (fs, rmap (fun ps => (s, ps)) r))
    end
  end.

(** ** poisson.py:216-326 run_2d_poisson_sol *)
(** poisson.py:129-138 plot_qoi_ex, num_components = 2; [n]: number of components in general
    (a third subplot does not exist, and without any the result is not assigned). *)
Definition plot_qoi_ex (P : dprob) (n : int) : res (seq (seq mark)) :=
  k <- (if n is Posz k.+1 then Ok k.+1 else Err UnboundLocalError) ;;
  rmapM (fun i => _ <- guard (i < 2)%N ValueError ;;
                  a <- plot_params_2d tri (dX P) (dy P) 0 1 (Posz i) true true ;; Ok (map Art a)) (iota 0 k).

(** base.py:1905-1922 sensor_scatter_plot with a list of positions as the mask. *)
Definition scatter_at (se : nd) (l : seq nat) : res (seq R * seq R) :=
  _ <- guard (ndim se == 2%N) IndexError ;;
  idx <- rmapM (py_index (dim se 0)) (map Posz l) ;;
  _ <- guard (2 <= dim se 1)%N IndexError ;;
  Ok ([seq nth 0 (nth [::] (rows se) i) 0 | i <- idx], [seq nth 0 (nth [::] (rows se) i) 1 | i <- idx]).
(** poisson.py:161-170: the group at position [i]. *)
Definition draw_group (se : nd) (idx_o : seq nat) (markers colors : seq string) (i : nat) (ab : int * int)
  : res mark :=
  c <- of_opt IndexError (ohead (drop i colors)) ;; m <- of_opt IndexError (ohead (drop i markers)) ;;
  p <- scatter_at se (pyslice idx_o ab.1 ab.2) ;; Ok (Group c m p.1 p.2).
(** poisson.py:72-102 plot_solution_spline with its reference curve. *)
Definition true_curve : res mark :=
  x <- linspace 0 1 (Posz 1000) ;; Ok (Art (Curve x [seq g_true t | t <- x])).
Definition spline_mark (lam : seq R) : res mark := c <- plot_solution_spline lam ;; Ok (Art (Curve c.1 c.2)).
(** poisson.py:141-212 plot_response_ex *)
Definition plot_response_ex (s : st R) (ds : dset R) (idx_o : seq nat) (groups : seq (int * int))
    (markers colors : seq string) : res (seq (seq mark)) :=
  u <- field ds ;;
  _ <- tri u.1.1 u.1.2 u.2 ;;
  se <- of_opt TypeError (s_sens s) ;;
  gs <- rmapM (fun p => draw_group se idx_o markers colors p.1 p.2) (zip (iota 0 (size groups)) groups) ;;
  t <- true_curve ;; c <- spline_mark closest_pt ;;
  lam <- of_opt TypeError (s_lam s) ;;
  ls <- rmapM spline_mark (take 50 (rows lam)) ;;
  Ok [:: [:: Art (TriContour u.1.1 u.1.2 u.2); Art (Colorbar R)] ++ gs;
         [:: t; c] ++ ls ++ [:: VLine "knot" (1 / 3%:R); VLine "knot" (2%:R / 3%:R)]].

(** poisson.py:280-326: [k in plot_fig or "all" in plot_fig] *)
Definition wanted (k : string) (plot_fig : seq string) : bool :=
  has (String.eqb k) plot_fig || has (String.eqb "all") plot_fig.
(** The figures, in order, from the step [d] on: an exception leaves the figures before it. *)
Definition step (P : dprob) (on : bool) (mk : dprob -> dprob * res (seq pfig))
    (next : dprob -> seq pfig * res dprob) : seq pfig * res dprob :=
  if on then
    match mk P with
    | (_, Err e) => ([::], Err e)
    | (P', Ok f) => let (fs, r) := next P' in (f ++ fs, r)
    end
  else next P.
(** poisson.py:310-324: the two density figures; the first is finished before the second starts. *)
Definition density_figs (sp : option string) (cl : bool) (kw1 kw2 : ppargs) (on : bool) (P : dprob)
  : seq pfig * res dprob :=
  step P on (fun P => let (P, r) := param_plot P 0 kw1 in (P, rmap (fun m => [:: saved "lam1" sp cl [:: m]]) r)) (fun P =>
  step P on (fun P => let (P, r) := param_plot P 1 kw2 in (P, rmap (fun m => [:: saved "lam2" sp cl [:: m]]) r)) (fun P =>
  ([::], Ok P))).
(** poisson.py:216-326.  [plot_fig]: a string that is not a list has become a list (line 283).
    Simplification: the axes handed in through the keyword arguments are not modelled. *)
Definition run_2d_poisson_sol (file : res (dset R)) (sigma : R) (seed : option int) (plot_fig : seq string)
    (sp : option string) (cl : bool) (order : string) (groups : seq (int * int)) (markers colors : seq string)
    (kw1 kw2 : ppargs) (g : G) (h : H) : (G * H) * (seq pfig * res (st R * dprob)) :=
  match load_poisson_prob reseed randn file sigma seed g with
  | (g, Err e) => ((g, h), ([::], Err e))
  | (g, Ok (ds, s)) =>
    match sensor_order order s h with
    | (h, Err e) => ((g, h), ([::], Err e))
    | (h, Ok idx_o) =>
      match mud_problem s "pca" None None 2 None None (positions idx_o) with
      | Err e => ((g, h), ([::], Err e))
      | Ok P =>
        match estimate P with
        | (_, Err e) => ((g, h), ([::], Err e))
        | (P, Ok _) =>
          let (fs, r) :=
            step P (wanted "response" plot_fig) (fun P => (P, rmap (fun a => [:: saved_truthy "response_surface" sp cl a])
                     (plot_response_ex s ds idx_o groups markers colors))) (fun P =>
            step P (wanted "qoi" plot_fig) (fun P => (P, rmap (fun a => [:: saved_truthy "learned_qoi" sp cl a])
                     (plot_qoi_ex P 2))) (fun P =>
            density_figs sp cl kw1 kw2 (wanted "densities" plot_fig) P)) in
          ((g, h), (fs, rmap (fun P => (s, P)) r))
        end
      end
    end
  end.
(** poisson.py:223-229, the defaults of the arguments *)
Definition default_groups : seq (int * int) := [:: (Posz 0, Posz 5); (Posz 5, Posz 50); (Posz 50, Negz 0)].
Definition default_markers : seq string := [:: "*"; "+"; "."]%string.
Definition default_colors : seq string := [:: "red"; "white"; "k"]%string.
End PoisEx.
