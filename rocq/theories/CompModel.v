(** Model of what is drawn by DensityProblem.plot_obs_space, by the plotting methods of
    BayesProblem, and by comparison_plot and run_comparison_example in examples/comparison.py. *)
Set Warnings "-notation-overridden,-ambiguous-paths".
From Coq Require Import String ZArith.
From mathcomp Require Import all_ssreflect all_algebra.
From Verif Require Import Py Nd Xnum UtilModel DensityModel BayesModel UtilModel2 PlotModel StModel PoisModel StExModel PoisExModel SimpleModel.
Set Implicit Arguments. Unset Strict Implicit. Unset Printing Implicit Defensive.
Import Order.Theory GRing.Theory Num.Theory.
Local Open Scope ring_scope.

(** An option dictionary: None, {}, or other entries with the entry "label", if it is there. *)
Inductive popts := ONone | OEmpty | OSet of option string.
Definition truthy (o : popts) : bool := if o is OSet _ then true else false.
Definition not_none (o : popts) : bool := if o is ONone then false else true.
(** The label of a curve: that of the dictionary, else the default. *)
Definition label (o : popts) (default : string) : string := if o is OSet (Some l) then l else default.

Section Plots.
Variable R : rcfType.
Notation xnum := (xnum R).
Notation nd := (nd R).
Notation mark := (mark R).
(** Oracles: [gpdf d rows] = the rows of [d.pdf(a)] for the 2-D array a with these rows;
    [geval d pts] = [d(grid)] at the points of a grid (its columns);
    [frozen d]: d is of the type of [dist.uniform()]; [kde y bw w]: kernel density estimate. *)
Variables (D BW : Type) (nobw : BW).
Variable gpdf : D -> seq (seq R) -> res (seq (seq R)).
Variable geval : D -> seq (seq R) -> res (seq R).
Variable frozen : D -> bool.
Variable kde : nd -> BW -> seq xnum -> res D.
Notation dprob := (dprob R D).
Notation bprob := (bprob R D).

(** plot.py:203-234 plot_dist of a distribution, or of None. *)
Definition dist_curve (src : string) (o : option D) (dom : seq (R * R)) (idx aff : int) : res (seq R * seq R) :=
  plot_dist (fun pts => d <- of_opt AttributeError o ;; gpdf d pts)
            (fun pts => d <- of_opt TypeError o ;; geval d pts) dom idx src aff.
Definition draw_dist (lbl src : string) (o : option D) (dom : seq (R * R)) (idx aff : int) : res (seq mark) :=
  c <- dist_curve src o dom idx aff ;; Ok [:: DensityCurve lbl c.1 c.2].

(** ** base.py:534-619 DensityProblem.plot_obs_space *)
(** base.py:612-615: the kernel density estimate drawn for the push-forward of the updated
    density (weights None: equal weights). *)
Definition pushed_kde (s : dprob) : res D :=
  w <- (if d_r s is Some r then xvbop (@xmul R) (d_w s) r else Ok (nseq (dim (dy s) 0) (Fin 1))) ;;
  kde (dy s) nobw w.
(** base.py:583-619.  Simplifications: a range has two columns; only the labels of the options. *)
Definition obs_plot (s : dprob) (idx : int) (y_range : option (seq (R * R))) (aff : int) (ob pr pf : popts)
  : res (seq mark) :=
  yr <- (if y_range is Some r then Ok r
         else rmap (@intervals R) (fit_domain id (Some (dy s)) None (10%:R^-1))) ;;
  _ <- guard (size yr == n_features s) ValueError ;;
  d <- of_opt AssertionError (d_ob_dist s) ;;
  m1 <- (if truthy ob then draw_dist (label ob "$\pi_\mathrm{obs}$") "pdf" (Some d) yr idx aff else Ok [::]) ;;
  m2 <- (if truthy pr then
           draw_dist (label pr "$\pi_\mathrm{pred}$")
             (if d_pr_dist s is Some p then if frozen p then "pdf" else "kde" else "kde")%string (d_pr_dist s) yr idx aff
         else Ok [::]) ;;
  m3 <- (if truthy pf then k <- pushed_kde s ;; draw_dist (label pf "$\pi_\mathrm{pf-pr}$") "kde" (Some k) yr idx aff
         else Ok [::]) ;;
  Ok (m1 ++ m2 ++ m3).

(** ** base.py:842-899 BayesProblem.plot_param_space *)
Variables (spdf : D -> nd -> res (pdfval xnum)) (uniform : seq R -> seq R -> D) (ln : R -> R).
Notation bmap := (map_point spdf uniform ln).
(** Kernel density estimate with the posterior values as weights (base.py:880 and 965). *)
Definition posterior_kde (a : nd) (s : bprob) : res D :=
  kde a nobw (if b_ps s is Some w then w else nseq (dim a 0) (Fin 1)).
(** Simplifications: a range has two columns; only the labels of the options. *)
Definition bparam_plot (s : bprob) (idx : int) (x_range : option (seq (R * R))) (aff : int)
    (pr ps mp tr : popts) (true_val : option (seq R)) : bprob * res (seq mark) :=
  let xr := if x_range is Some r then r else intervals (bdom s) in
  sbind (lift s (if not_none pr then draw_dist (label pr "Prior") "pdf" (b_pr_dist s) xr idx aff else Ok [::])) (fun s m1 =>
  sbind (if not_none ps then
           sbind (bmap s) (fun s _ =>
           lift s (k <- posterior_kde (bX s) s ;; draw_dist (label ps "Posterior") "kde" (Some k) xr idx aff))
         else (s, Ok [::])) (fun s m2 =>
  sbind (if not_none mp then
           sbind (bmap s) (fun s m => lift s (x <- at_idx m idx ;; Ok [:: VLine (label mp "$\lambda^\mathrm{MAP}$") x]))
         else (s, Ok [::])) (fun s m3 =>
  lift s (m4 <- (if true_val is Some t then
                   if truthy tr then x <- at_idx t idx ;; Ok [:: VLine (label tr "$\lambda^{\dagger}$") x] else Ok [::]
                 else Ok [::]) ;;
          Ok (m1 ++ m2 ++ m3 ++ m4))))).

(** ** base.py:904-974 BayesProblem.plot_obs_space *)
(** [a.T.prod(axis=1)] of a 2-D array: the products of its columns. *)
Definition col_prods (a : seq (seq R)) : seq R :=
  [seq \prod_(r <- a) nth 0 r q | q <- iota 0 (size (head [::] a))].
(** base.py:937-974.  Simplifications: a range is an array with two columns; only the labels of
    the options. *)
Definition bobs_plot (s : bprob) (idx : int) (y_range : option (seq (R * R))) (aff : int) (ll pf : popts)
  : res (seq mark) :=
  let yr := if y_range is Some r then r else nseq (dim (by_ s) 1) (-1, 1) in
  mg <- build_nd_mesh_grid yr aff ;;
  k <- py_index (size yr) idx ;;
  let iv := nth (0, 0) yr k in
  y_plot <- ticks iv.1 iv.2 aff ;;
  let sh := shape (nth (nd1 [::]) mg.1 0) in
  m1 <- (if not_none ll then
           _ <- guard (isSome (b_ll s)) ValueError ;;
           d <- of_opt AttributeError (b_ll_dist s) ;;
           v <- gpdf d mg.2 ;; a <- reshape1 (col_prods v) sh ;;
           Ok [:: DensityCurve (label ll "Data-Likelihood") y_plot (margin a k)]
         else Ok [::]) ;;
  m2 <- (if not_none pf then
           e <- posterior_kde (by_ s) s ;;
           v <- geval e (points mg.2) ;; a <- reshape1 v sh ;;
           Ok [:: DensityCurve (label pf "PF of Posterior") y_plot (margin a k)]
         else Ok [::]) ;;
  Ok (m1 ++ m2).
End Plots.

(** ** examples/comparison.py *)
Section Comparison.
Variable R : rcfType.
Notation xnum := (xnum R).
Notation nd := (nd R).
Notation mark := (mark R).
(** Oracles as in SimpleModel; [kde_at k pts] = the values of a kernel density estimate at the
    points of a grid. *)
Variable expf : R -> R.
Variable cpi : R.
Variable K : Type.
Variable kde : nd -> unit -> seq xnum -> res K.
Variable kde_pdf : K -> nd -> res (seq xnum).
Variable kde_at : K -> seq (seq R) -> res (seq R).
Variables trunc ln : R -> R.
Notation sdist := (sdist R K).
Notation dprob := (dprob R sdist).
Notation bprob := (bprob R sdist).
Notation spdf := (@spdf R expf cpi K kde_pdf).
Notation skde := (@skde R K kde).

(** A number as a real; an undefined density value is not meaningful in the model. *)
Definition num (x : xnum) : R := if x is Fin a then a else 0.
(** [d.pdf] of the 2-D array with the rows given. *)
Definition grid_pdf (d : sdist) (rs : seq (seq R)) : res (seq (seq R)) :=
  v <- spdf d (Nd [:: size rs; size (head [::] rs)] (flatten rs)) ;;
  Ok (if v is P2 vs then map (map num) vs else [::]).
Definition grid_eval (d : sdist) (pts : seq (seq R)) : res (seq R) :=
  if d is Est k then kde_at k pts else Err TypeError.
(** scipy's frozen distributions. *)
Definition is_frozen (d : sdist) : bool := if d is Est _ then false else true.

Notation dparam_plot := (@param_plot R sdist unit unit (@sd_pdf R expf cpi K kde_pdf) tt tt (@Uni R K) (@norm01 R K)
  skde (@skde_pdf R K kde_pdf) trunc
  (fun src d dom idx => dist_curve grid_pdf grid_eval src (Some d) dom idx 100)).
Notation dobs_plot := (@obs_plot R sdist unit tt grid_pdf grid_eval is_frozen skde).
Notation bparam := (@bparam_plot R sdist unit tt grid_pdf grid_eval skde spdf (@Uni R K) ln).
Notation bobs := (@bobs_plot R sdist unit tt grid_pdf grid_eval skde).

(** The labels of the curves that plot_param_space of DensityProblem draws in comparison_plot
    (comparison.py:62-68). *)
Definition relabel (m : mark) : mark :=
  match m with
  | DensityCurve t x y => DensityCurve (if (t =? "in") then "Initial/Prior" else "Updated")%string x y
  | m => m
  end.
(** comparison.py:22-129 comparison_plot: the problems afterwards and what is drawn on the axes.
    Simplification: fonts, ticks and axis labels are not modelled; the limits are below. *)
Definition comparison_plot (d : dprob) (b : bprob) (space : string) : (dprob * bprob) * res (seq mark) :=
  if (space =? "param")%string then
    match dparam_plot d 0 (PP None None (5%:R / 100%:R) true true false false true) with
    | (d, Err e) => ((d, b), Err e)
    | (d, Ok m1) =>
        let r := bparam b 0 None 1000 ONone (OSet (Some "Posterior"%string)) ONone (OSet None) None in
        ((d, r.1), m2 <- r.2 ;; Ok (map relabel m1 ++ m2))
    end
  else
    ((d, b),
     m1 <- dobs_plot d 0 (Some [:: (-1, 1)]) 100 (OSet (Some "$N(0.25,0.1^2)$"%string))
             (OSet (Some "PF of Initial"%string)) (OSet (Some "PF of Updated"%string)) ;;
     m2 <- bobs b 0 None 1000 ONone (OSet (Some "PF of Posterior"%string)) ;;
     Ok (m1 ++ m2)).

(** A figure of the comparison: its axes, their limits, the file and whether it was closed. *)
Record cfig := CFig { cf_marks : seq mark; cf_xlim : R * R; cf_ylim : R * R; cf_file : option string; cf_closed : bool }.
(** comparison.py:203-212 and 214-226; [top1]: the upper limit for N = 1. *)
Definition finish (name : string) (top1 : R) (N : int) (sp : option string) (cl : bool) (m : seq mark) : cfig :=
  CFig (if N != 1 then m ++ [:: TextN N (- (75%:R / 100%:R)) 5%:R] else m) (-1, 1)
       (- (2%:R / 10%:R), if N != 1 then 28%:R else top1)
       (if sp is Some d then Some (path_join d name) else None) (if sp is Some _ then cl else false).

(** comparison.py:187-201: the two problems of a pass of the loop, solved. *)
Definition solve_pass (p : nat) (num_samples : int) (mu sigma : R) (domain : seq R) (domint : bool)
    (N : int) (u z : nat -> R) : res (dprob * bprob) :=
  t <- polynomial_1D_data p num_samples (size domain) u mu sigma N z ;;
  d <- density_init sdist trunc t.1.1 t.1.2 false (Some (nd1 domain)) domint None false 0 ;;
  d <- after (@sd_observed R expf cpi K kde_pdf d (Some (Nor [:: np_mean1 t.2] sigma))) ;;
  let e := @sd_mud R expf cpi K kde kde_pdf d in _ <- e.2 ;;
  b <- bayes_init sdist trunc t.1.1 t.1.2 false (Some (nd1 domain)) ;;
  b <- after (@sb_likelihood R expf cpi K kde_pdf b (Nor [seq Fin x | x <- t.2] sigma) false) ;;
  let f := @sb_map R expf cpi K kde_pdf ln b in _ <- f.2 ;; Ok (e.1, f.1).
(** comparison.py:186-228: a pass of the loop: the figures finished before an exception, if
    any, and the two problems. *)
Definition figure_pass (p : nat) (num_samples : int) (mu sigma : R) (domain : seq R) (domint : bool)
    (N : int) (u z : nat -> R) (sp : option string) (cl : bool) : seq cfig * res (dprob * bprob) :=
  match solve_pass p num_samples mu sigma domain domint N u z with
  | Err e => ([::], Err e)
  | Ok (d, b) =>
    match comparison_plot d b "param" with
    | (_, Err e) => ([::], Err e)
    | ((d, b), Ok m1) =>
      let f1 := finish ("bip-vs-sip-" ++ str_int N ++ ".png") 6%:R N sp cl m1 in
      match comparison_plot d b "obs" with
      | (_, Err e) => ([:: f1], Err e)
      | ((d, b), Ok m2) =>
          ([:: f1; finish ("bip-vs-sip-pf-" ++ str_int N ++ ".png") (45%:R / 10%:R) N sp cl m2], Ok (d, b))
      end
    end
  end.

(** comparison.py:132-229 run_comparison_example: the figures and the problems of each N;
    [draw i]: the draws of pass i. *)
Fixpoint run_comparison_example (p : nat) (num_samples : int) (mu sigma : R) (domain : seq R) (domint : bool)
    (Ns : seq int) (draw : nat -> (nat -> R) * (nat -> R)) (sp : option string) (cl : bool)
  : seq cfig * res (seq (dprob * bprob)) :=
  match Ns with
  | [::] => ([::], Ok [::])
  | N :: Ns' =>
      match figure_pass p num_samples mu sigma domain domint N (draw 0%N).1 (draw 0%N).2 sp cl with
      | (fs, Err e) => (fs, Err e)
      | (fs, Ok r) =>
          let t := run_comparison_example p num_samples mu sigma domain domint Ns' (fun i => draw i.+1) sp cl in
          (fs ++ t.1, rmap (cons r) t.2)
      end
  end.
End Comparison.
