(** Model of the boundary splines of the Poisson example: examples/fenics.py
    piecewise_eval_from_vector, examples/poisson.py plot_solution_spline and
    spline_objective_function_2d. *)
Set Warnings "-notation-overridden,-ambiguous-paths".
From mathcomp Require Import all_ssreflect all_algebra.
From Verif Require Import Py Nd UtilModel UtilModel2 DensityModel.
Set Implicit Arguments. Unset Strict Implicit. Unset Printing Implicit Defensive.
Import Order.Theory GRing.Theory Num.Theory.
Local Open Scope ring_scope.

Section Pois.
Variable R : rcfType.

(** fenics.py:36-39: the entries of xvals and yvals for n values. *)
Definition xval (n i : nat) : R := i%:R * (1 / n.+1%:R).
Definition yvals (u : seq R) : seq R := 0 :: u ++ [:: 1].

(** fenics.py:42-48: the value of the i-th term of the expression where x[d] is [x]. *)
Definition term (u : seq R) (i : nat) (x : R) : R :=
  let start := xval (size u) i.-1 in
  let end_ := xval (size u) i in
  let diff := start - end_ in
  ((start <= x) && (x < end_))%:R *
  (nth 0 (yvals u) i.-1 * ((x - end_) / diff) + (1 - (x - end_) / diff) * nth 0 (yvals u) i).

(** fenics.py:30-50 piecewise_eval_from_vector: the value, at the point [p], of the expression
    whose text the function returns (the terms joined by +).  Simplification: the text itself and
    its parsing by FEniCS are not modelled. *)
Definition piecewise_eval_from_vector (u : seq R) (d : nat) (p : seq R) : R :=
  \sum_(i <- iota 1 (size u).+1) term u i (nth 0 p d).

(** poisson.py:90-91 / 121-122: the reference boundary data. *)
Definition a_true : R := 197%:R + 65%:R / 10%:R ^+ 2 + 32%:R / 10%:R ^+ 5. (* 197.65032 *)
Definition g_true (x : R) : R := a_true * x ^+ 2 * (x - 1) ^+ 5.

(** poisson.py:94-95: the points of the line plot_solution_spline draws for lam. *)
Definition plot_solution_spline (lam : seq R) : res (seq R * seq R) :=
  l <- linspace 0 1 (Posz (2 + size lam)) ;;
  let intervals := behead (take (size l).-1 l) in
  Ok (0 :: rcons intervals 1, 0 :: rcons lam 0).

(** scipy's interp1d (linear): the segment is found by searchsorted (left), clipped; values
    outside the knots raise ValueError. *)
Definition interp1d (xs ys : seq R) (x : R) : R :=
  let hi := minn (maxn (count (fun k => k < x) xs) 1) (size xs).-1 in
  let lo := hi.-1 in
  (nth 0 ys hi - nth 0 ys lo) / (nth 0 xs hi - nth 0 xs lo) * (x - nth 0 xs lo) + nth 0 ys lo.
Definition interp_all (xs ys x : seq R) : res (seq R) :=
  _ <- guard (all (fun t => (head 0 xs <= t) && (t <= last 0 xs)) x) ValueError ;;
  Ok [seq interp1d xs ys t | t <- x].

(** poisson.py:105-126 spline_objective_function_2d *)
Definition spline_objective_function_2d (lam : seq R) (aff : int) : res R :=
  x <- linspace 0 1 aff ;;
  let g := [seq g_true t | t <- x] in
  _ <- guard (2 <= size lam)%N IndexError ;;
  vals <- interp_all [:: 0; 1 / 3%:R; 2%:R / 3%:R; 1] [:: 0; nth 0 lam 0; nth 0 lam 1; 0] x ;;
  Ok (norm2 [seq p.1 - p.2 | p <- zip g vals]).
End Pois.
