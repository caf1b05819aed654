(** Model of the plotting methods of base.py that compute what they draw:
    DensityProblem.plot_qoi, plot_params_2d; LinearGaussianProblem.plot_sol, plot_contours,
    plot_fun_contours; IterativeLinearProblem.plot_chain, plot_chain_error;
    SpatioTemporalProblem.plot_ts.  What is modelled is what is handed to
    matplotlib; matplotlib itself is not. *)
Set Warnings "-notation-overridden,-ambiguous-paths".
From mathcomp Require Import all_ssreflect all_algebra.
From Coq Require Import String.
From Verif Require Import Py Nd LinAlg Dmx LgpModel IterModel UtilModel UtilModel2 PlotModel StModel.
Set Implicit Arguments. Unset Strict Implicit. Unset Printing Implicit Defensive.
Import Order.Theory GRing.Theory Num.Theory.
Local Open Scope ring_scope.

Section Draw.
Variable R : rcfType.
Notation nd := (nd R).
Notation dmx := (dmx R).
Notation lgp := (lgp R).

(** Calls of matplotlib: scatter (with the values that colour the points), plot, tricontour,
    contour, annotate, colorbar, and the labels, which name a parameter or an observable.
    [OnCurrent]: drawn with pyplot on the current axes instead of the axes chosen. *)
Inductive art :=
  | Points of seq R & seq R & option (seq R)
  | Curve of seq R & seq R
  | TriContour of seq R & seq R & seq R
  | Contour of seq (seq R) & seq (seq R) & seq (seq R)
  | Note of string & R & R
  | Colorbar
  | TitleObservable of int | XLabelParam of int | YLabelParam of int
  | OnCurrent of art.

(** [a[:, j]] *)
Definition ncol (a : nd) (j : nat) : seq R := [seq nth 0 r j | r <- rows a].

(** ** DensityProblem *)
(** base.py:621-648 plot_qoi; [y]: the array of predicted values, 2-D. *)
Definition plot_qoi (y : nd) (idx_x idx_y : int) : res (seq art) :=
  i <- py_index (dim y 1) idx_x ;; j <- py_index (dim y 1) idx_y ;;
  Ok [:: Points (ncol y i) (ncol y j) None].

(** Oracle: whether the points can be triangulated. *)
Variable tri : seq R -> seq R -> seq R -> res unit.
(** base.py:650-710 plot_params_2d; [X], [y]: the samples and predicted values, 2-D.
    Simplification: matplotlib would take three or four predicted values for a colour when
    there are not as many samples; the model raises ValueError. *)
Definition plot_params_2d (X y : nd) (x_1 x_2 yi : int) (contours colorbar : bool) : res (seq art) :=
  _ <- guard (2 <= dim X 1)%N AttributeError ;;
  _ <- guard (~~ ((Posz (dim X 1) <= x_1) || (Posz (dim X 1) <= x_2))) ValueError ;;
  _ <- guard (~~ (Posz (dim y 1) <= yi)) ValueError ;;
  k <- py_index (dim y 1) yi ;;
  let c := ncol y k in
  _ <- guard (dim X 0 == dim y 0) ValueError ;;
  _ <- (if contours then tri (ncol X 0) (ncol X 1) c else Ok tt) ;;
  Ok (Points (ncol X 0) (ncol X 1) (Some c)
      :: (if contours then [:: TriContour (ncol X 0) (ncol X 1) c; TitleObservable (yi + 1)] else [::])
      ++ (if colorbar then [:: Colorbar] else [::])
      ++ [:: XLabelParam (x_1 + 1); YLabelParam (x_2 + 1)]).

(** ** LinearGaussianProblem *)
(** [a.ravel()] of a 2-D array *)
Definition dflat (a : dmx) : seq R := flatten [seq [seq dget a i j | j <- iota 0 (dc a)] | i <- iota 0 (dr a)].
(** [a[i]] of a 2-D array *)
Definition drow (a : dmx) (i : nat) : res (seq R) :=
  if (i < dr a)%N then Ok [seq dget a i j | j <- iota 0 (dc a)] else Err IndexError.

(** base.py:1239-1275 plot_sol; [line]: ln_opts is not None.
    Simplifications: the keyword dictionaries are not modelled; a [solve] that returns something
    else than an array raises OracleError; the annotation of a point is modelled for arrays with
    one column. *)
Definition draw_sol (mean pt : dmx) (initial line : bool) (label : option string) (note_loc : option (R * R))
  : res (seq art) :=
  x <- drow pt 0 ;; y <- drow pt 1 ;;
  l <- (if line && ~~ initial then
          m0 <- get (dflat mean) 0 ;; p0 <- get (dflat pt) 0 ;;
          m1 <- get (dflat mean) 1 ;; p1 <- get (dflat pt) 1 ;;
          Ok [:: Curve [:: m0; p0] [:: m1; p1]]
        else Ok [::]) ;;
  let nl := odflt (head 0 x - 2%:R / 100%:R, head 0 y + 2%:R / 100%:R) note_loc in
  Ok (Points x y None :: l ++ (if label is Some t then [:: Note t nl.1 nl.2] else [::])).
Definition plot_sol (p : lgp) (point : string) (line : bool) (label : option string)
    (note_loc : option (R * R)) : lgp * res (seq art) :=
  let (p', r) := if (point =? "initial")%string then (p, Ok (LgpModel.VArr (lmean p))) else solve p point None in
  (p', v <- r ;;
       match v with
       | LgpModel.VArr pt => draw_sol (lmean p) pt (point =? "initial")%string line label note_loc
       | _ => Err OracleError
       end).

(** Oracle: the columns of [null_space(row)]. *)
Variable ns : seq R -> res (seq (seq R)).
(** Keywords of Line2D; "fs", part of the default plot_opts of base.py:1285, is not one
    (AttributeError). *)
Definition line_keys : seq string := [:: "color"; "ls"; "lw"; "marker"; "label"; "alpha"; "zorder"; "linestyle"; "linewidth"; "c"]%string.
Definition default_opts : seq string := [:: "color"; "ls"; "lw"; "fs"]%string.
Definition is_key (k : string) : bool := has (String.eqb k) line_keys.

(** base.py:1276-1315 plot_contours.  [opts]: the keys of plot_opts.  [i + 1] stands for the label.
    Simplifications: the keywords are checked against [line_keys]; [ref] is a list of numbers. *)
Definition contour_step (ref : seq R) (w : R) (opts : seq string) (annotate : bool)
    (note_loc : option (R * R)) (fmt : int -> string) (AA : seq (seq R)) (p : nat * int) : res (seq art) :=
  v <- (if (p.1 < size AA)%N then Ok (nth [::] AA p.1) else Err IndexError) ;;
  l <- contour_line ref v w ;;
  _ <- guard (all is_key opts) AttributeError ;;
  let nl := odflt (nth 0 l.1 0, nth 0 l.2 0) note_loc in
  Ok (Curve l.1 l.2 :: (if annotate then [:: Note (fmt (p.2 + 1)) nl.1 nl.2] else [::])).
Definition lgp_plot_contours (p : lgp) (ref : option (seq R)) (subset : option (seq int)) (w : R)
    (opts : seq string) (annotate : bool) (note_loc : option (R * R)) (fmt : int -> string)
  : lgp * res (seq art) :=
  let (p', r) := if ref is Some v then (p, Ok v)
                 else let (p', r) := solve p "ls" None in
                      (p', v <- r ;; if v is LgpModel.VArr a then Ok (dflat a) else Err OracleError) in
  (p', ref <- r ;;
       let A := [seq [seq dget (lA p) i j | j <- iota 0 (dc (lA p))] | i <- iota 0 (dr (lA p))] in
       A' <- pick_rows A subset ;;
       vs <- rmapM ns A' ;;
       let labels := if subset is Some l then l else [seq Posz i | i <- iota 0 (size A)] in
       if A' is [::] then Err ValueError else
       rmap flatten (rmapM (contour_step ref w opts annotate note_loc fmt (flatten vs))
                           (zip (iota 0 (size labels)) labels))).

(** [v.reshape(N, N)] *)
Definition square (N : int) (v : seq R) : res (seq (seq R)) :=
  if N is Posz n then
    _ <- guard (size v == (n * n)%N) ValueError ;;
    Ok [seq [seq nth 0 v (i * n + j) | j <- iota 0 n] | i <- iota 0 n]
  else Err ValueError.
(** [a[:, j]] *)
Definition dcolumn (a : dmx) (j : nat) : res (seq R) :=
  if (j < dc a)%N then Ok [seq dget a i j | i <- iota 0 (dr a)] else Err IndexError.
(** The rows of the mesh as an array. *)
Definition mesh_array (pts : seq (R * R)) : dmx :=
  dbuild (size pts) 2 (fun i j => let q := nth (0, 0) pts i in if j == 0%N then q.1 else q.2).

(** base.py:1317-1337 plot_fun_contours (a tuple has no reshape: AttributeError; matplotlib wants at
    least 2 x 2 values: TypeError). *)
Definition plot_fun_contours (p : lgp) (mesh : option dmx) (terms : string) (N : int) (r : R) : res (seq art) :=
  mesh <- (if mesh is Some m then Ok m
           else m <- make_2d_unit_mesh N r ;; Ok (mesh_array m.2)) ;;
  term <- compute_functionals p mesh terms ;;
  x <- dcolumn mesh 0 ;; X <- square N x ;;
  y <- dcolumn mesh 1 ;; Y <- square N y ;;
  t <- (if term is FArr t then Ok t else Err AttributeError) ;;
  Z <- square N t ;;
  _ <- guard (2 <= size Z)%N TypeError ;;
  Ok [:: Contour X Y Z].

(** ** IterativeLinearProblem *)
(** base.py:1492-1511 plot_chain: what has been drawn when it stops, and how it stops.  The call of
    plot_contours passes keywords [color] and [s] that method does not have.
    Simplification: the points of a chain and ref_param have one column. *)
Definition draw_point (a : dmx) : res (seq art) :=
  x <- get (dflat a) 0 ;; y <- get (dflat a) 1 ;; Ok [:: Points [:: x] [:: y] None].
Fixpoint draw_steps (current : dmx) (chain : seq dmx) : res (seq art) :=
  if chain is q :: chain' then
    x0 <- get (dflat current) 0 ;; x1 <- get (dflat q) 0 ;;
    y0 <- get (dflat current) 1 ;; y1 <- get (dflat q) 1 ;;
    rest <- draw_steps q chain' ;;
    Ok (Curve [:: x0; x1] [:: y0; y1] :: rest)
  else Ok [::].
Definition draw_chain (ref : dmx) (chain : seq dmx) : res (seq art) :=
  if chain is q :: _ then
    a <- draw_point q ;; b <- draw_steps q chain ;; c <- draw_point (last q chain) ;; d <- draw_point ref ;;
    Ok (a ++ b ++ c ++ d)
  else Err IndexError.
Definition plot_chain (p : ilp R) (ref : dmx) : res (seq art) :=
  drawn <- rmapM (draw_chain ref) (ichains p) ;;
  more <- Err TypeError ;;
  Ok (flatten drawn ++ more).

(** base.py:1513-1525 plot_chain_error: the errors against 0, 1, 2, ... *)
Definition plot_chain_error (p : ilp R) (ref : dmx) : ilp R * res (seq art) :=
  let (p', r) := ilp_get_errors p ref in
  (p', _ <- r ;; Ok [:: Curve [seq i%:R | i <- iota 0 (size (ierrors p'))] (ierrors p')]).

(** ** SpatioTemporalProblem *)
(** base.py:1924-1972 plot_ts; a single sensor index selects what a list with that index selects
    (what follows only looks at the reshaped arrays).  The random indices only count the curves.
    Simplifications: times have one column; without measurements the model raises TypeError
    (matplotlib: ValueError unless there is one time). *)
Definition plot_ts (s : st R) (samples times : option mask) (sensor_idx : option int) (max_plot : int)
  : res (seq art) :=
  o <- sample_data s samples times (omap (fun i => MInts [:: i]) sensor_idx) ;;
  let n := dim (sd_data o) 0 in
  let max_plot := if Posz n < max_plot then Posz n else max_plot in
  meas <- of_opt TypeError (sd_meas o) ;;
  _ <- guard (size (data (sd_times o)) == size meas) ValueError ;;
  k <- (if max_plot is Posz k then Ok k else Err ValueError) ;;
  Ok (OnCurrent (Points (data (sd_times o)) meas None)
      :: [seq Curve (data (sd_times o)) (nth [::] (rows (sd_data o)) i) | i <- iota 0 k]).
End Draw.
