(** Model of base.DensityProblem (base.py:25-710). *)
Set Warnings "-notation-overridden,-ambiguous-paths".
From mathcomp Require Import all_ssreflect all_algebra.
From Verif Require Import Py Nd Xnum UtilModel.
Set Implicit Arguments. Unset Strict Implicit. Unset Printing Implicit Defensive.
Import Order.Theory GRing.Theory Num.Theory.
Local Open Scope ring_scope.

(** Array returned by a [pdf] method: 1-D, or 2-D as its rows. *)
Inductive pdfval (V : Type) := P1 of seq V | P2 of seq (seq V).

(** [a.ravel()] *)
Definition pravel V (a : pdfval V) : seq V :=
  match a with P1 s => s | P2 s => flatten s end.

(** State-passing calls: the object after the call (also after an exception) and the
    result. *)
Definition sbind S A B (m : S * res A) (f : S -> A -> S * res B) : S * res B :=
  match m with
  | (s, Ok a) => f s a
  | (s, Err e) => (s, Err e)
  end.
Definition lift S A (s : S) (r : res A) : S * res A := (s, r).

Section XArrays.
Variable R : realFieldType.
Notation xnum := (xnum R).

(** Element-wise operation on 1-D arrays with numpy broadcasting. *)
Definition xvbop (f : xnum -> xnum -> xnum) (u v : seq xnum) : res (seq xnum) :=
  if size u == size v then Ok [seq f p.1 p.2 | p <- zip u v]
  else if size u == 1%N then Ok [seq f (head NaN u) y | y <- v]
  else if size v == 1%N then Ok [seq f x (head NaN v) | x <- u]
  else Err ValueError.

(** [a.prod(axis=1)]: numpy's AxisError (a ValueError) for a 1-D array. *)
Definition prod_axis1 (a : pdfval xnum) : res (seq xnum) :=
  match a with P1 _ => Err ValueError | P2 s => Ok [seq xprod r | r <- s] end.

(** [np.average(a, weights=w)] (no axis): TypeError when the shapes differ,
    ZeroDivisionError when the weights sum to zero. *)
Definition np_average (a w : seq xnum) : res xnum :=
  if size a != size w then Err TypeError else
  match xsum w with
  | Fin z => if z == 0 then Err ZeroDivisionError
             else Ok (xdiv (xsum [seq xmul p.1 p.2 | p <- zip a w]) (Fin z))
  | scl => Ok (xdiv (xsum [seq xmul p.1 p.2 | p <- zip a w]) scl)
  end.
End XArrays.

Section Density.
Variable R : rcfType.
Notation xnum := (xnum R).
Notation nd := (nd R).
(** Oracles: [D] distribution objects, [KW] keyword arguments of [pdf], [BW] bandwidth
    arguments.  [pdf d kw a] = [d.pdf(a, **kw)]; [uniform loc scale] =
    [dist.uniform(loc, scale)]; [norm01] = [dist.norm()]; [kde y bw w] =
    [gkde(y.T, bw_method=bw, weights=w)] and [kde_pdf k y] = [k.pdf(y.T).T], a 1-D array. *)
Variables (D KW BW : Type).
Variable pdf : D -> KW -> nd -> res (pdfval xnum).
Variable nokw : KW.
Variable nobw : BW.
Variable uniform : seq R -> seq R -> D.
Variable norm01 : D.
Variable kde : nd -> BW -> seq xnum -> res D.
Variable kde_pdf : D -> nd -> res (seq xnum).
(** Truncation numpy applies when storing a float into an integer array. *)
Variable trunc : R -> R.
Definition cast_of (isint : bool) : R -> R := if isint then trunc else id.

(** Instance attributes, base.py:111-135; [d_int]: the domain array has an integer dtype.
    Simplification: X, y, domain have at most two dimensions (the code lets arrays of three
    and more dimensions through). *)
Record dprob := DP {
  dX : nd; dy : nd; ddom : nd; d_int : bool; d_w : seq xnum;
  d_r : option (seq xnum); d_up : option (seq xnum); d_in : option (seq xnum);
  d_pr : option (seq xnum); d_ob : option (seq xnum);
  d_in_dist : option D; d_pr_dist : option D; d_ob_dist : option D }.

(** base.py:138-147 *)
Definition n_params (s : dprob) := dim (dX s) 1.
Definition n_features (s : dprob) := dim (dy s) 1.
Definition n_samples (s : dprob) := dim (dy s) 0.

(** base.py:192-195 *)
Definition put_weights (s : dprob) (w : seq xnum) : dprob :=
  DP (dX s) (dy s) (ddom s) (d_int s) w (d_r s) None (d_in s) None (d_ob s)
     (d_in_dist s) None (d_ob_dist s).

(** base.py:187 [np.prod(w, axis=0)] of a 2-D array with [n] columns. *)
Definition weight_prod (n : nat) (ws : seq (seq R)) : seq R :=
  [seq \prod_(r <- ws) nth 0 r j | j <- iota 0 n].
(** [np.linalg.norm] of a 1-D array. *)
Definition norm2 (w : seq R) : R := Num.sqrt (\sum_(x <- w) x ^+ 2).

(** base.py:149-195 set_weights.  Simplification: at most two dimensions. *)
Definition set_weights (s : dprob) (weights : option nd) (normalize : bool)
  : dprob * res unit :=
  match weights with
  | None => (put_weights s (nseq (dim (dX s) 0) (Fin 1)), Ok tt)
  | Some w =>
      if ndim w == 0%N then (s, Err IndexError) else
      let w2 := if ndim w == 1%N then Nd [:: 1%N; size (data w)] (data w) else w in
      if n_samples s != dim w2 1 then (s, Err AssertionError) else
      let p := weight_prod (dim w2 1) (rows w2) in
      let w' := if normalize then [seq xdiv (Fin x) (Fin (norm2 p)) | x <- p]
                else [seq Fin x | x <- p] in
      (put_weights s w', Ok tt)
  end.

(** base.py:102-135 __init__.  [xint], [domint]: X / domain given with an integer dtype.
    [pad_domain] is accepted and ignored, as in the code. *)
Definition density_init (X y : nd) (xint : bool) (domain : option nd) (domint : bool)
    (weights : option nd) (normalize : bool) (pad_domain : R) : res dprob :=
  X2 <- set_shape [:: Some 1%N; None] X ;;
  y2 <- set_shape [:: None; Some 1%N] y ;;
  dm <- (match domain with
         | Some d => d2 <- set_shape [:: Some 1%N; None] d ;;
                     _ <- guard (dim d2 0 == dim X2 1) AssertionError ;; Ok (d2, domint)
         | None => d2 <- fit_domain (cast_of xint) (Some X2) None (10%:R^-1) ;; Ok (d2, xint)
         end) ;;
  let s0 := DP X2 y2 dm.1 dm.2 [::] None None None None None None None None in
  let (s, r) := set_weights s0 weights normalize in
  _ <- r ;; Ok s.

(** base.py:197-215 set_observed ([None]: the default [dist.norm()]): the distribution is
    stored before its values are computed. *)
Definition set_observed (s : dprob) (d : option D) : dprob * res unit :=
  let d := odflt norm01 d in
  let s1 := DP (dX s) (dy s) (ddom s) (d_int s) (d_w s) (d_r s) (d_up s) (d_in s) (d_pr s)
               (d_ob s) (d_in_dist s) (d_pr_dist s) (Some d) in
  match (a <- pdf d nokw (dy s) ;; prod_axis1 a) with
  | Err e => (s1, Err e)
  | Ok ob => (DP (dX s) (dy s) (ddom s) (d_int s) (d_w s) (d_r s) (d_up s) (d_in s) (d_pr s)
                 (Some ob) (d_in_dist s) (d_pr_dist s) (Some d), Ok tt)
  end.

(** base.py:238-240: the uniform distribution over the domain (ValueError: no columns). *)
Definition default_initial (s : dprob) : res D :=
  if dim (ddom s) 1 == 0%N then Err ValueError else
  let mn := [seq np_min r | r <- rows (ddom s)] in
  let mx := [seq np_max r | r <- rows (ddom s)] in
  Ok (uniform mn [seq p.1 - p.2 | p <- zip mx mn]).

(** base.py:217-248 set_initial *)
Definition set_initial (s : dprob) (d : option D) : dprob * res unit :=
  match (d <- (if d is Some d then Ok d else default_initial s) ;;
         a <- pdf d nokw (dX s) ;; v <- prod_axis1 a ;; Ok (d, v)) with
  | Err e => (s, Err e)
  | Ok (d, v) => (DP (dX s) (dy s) (ddom s) (d_int s) (d_w s) (d_r s) None (Some v) None
                     (d_ob s) (Some d) None (d_ob_dist s), Ok tt)
  end.

(** Arguments of set_predicted (base.py:250-256). *)
Record pargs := PA { pa_dist : option D; pa_bw : BW; pa_w : option nd; pa_kw : KW }.
Definition no_args := PA None nobw None nokw.

(** base.py:300-305 *)
Definition predicted_values (s : dprob) (a : pargs) : res (D * seq xnum) :=
  match pa_dist a with
  | None => k <- kde (dy s) (pa_bw a) (d_w s) ;; v <- kde_pdf k (dy s) ;; Ok (k, v)
  | Some d => v <- pdf d (pa_kw a) (dy s) ;; Ok (d, pravel v)
  end.

(** base.py:250-309 set_predicted *)
Definition set_predicted (s : dprob) (a : pargs) : dprob * res unit :=
  sbind (if pa_w a is Some w then set_weights s (Some w) false else (s, Ok tt)) (fun s _ =>
  match predicted_values s a with
  | Err e => (s, Err e)
  | Ok (d, v) => (DP (dX s) (dy s) (ddom s) (d_int s) (d_w s) (d_r s) None (d_in s) (Some v)
                     (d_ob s) (d_in_dist s) (Some d) (d_ob_dist s), Ok tt)
  end).

Definition put_r (s : dprob) (r : seq xnum) : dprob :=
  DP (dX s) (dy s) (ddom s) (d_int s) (d_w s) (Some r) (d_up s) (d_in s) (d_pr s) (d_ob s)
     (d_in_dist s) (d_pr_dist s) (d_ob_dist s).
Definition put_up (s : dprob) (u : seq xnum) : dprob :=
  DP (dX s) (dy s) (ddom s) (d_int s) (d_w s) (d_r s) (Some u) (d_in s) (d_pr s) (d_ob s)
     (d_in_dist s) (d_pr_dist s) (d_ob_dist s).

(** base.py:339-344: defaults for what has not been set. *)
Definition fill_defaults (s : dprob) (a : pargs) : dprob * res unit :=
  sbind (if d_in s is None then set_initial s None else (s, Ok tt)) (fun s _ =>
  sbind (if d_pr s is None then set_predicted s a else (s, Ok tt)) (fun s _ =>
  if d_ob s is None then set_observed s None else (s, Ok tt))).

(** base.py:311-352 fit *)
Definition fit (s : dprob) (a : pargs) : dprob * res unit :=
  sbind (fill_defaults s a) (fun s _ =>
  sbind (lift s (xvbop (@xdiv R) (odflt [::] (d_ob s)) (odflt [::] (d_pr s)))) (fun s r =>
  let s := put_r s r in
  sbind (lift s (iw <- xvbop (@xmul R) (odflt [::] (d_in s)) (d_w s) ;;
                 xvbop (@xmul R) iw r)) (fun s u =>
  (put_up s u, Ok tt)))).

(** base.py:376-377, 419-420: fit when there is no updated density. *)
Definition ensure_up (s : dprob) : dprob * res unit :=
  if d_up s is None then fit s no_args else (s, Ok tt).

(** [X[m, :]] *)
Definition row_at (X : nd) (m : nat) : res (seq R) :=
  if (m < dim X 0)%N then Ok (nth [::] (rows X) m) else Err IndexError.

(** base.py:354-379 mud_point; base.py:381-395 estimate is the same. *)
Definition mud_point (s : dprob) : dprob * res (seq R) :=
  sbind (ensure_up s) (fun s _ =>
  lift s (m <- argmax (odflt [::] (d_up s)) ;; row_at (dX s) m)).
Definition estimate := mud_point.

(** base.py:397-422 expected_ratio *)
Definition expected_ratio (s : dprob) : dprob * res xnum :=
  sbind (ensure_up s) (fun s _ => lift s (np_average (odflt [::] (d_r s)) (d_w s))).

(** base.py:425-532 plot_param_space.  [xr]: [x_range] given; the four flags: the option
    dictionaries are not None; [draw k s]: what the k-th plotting step does (an oracle that
    may raise but not change the object: it gets arrays the code does not write to). *)
Definition plot_param_space (draw : nat -> dprob -> res unit) (s : dprob) (xr : bool)
    (pad_ratio : R) (in_opts up_opts win_opts mud_opts : bool) : dprob * res unit :=
  sbind (if xr then (s, Ok tt) else
         match fit_domain (cast_of (d_int s)) None (Some (ddom s)) pad_ratio with
         | Err e => (s, Err e)
         | Ok B => (DP (dX s) (dy s) B (d_int s) (d_w s) (d_r s) (d_up s) (d_in s) (d_pr s)
                       (d_ob s) (d_in_dist s) (d_pr_dist s) (d_ob_dist s), Ok tt)
         end) (fun s _ =>
  sbind (lift s (guard (isSome (d_in_dist s)) AssertionError)) (fun s _ =>
  sbind (lift s (if in_opts then draw 0%N s else Ok tt)) (fun s _ =>
  sbind (lift s (if up_opts then draw 1%N s else Ok tt)) (fun s _ =>
  sbind (lift s (if win_opts then draw 2%N s else Ok tt)) (fun s _ =>
  sbind (if mud_opts then sbind (estimate s) (fun s _ => lift s (draw 3%N s)) else (s, Ok tt))
        (fun s _ => lift s (draw 4%N s))))))).

(** base.py:534-619 plot_obs_space; [yr]: number of rows of [y_range] when given. *)
Definition plot_obs_space (draw : nat -> dprob -> res unit) (s : dprob) (yr : option nat)
  : dprob * res unit :=
  lift s (k <- (match yr with
                | Some k => Ok k
                | None => rmap (fun B => dim B 0) (fit_domain id (Some (dy s)) None (10%:R^-1))
                end) ;;
          _ <- guard (k == n_features s) ValueError ;;
          _ <- guard (isSome (d_ob_dist s)) AssertionError ;;
          draw 5%N s).

(** Calls a user can make on the object. *)
Inductive dop :=
  | OWeights of option nd & bool
  | OObserved of option D
  | OInitial of option D
  | OPredicted of pargs
  | OFit of pargs
  | OMud | ORatio
  | OPlot of bool & R & bool & bool & bool & bool
  | OPlotObs of option nat.

(** The object after a call, and whether it returned. *)
Definition void A (m : dprob * res A) : dprob * res unit := (m.1, rmap (fun _ => tt) m.2).
Definition run1 draw (s : dprob) (o : dop) : dprob * res unit :=
  match o with
  | OWeights w n => set_weights s w n
  | OObserved d => set_observed s d
  | OInitial d => set_initial s d
  | OPredicted a => set_predicted s a
  | OFit a => fit s a
  | OMud => void (mud_point s)
  | ORatio => void (expected_ratio s)
  | OPlot xr p a b c d => plot_param_space draw s xr p a b c d
  | OPlotObs k => plot_obs_space draw s k
  end.
(** A history: exceptions are caught by the caller, who goes on. *)
Definition run draw (s : dprob) (h : seq dop) : dprob := foldl (fun s o => (run1 draw s o).1) s h.
(** Every call of the history returned. *)
Fixpoint all_return draw (s : dprob) (h : seq dop) : bool :=
  match h with
  | [::] => true
  | o :: h' => let r := run1 draw s o in is_ok r.2 && all_return draw r.1 h'
  end.

End Density.
