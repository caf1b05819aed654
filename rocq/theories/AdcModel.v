(** Model of examples/adcirc.py:53-324: tri_mesh_plot, adcirc_ts_plot, adcirc_time_window,
    updated_dist_plot and pca_vector_plot. *)
Set Warnings "-notation-overridden,-ambiguous-paths".
From Coq Require Import String ZArith.
From mathcomp Require Import all_ssreflect all_algebra.
From Verif Require Import Py Nd Xnum UtilModel DensityModel UtilModel2 StModel DrawModel ContModel PoisModel StExModel PoisExModel.
Set Implicit Arguments. Unset Strict Implicit. Unset Printing Implicit Defensive.
Import Order.Theory GRing.Theory Num.Theory.
Local Open Scope ring_scope.

Section Adc.
Variable R : rcfType.
Notation xnum := (xnum R).
Notation nd := (nd R).
(** Oracles of the density problem, of SpatioTemporalProblem and of the drawings, as in PoisExModel. *)
Variables (D KW BW : Type) (pdf : D -> KW -> nd -> res (pdfval xnum)) (nokw : KW) (nobw : BW)
  (uniform : seq R -> seq R -> D) (norm01 : D) (kde : nd -> BW -> seq xnum -> res D)
  (kde_pdf : D -> nd -> res (seq xnum)) (trunc : R -> R).
Variables (pca_components : nd -> int -> res nd) (svd_v : nd -> res nd).
Variable curve : string -> D -> seq (R * R) -> int -> res (seq R * seq R).
Variable tri : seq R -> seq R -> seq R -> res unit.
(** Oracles of pandas: the points of time [pd.to_datetime] makes of an array, and the one a
    string denotes.  Simplification: a point of time is a number; missing ones (NaT) are not
    modelled. *)
Variables (stamps : nd -> res (seq R)) (parse : string -> res R).
(** Oracle: [mtri.Triangulation(x, y, triangles)] succeeds. *)
Variable mesh : nd -> nd -> nd -> res unit.

Notation dprob := (dprob R D).
Notation mark := (mark R).
Notation estimate := (estimate pdf nokw nobw uniform norm01 kde kde_pdf).
Notation expected_ratio := (expected_ratio pdf nokw nobw uniform norm01 kde kde_pdf).
Notation mud_problem := (st_mud_problem D trunc pca_components svd_v).
Notation param_plot := (param_plot pdf nokw nobw uniform norm01 kde kde_pdf trunc curve).

(** A SpatioTemporalProblem with its attribute [pca]: the components ["vecs"]. *)
Record ast := AST { a_st : st R; a_pca : option nd }.
(** base.py:1976-2030 mud_problem without weights: the attribute is set by method "pca" as soon
    as PCA has succeeded. *)
Definition mud_problem_pca (a : ast) (method : string) (k : int) (tm : option mask) : ast * res dprob :=
  let s := a_st a in
  let vecs := o <- sample_data s None tm None ;; r <- residuals o (s_sd s) ;; pca pca_components r k in
  (if (method =? "pca")%string then if vecs is Ok v then AST s (Some v) else a else a,
   mud_problem s method None None k None tm None).

(** adcirc.py:201-204: the mask of the times strictly inside the window. *)
Definition in_window (s : st R) (w : string * string) : res (seq bool) :=
  ti <- of_opt TypeError (s_times s) ;; ts <- stamps ti ;;
  a <- parse w.1 ;; b <- parse w.2 ;; Ok [seq (a < x) && (x < b) | x <- ts].

(** A figure: its title (the text given, num_components and E(r)), its axes, its file. *)
Record afig := AFig { af_title : option (string * int * xnum); af_axes : seq (seq mark);
                      af_file : option string; af_closed : bool }.
Definition afig_of (title : option (string * int * xnum)) (name : string) (sp : option string) (cl : bool)
    (axes : seq (seq mark)) : afig :=
  let f := saved name sp cl axes in AFig title (pf_axes f) (pf_file f) (pf_closed f).

(** adcirc.py:296-324 pca_vector_plot: the time series of the first sensor, then the components. *)
Definition vec_colors : seq string := [:: "blue"; "orange"; "black"]%string.
Definition draw_vec (ts : seq R) (i : nat) (v : seq R) : res mark :=
  c <- of_opt IndexError (ohead (drop i vec_colors)) ;;
  _ <- guard (size ts == size v) ValueError ;; Ok (Group c "o" ts v).
Definition pca_vector_plot (a : ast) (tm : seq bool) (max_plot : int) : res (seq (seq mark)) :=
  m1 <- plot_ts (a_st a) None (Some (MBools tm)) (Some 0) max_plot ;;
  v <- of_opt TypeError (a_pca a) ;;
  ti <- of_opt TypeError (s_times (a_st a)) ;;
  idx <- resolve (dim ti 0) (MBools tm) ;;
  let ts := data (take0 ti idx) in
  m2 <- rmapM (fun p => draw_vec ts p.1 p.2) (zip (iota 0 (dim v 0)) (rows v)) ;;
  Ok [:: map (@Art R) m1; m2].

(** adcirc.py:265-293 updated_dist_plot: one axes for each parameter, all with the default range, so
    that each one widens the domain.  Simplification: of [ylims] only the length is used. *)
Definition pp_dist (lam_ref : option (seq R)) : ppargs R :=
  PP lam_ref None (5%:R / 100%:R) true true false true true.
Fixpoint dist_axes (P : dprob) (lam_ref : option (seq R)) (ylims : option (seq R)) (j n : nat)
  : dprob * res (seq (seq mark)) :=
  if n is n'.+1 then
    sbind (DensityModel.lift P (guard (if ylims is Some l then (j < size l)%N else true) IndexError)) (fun P _ =>
    sbind (param_plot P (Posz j) (pp_dist lam_ref)) (fun P m =>
    sbind (dist_axes P lam_ref ylims j.+1 n') (fun P ms => (P, Ok (m :: ms)))))
  else (P, Ok [::]).
Definition updated_dist_plot (P : dprob) (lam_ref ylims : option (seq R)) : dprob * res (seq (seq mark)) :=
  dist_axes P lam_ref ylims 0 (dim (dX P) 1).

(** adcirc.py:242-260: the learned QoI; the label of the ordinate of the second axes is removed. *)
Definition qoi_fig (P : dprob) (nc : int) : res (seq (seq mark)) :=
  rmapM (fun i => _ <- guard (i < 2)%N ValueError ;;
                  a <- plot_params_2d tri (dX P) (dy P) 0 1 (Posz i) false true ;;
                  Ok (map (@Art R) (if i == 1%N then take (size a).-1 a else a)))
        (iota 0 (if nc is Posz k then k else 0%N)).

(** An exception leaves the figures before it. *)
Definition astep (P : dprob) (on : bool) (mk : dprob -> dprob * res afig)
    (next : dprob -> seq afig * res dprob) : seq afig * res dprob :=
  if on then
    match mk P with
    | (_, Err e) => ([::], Err e)
    | (P', Ok f) => let (fs, r) := next P' in (f :: fs, r)
    end
  else next P.
(** adcirc.py:182-262 adcirc_time_window.  [figs]: a list or a string; "in" is then the substring
    test.  The problem afterwards, the figures finished, and the problem returned. *)
Definition adcirc_time_window (a : ast) (w : string * string) (method : string) (nc max_plot : int)
    (ylims : option (seq R)) (title : option string) (sp : option string) (figs : figsel) (cl : bool)
  : ast * (seq afig * res dprob) :=
  let asked k := fig_in k figs || fig_in "all" figs in
  match in_window (a_st a) w with
  | Err e => (a, ([::], Err e))
  | Ok tm =>
    let nm pre := (pre ++ str_int nc ++ "_" ++ str_int (Posz (count id tm)))%string in
    let (a, r) := mud_problem_pca a method nc (Some (MBools tm)) in
    match r with
    | Err e => (a, ([::], Err e))
    | Ok P =>
      match estimate P with
      | (_, Err e) => (a, ([::], Err e))
      | (P, Ok _) =>
        match (if title is Some t then let (P, r) := expected_ratio P in (P, rmap (fun e => Some (t, nc, e)) r)
               else (P, Ok None)) with
        | (_, Err e) => (a, ([::], Err e))
        | (P, Ok ti) =>
          (a, astep P (asked "ts-pca"%string) (fun P => (P, rmap (afig_of ti (nm "pca_vecs_"%string) sp cl) (pca_vector_plot a tm max_plot))) (fun P =>
              astep P (asked "updated_dist"%string) (fun P =>
                match s_lref (a_st a) with
                | None => (P, Err AttributeError)
                | Some l => let (P, r) := updated_dist_plot P (Some l) ylims in
                            (P, rmap (afig_of ti (nm "updated_dist_"%string) sp cl) r)
                end) (fun P =>
              astep P (asked "learned_qoi"%string) (fun P => (P, rmap (afig_of ti "qoi_{num_components}_{ndata}"%string sp cl) (qoi_fig P nc))) (fun P =>
              ([::], Ok P)))))
        end
      end
    end
  end.

(** ** adcirc.py:119-179 adcirc_ts_plot *)
(** A window: vertical lines at its ends, dashed with the style of the window, and its label. *)
Inductive tsmark :=
  | TsArt of art R
  | Wind of seq R & seq R
  | Edge of string & R
  | WindowLabel of nat & R & R.
Definition line_styles : seq string := [:: "--"; ":"; "-."]%string.
Definition draw_window (nw : nat) (labels : option (seq (string * R))) (i : nat) (t : string * string) : res (seq tsmark) :=
  a <- parse t.1 ;; st <- of_opt IndexError (ohead (drop i line_styles)) ;; b <- parse t.2 ;;
  l <- (if labels is Some ls then
          if size ls == nw then l <- of_opt IndexError (ohead (drop i ls)) ;; x <- parse l.1 ;; Ok [:: WindowLabel i.+1 x l.2]
          else Ok [::]
        else Ok [::]) ;;
  Ok ([:: Edge st a; Edge st b] ++ l).
(** adcirc.py:119-179.  The result: the drawings and the file. *)
Definition adcirc_ts_plot (s : st R) (windows : seq (string * string)) (wind : option (seq R * seq R))
    (labels : option (seq (string * R))) (sp : option string) : res (seq tsmark * option string) :=
  m1 <- plot_ts s None None (Some 0) 50 ;;
  m2 <- (if wind is Some (x, y) then _ <- guard (size x == size y) ValueError ;; Ok [:: Wind x y] else Ok [::]) ;;
  m3 <- rmapM (fun p => draw_window (size windows) labels p.1 p.2) (zip (iota 0 (size windows)) windows) ;;
  Ok (map TsArt m1 ++ m2 ++ flatten m3, omap (fun d => path_join d "adcirc_full_ts") sp).

(** ** adcirc.py:53-116 tri_mesh_plot *)
(** [grid[k]] as an array.  Simplification: other values raise TypeError. *)
Definition grid_arr (ds : dset R) (k : string) : res nd :=
  match lookup ds k with Some (VArr a) => Ok a | Some _ => Err TypeError | None => Err KeyError end.
(** What is drawn: filled contours with the label of the colour bar, the limits of the axes, and
    the stations with their numbers. *)
Record meshfig := MeshFig {
  mf_vals : seq R; mf_label : string; mf_xlim : option (R * R); mf_ylim : option (R * R);
  mf_stations : seq (nat * R * R); mf_file : option string }.
Definition around (z : R * R) : R * R := (z.1 - z.2, z.1 + z.2).
(** [v[s]] for a 1-D array *)
Definition station (ds : dset R) (i : nat) (s : int) : res (nat * R * R) :=
  x <- grid_arr ds "XEL" ;; px <- at_idx (data x) s ;;
  y <- grid_arr ds "YEL" ;; py <- at_idx (data y) s ;; Ok (i, px, py).
Definition mesh_values (ds : dset R) (value : string) (cutoff : R) : res (seq R * string) :=
  if (value =? "DP")%string then
    dp <- grid_arr ds "DP" ;; Ok ([seq if - x < cutoff then cutoff else - x | x <- data dp], "Bathymetry (m)"%string)
  else if lookup ds value is Some _ then
    v <- grid_arr ds "wind_speed_mult_0" ;; Ok (data v, "Wind Speed Multiplier"%string)
  else Err ValueError.
Definition tri_mesh_plot (ds : dset R) (value : string) (stations : option (seq int)) (zoom : option ((R * R) * (R * R)))
    (cutoff : R) (sp : option string) : res meshfig :=
  x <- grid_arr ds "X" ;; y <- grid_arr ds "Y" ;; t <- grid_arr ds "triangles" ;; _ <- mesh x y t ;;
  v <- mesh_values ds value cutoff ;;
  _ <- guard (size v.1 == size (data x)) ValueError ;;
  st <- (if stations is Some l then rmapM (fun p => station ds p.1 p.2) (zip (iota 0 (size l)) l) else Ok [::]) ;;
  Ok (MeshFig v.1 v.2 (omap (fun z => around z.1) zoom) (omap (fun z => around z.2) zoom) st
       (omap (fun d => path_join d ("si-" ++ value)) sp)).
End Adc.
