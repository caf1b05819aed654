(** Model of examples/examples.py: print_res and the commands poisson_solve, poisson_trials,
    poisson_generate, adcirc_solve, contours and the data files of mud_paper. *)
Set Warnings "-notation-overridden,-ambiguous-paths".
From Coq Require Import String ZArith.
From mathcomp Require Import all_ssreflect all_algebra.
From Verif Require Import Py Nd Xnum LinAlg Dmx LgpModel UtilModel DensityModel UtilModel2 StModel DrawModel ContModel PoisModel StExModel PoisExModel AdcModel.
Set Implicit Arguments. Unset Strict Implicit. Unset Printing Implicit Defensive.
Import Order.Theory GRing.Theory Num.Theory.
Local Open Scope ring_scope.

(** What plot_fig is when it reaches run_2d_poisson_sol: click hands over a tuple (every option with
    [multiple=True]), mud_paper a list. *)
Inductive figarg := FList of seq string | FStr of string | FTuple of seq string.
(** poisson.py:283 [[plot_fig] if not isinstance(plot_fig, list) else plot_fig], as the strings among
    its elements: a tuple becomes one element that is not a string. *)
Definition strings_of (a : figarg) : seq string :=
  match a with FList l => l | FStr s => [:: s] | FTuple _ => [::] end.

(** A finite map with string keys (a dictionary, the files of a disk); setting a key. *)
Definition dict T := seq (string * T).
Fixpoint get T (d : dict T) (k : string) : option T :=
  if d is (k', v) :: d' then if (k =? k')%string then Some v else get d' k else None.
Definition put T (d : dict T) (k : string) (v : T) : dict T := (k, v) :: d.

Section Cli.
Variable R : rcfType.
Notation xnum := (xnum R).
Notation nd := (nd R).
Notation dset := (dset R).

(** ** examples.py:25-88 print_res *)
(** A cell: a text, an integer, an array, a number. *)
Inductive cell := CText of string | CInt of int | CArr of seq R | CNum of xnum.
Notation record := (dict cell).
(** The table built: its columns and its rows; how PrettyTable lays it out is not modelled. *)
Definition table := (seq string * seq (seq cell))%type.
Fixpoint repeats (l : seq string) : bool := if l is x :: l' then has (String.eqb x) l' || repeats l' else false.
Definition row_cells (fields : seq string) (r : record) : res (seq cell) :=
  rmapM (fun f => of_opt KeyError (get r f)) fields.
(** [found]: whether [re.search(match, x) is not None]; [filter_fun]: None or a function. *)
Fixpoint table_rows (fields : seq string) (search : option string) (found : cell -> res bool)
    (filter_fun : option (record -> res record)) (rs : seq record) : res (seq (seq cell)) :=
  if rs is r :: rs' then
    r <- (if filter_fun is Some f then f r else Ok r) ;;
    b <- (if search is Some k then c <- of_opt KeyError (get r k) ;; found c else Ok true) ;;
    row <- (if b then rmap (fun c => [:: c]) (row_cells fields r) else Ok [::]) ;;
    rest <- table_rows fields search found filter_fun rs' ;; Ok (row ++ rest)
  else Ok [::].
(** PrettyTable refuses a column name given twice. *)
Definition print_res (rs : seq record) (fields : seq string) (search : option string) (found : cell -> res bool)
    (filter_fun : option (record -> res record)) : res table :=
  _ <- guard (~~ repeats fields) ValueError ;;
  rows <- table_rows fields search found filter_fun rs ;; Ok (fields, rows).
(** As the commands call it. *)
Definition print_all (rs : seq record) (fields : seq string) : res table :=
  print_res rs fields None (fun _ => Ok true) None.

(** ** The Poisson commands *)
(** Oracles as in PoisExModel and AdcModel. *)
Variables (D KW BW : Type) (pdf : D -> KW -> nd -> res (pdfval xnum)) (nokw : KW) (nobw : BW)
  (uniform : seq R -> seq R -> D) (norm01 : D) (kde : nd -> BW -> seq xnum -> res D)
  (kde_pdf : D -> nd -> res (seq xnum)) (trunc : R -> R).
Variables (pca_components : nd -> int -> res nd) (svd_v : nd -> res nd).
Variables (G : Type) (reseed : int -> res G) (randn rand : nat -> G -> seq R * G).
Variables (H : Type) (pyseed : int -> H) (pysample : nat -> H -> seq nat * H).
Variable curve : string -> D -> seq (R * R) -> int -> res (seq R * seq R).
Variable tri : seq R -> seq R -> seq R -> res unit.
Variable closest : R * R.
Variable field : dset -> res (seq R * seq R * seq R).
Variables (stamps : nd -> res (seq R)) (parse : string -> res R) (mesh : nd -> nd -> nd -> res unit).
Notation estimate := (estimate pdf nokw nobw uniform norm01 kde kde_pdf).
Notation expected_ratio := (expected_ratio pdf nokw nobw uniform norm01 kde kde_pdf).
Notation dprob := (dprob R D).
Notation run_sol := (run_2d_poisson_sol pdf nokw nobw uniform norm01 kde kde_pdf trunc pca_components svd_v
  reseed randn pysample curve tri closest field).
Notation run_trials := (run_2d_poisson_trials pdf nokw nobw uniform norm01 kde kde_pdf trunc pca_components svd_v
  reseed randn pyseed pysample curve closest).
Notation time_window := (adcirc_time_window pdf nokw nobw uniform norm01 kde kde_pdf trunc pca_components svd_v curve tri
  stamps parse).

(** The context of the group: examples.py:91-120 (what [np.random.seed] does to numpy's generator;
    the directory is made).  Simplification: the directory can be made; show and dpi are not modelled. *)
Definition examples_group (seed : option int) (g : G) : res G := if seed is Some q then reseed q else Ok g.

(** examples.py:375-402 poisson_solve: the figures and the MUD point printed. *)
Definition poisson_solve (file : res dset) (sigma : R) (plot_fig : seq string) (seed : option int) (sp : option string)
    (g : G) (h : H) : (G * H) * (seq (pfig R) * res (seq R)) :=
  let: (gh, (fs, r)) := run_sol file sigma seed (strings_of (FTuple plot_fig)) sp false "random"
    default_groups default_markers default_colors (pp0 R) (pp0 R) g h in
  (gh, (fs, x <- r ;; (estimate x.2).2)).

(** [[p.estimate(), p.expected_ratio()]] for a problem that is not used afterwards. *)
Definition solution (P : dprob) : res (seq R * xnum) :=
  let (P, r) := estimate P in m <- r ;; e <- (expected_ratio P).2 ;; Ok (m, e).
(** examples.py:524-527, 944-947 *)
Definition trial_rows (Ns : seq int) (Ps : seq dprob) : res (seq record) :=
  rmapM (fun p => N <- of_opt IndexError (ohead (drop p.1 Ns)) ;; x <- solution p.2 ;;
                  Ok [:: ("N", CInt N); ("mud_pt", CArr x.1); ("r", CNum x.2)]%string) (zip (iota 0 (size Ps)) Ps).
Definition default_loc1 : option (R * R * R) := Some (- (26%:R / 10%:R), 12%:R / 10%:R, 8%:R / 10%:R).
Definition default_loc2 : option (R * R * R) := Some (- (35%:R / 10%:R), 83%:R / 100%:R, 53%:R / 100%:R).
(** examples.py:493-532 poisson_trials: the figures and the table printed.  Simplification: -x1
    and -x2 are given twice each, or not at all (the limits then have two entries); the y limits
    are not modelled. *)
Definition poisson_trials (file : res dset) (Ns : seq int) (xlim1 xlim2 : R * R) (sigma : R) (plot_fig : seq string)
    (seed : option int) (sp : option string) (g : G) (h : H) : (G * H) * (seq (pfig R) * res table) :=
  let Ns := sort <=%R Ns in
  let: (gh, (fs, r)) := run_trials file Ns "random" xlim1 xlim2 default_loc1 default_loc2 sigma seed sp false g h in
  (gh, (fs, x <- r ;; rs <- trial_rows Ns x.2 ;; print_all rs [:: "N"; "mud_pt"; "r"]%string)).

(** ** The data files of the Poisson problem *)
(** fenics.py:196-200: the name of the file written. *)
Definition fenics_file (sp : string) (num_samples num_sensors : int) (dim_ : nat) : string :=
  (sp ++ "/s" ++ str_int num_samples ++ "_n" ++ str_int num_sensors ++ "_d" ++ str_int (Posz dim_) ++ "_res")%string.
Variables (solve : seq R -> R -> R -> R) (solve_gamma : R -> R -> R -> R) (u : pyv R).
Notation run_fenics := (run_fenics reseed rand solve solve_gamma).
(** examples.py:645-679 poisson_generate: the files afterwards and the path printed (None: FEniCS is
    not there, and a message is).  Simplification: the domain of the sensors is given by two pairs;
    writing the file succeeds. *)
Definition poisson_generate (fenics : bool) (num_samples num_sensors : int) (mins maxs : seq R) (low high : R * R) (gamma : R)
    (seed : option int) (save_path : option string) (disk : dict dset) (g : G) : (G * dict dset) * res (option string) :=
  let path := odflt "."%string save_path in
  if fenics then
    match run_fenics num_samples num_sensors mins maxs low high gamma seed u g with
    | (g, Err e) => ((g, disk), Err e)
    | (g, Ok ds) => let p := fenics_file path num_samples num_sensors (size mins) in ((g, put disk p ds), Ok (Some p))
    end
  else ((g, disk), Ok None).
(** Opening a pickled file: base.py:1790-1798. *)
Definition open_file (disk : dict dset) (p : string) : res dset := of_opt FileNotFoundError (get disk p).
(** examples.py:907-922 (mud_paper): the data of the Poisson problem.  [remote]: the file downloaded
    (or the exception that raises).  Simplifications: a path is its string, written with "/", and the
    current directory holds no file of that name beforehand (the download would get another
    name). *)
Definition paper_poisson_data (fenics : bool) (save_path : string) (remote : res dset) (seed : option int)
    (disk : dict dset) (g : G) : (G * dict dset) * res unit :=
  let p_path := path_join save_path "data/poisson_data.pkl" in
  if get disk p_path is Some _ then ((g, disk), Ok tt) else
  if fenics then
    match run_fenics (Posz 1000) (Posz 500) [:: - 4%:R; - 4%:R] [:: 0; 0] (0, 0) (1, 1) (- 3%:R) seed u g with
    | (g, Err e) => ((g, disk), Err e)
    | (g, Ok ds) => ((g, put disk (fenics_file "." (Posz 1000) (Posz 500) 2) ds), Ok tt)
    end
  else match remote with Err e => ((g, disk), Err e) | Ok ds => ((g, put disk p_path ds), Ok tt) end.
(** examples.py:907-948 (mud_paper, figures 7 to 9): [fs7], [fs9]: the figures of the solution and of
    the trials.  Simplification: [_set_seed] is part of what the runs do with the seed. *)
Definition paper_poisson (fenics : bool) (save_path : string) (remote : res dset) (seed : option int)
    (disk : dict dset) (g : G) (h : H) : (G * H * dict dset) * (seq (pfig R) * seq (pfig R) * res table) :=
  let: ((g, disk), r) := paper_poisson_data fenics save_path remote seed disk g in
  if r is Err e then ((g, h, disk), ([::], [::], Err e)) else
  let file := open_file disk (path_join save_path "data/poisson_data.pkl") in
  match examples_group seed g with
  | Err e => ((g, h, disk), ([::], [::], Err e))
  | Ok g =>
    let: ((g, h), (fs7, r)) := run_sol file (5%:R / 100%:R) seed (strings_of (FList [:: "response"; "qoi"]%string))
      (Some (path_join save_path "figures")) false "random" default_groups default_markers default_colors (pp0 R) (pp0 R) g h in
    if r is Err e then ((g, h, disk), (fs7, [::], Err e)) else
    let Ns := [:: Posz 5; Posz 50; Posz 500] in
    let: ((g, h), (fs9, r)) := run_trials file Ns "random" (- (45%:R / 10%:R), 5%:R / 10%:R) (- (45%:R / 10%:R), 5%:R / 10%:R)
      default_loc1 default_loc2 (5%:R / 100%:R) seed (Some save_path) false g h in
    ((g, h, disk), (fs7, fs9, x <- r ;; rs <- trial_rows Ns x.2 ;; print_all rs [:: "N"; "mud_pt"; "r"]%string))
  end.

(** ** examples.py:770-848 adcirc_solve *)
(** Oracles: [raw_data["wind_speed"]] (its first two entries), [raw_data["grid_data"]], and
    [ast.literal_eval] of the zoom. *)
Variables (wind : dset -> res (seq R * seq R)) (grid : dset -> res dset) (zoom_of : string -> res ((R * R) * (R * R))).
(** adcirc.py:27 *)
Definition default_sensors : nd := Nd [:: 1; 2]%N [:: 0; 0].
(** One window, examples.py:820-840: the row of the table. *)
Definition window_row (w : string * string) (P : dprob) : res record :=
  x <- solution P ;;
  Ok [:: ("t_start", CText w.1); ("t_end", CText w.2); ("mud_pt", CArr x.1); ("r", CNum x.2)]%string.
Definition window_title (i : nat) : string := ("$T_{" ++ str_int (Posz i.+1) ++ "}$")%string.
Fixpoint windows_loop (a : ast R) (nc : int) (plot_fig : seq string) (sp : option string) (ylims : option (seq (R * R)))
    (i : nat) (ws : seq (string * string)) : seq (afig R) * res (seq record) :=
  if ws is w :: ws' then
    let yl := omap (fun l => let y := nth (0, 0) l i in [:: y.1; y.2]) ylims in
    let: (a, (fs, r)) := time_window a w "pca" nc 50 yl (Some (window_title i)) sp (FigNames plot_fig) false in
    match (P <- r ;; window_row w P) with
    | Err e => (fs, Err e)
    | Ok row => let (fs', r') := windows_loop a nc plot_fig sp ylims i.+1 ws' in (fs ++ fs', rmap (cons row) r')
    end
  else ([::], Ok [::]).
(** What the command shows: the time series, the mesh, the figures of the windows. *)
Record adcfigs := AdcFigs { ac_ts : option (seq (tsmark R) * option string); ac_mesh : option (meshfig R); ac_win : seq (afig R) }.
(** examples.py:770-848; the table printed (None: no window, nothing is printed).  Simplification:
    -ly is given when -lx is. *)
Definition adcirc_solve (file : res dset) (nc : int) (t_start t_end labels_x : seq string) (labels_y : R)
    (p1_ylims p2_ylims : seq R) (sigma : R) (mesh_value mesh_zoom : string) (cutoff : R) (plot_fig : seq string)
    (seed : option int) (sp : option string) (g : G) : G * (adcfigs * res (option table)) :=
  let wants k := has (String.eqb k) plot_fig || has (String.eqb "all") plot_fig in
  match load_adcirc_prob reseed randn file sigma seed default_sensors g with
  | (g, Err e) => (g, (AdcFigs None None [::], Err e))
  | (g, Ok (ds, s)) =>
    let windows := zip t_start t_end in
    let labels := [seq (x, labels_y) | x <- labels_x] in
    let yl := zip p1_ylims p2_ylims in
    let ylims := if size yl == size windows then Some yl else None in
    (g,
    match (if wants "full_ts"%string then
             w <- wind ds ;; rmap (@Some _) (adcirc_ts_plot parse s windows (Some w) (Some labels) sp) else Ok None) with
    | Err e => (AdcFigs None None [::], Err e)
    | Ok f1 =>
      match (if wants "mesh"%string then
               gr <- grid ds ;; z <- zoom_of mesh_zoom ;;
               rmap (@Some _) (tri_mesh_plot mesh gr mesh_value (Some [:: Posz 0]) (Some z) cutoff sp) else Ok None) with
      | Err e => (AdcFigs f1 None [::], Err e)
      | Ok f2 =>
        let (fs, r) := windows_loop (AST s None) nc plot_fig sp ylims 0 windows in
        (AdcFigs f1 f2 fs,
         rs <- r ;; if windows is [::] then Ok None else
                    rmap (@Some _) (print_all rs [:: "t_start"; "t_end"; "mud_pt"; "r"]%string))
      end
    end)
  end.
End Cli.
