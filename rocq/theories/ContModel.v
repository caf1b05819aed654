(** Model of examples/linear.py:265-597: run_contours and the six figures it draws. *)
Set Warnings "-notation-overridden,-ambiguous-paths".
From mathcomp Require Import all_ssreflect all_algebra.
From Coq Require Import String.
From Verif Require Import Py Nd LinAlg Dmx LgpModel UtilModel2 PlotModel DrawModel.
Set Implicit Arguments. Unset Strict Implicit. Unset Printing Implicit Defensive.
Import Order.Theory GRing.Theory Num.Theory.
Local Open Scope ring_scope.

(** Values of plot_fig: a list of names, or a string ([in] is then the substring test). *)
Inductive figsel := FigNames of seq string | FigString of string.
Definition fig_in (k : string) (s : figsel) : bool :=
  match s with
  | FigNames l => has (String.eqb k) l
  | FigString t => if String.index 0 k t is Some _ then true else false
  end.

Section Cont.
Variable R : rcfType.
Notation nd := (nd R).
Notation dmx := (dmx R).
Notation lgp := (lgp R).
Notation art := (art R).
(** Oracle: the columns of [null_space(row)]. *)
Variable ns : seq R -> res (seq (seq R)).

(** Calls of plotting methods in turn: everything drawn, or the first exception. *)
Definition drawing := lgp -> lgp * res (seq art).
Fixpoint draw_all (ds : seq drawing) (p : lgp) : lgp * res (seq art) :=
  if ds is d :: ds' then
    let (p1, r) := d p in
    match r with
    | Err e => (p1, Err e)
    | Ok a => let (p2, r') := draw_all ds' p1 in (p2, rmap (cat a) r')
    end
  else (p, Ok [::]).

(** The calls made: plot_fun_contours with its default mesh (N = 250, r = 1); plot_sol;
    plot_contours through the least-squares solution, all rows, w = 1, with the option "color" and
    the label "Solution Contour" (base.py:1239-1337).  Simplification: other style options, the
    axes limits and vmin, vmax are not modelled. *)
Definition fun_contours (terms : string) : drawing := fun p => (p, plot_fun_contours p None terms (Posz 250) 1).
Definition sol (point : string) (line : bool) (label : option string) (loc : option (R * R)) : drawing :=
  fun p => plot_sol p point line label loc.
Definition dec (n k : nat) : R := n%:R / k%:R.
Definition solution_contour (annotate : bool) : drawing := fun p =>
  lgp_plot_contours ns p None None 1 [:: "color"%string] annotate (Some (dec 1 10, dec 9 10))
    (fun _ => "Solution Contour"%string).
Definition art_const (a : seq art) : drawing := fun p => (p, Ok a).

(** linear.py:288-305 call_mismatch *)
Definition call_mismatch := draw_all [:: fun_contours "data"; solution_contour true].
(** linear.py:308-326 call_tikhonov *)
Definition call_tikhonov := draw_all [:: fun_contours "reg"; sol "initial" true (Some "Initial Mean"%string) None].
(** linear.py:265-285 call_consistent *)
Definition call_consistent := draw_all [:: fun_contours "reg_m"; sol "initial" true (Some "Initial Mean"%string) None].
(** linear.py:329-383 call_map *)
Definition call_map := draw_all
  [:: fun_contours "bayes"; fun_contours "data"; sol "initial" true None None;
      sol "ls" true (Some "Least Squares"%string) (Some (dec 49 100, dec 55 100));
      sol "map" false (Some "MAP"%string) None; solution_contour false].
(** linear.py:386-436 call_mud *)
Definition call_mud := draw_all
  [:: fun_contours "dc"; fun_contours "data"; sol "initial" true None None;
      sol "ls" true (Some "Least Squares"%string) (Some (dec 49 100, dec 55 100));
      sol "mud" true (Some "MUD"%string) None; solution_contour false].
(** linear.py:439-510 call_comparison *)
Definition call_comparison := draw_all
  [:: fun_contours "bayes"; fun_contours "data"; sol "initial" true None None;
      sol "ls" true (Some "Least Squares"%string) (Some (dec 49 100, dec 55 100));
      sol "map" false (Some "MAP"%string) None; sol "mud" true (Some "MUD"%string) None;
      solution_contour false;
      art_const [:: Points [:: dec 7 10] [:: dec 3 10] None;
                    Note "Truth" (dec 7 10 - dec 2 100) (dec 3 10 + dec 2 100)]].

(** A finished figure: what it shows, the file it was saved to, and whether it was closed. *)
Record figure := Figure { f_art : seq art; f_saved : option string; f_closed : bool }.

(** plot.py:71-97 save_figure, called when save_path is truthy.  Simplification: the directory
    exists and does not end with "/"; the resolution is not modelled. *)
Definition finish (fname : string) (save_path : option string) (close_fig : bool) (a : seq art) : figure :=
  if save_path is Some d then
    if (d =? "")%string then Figure a None false
    else Figure a (Some (if (d =? ".")%string then fname else (d ++ "/" ++ fname)%string)) close_fig
  else Figure a None false.

(** The keyword arguments that overwrite the defaults (linear.py:554-563); [None]: not given,
    [Some None]: given as None.  Simplification: other keywords (TypeError) are not modelled. *)
Record overrides := Overrides {
  o_A : option nd; o_b : option (option nd); o_y : option (option nd); o_mean : option (option nd);
  o_covi : option (option dmx); o_covo : option (option dmx); o_alpha : option (option R) }.
Definition no_overrides := Overrides None None None None None None None.

(** linear.py:551-563 *)
Definition contour_problem (o : overrides) : res lgp :=
  lgp_init (odflt (Nd [:: 1; 2]%N [:: 1; 1]) (o_A o))
    (odflt (Some (Nd [:: 1; 1]%N [:: 0])) (o_b o))
    (odflt (Some (Nd [:: 1; 1]%N [:: 1])) (o_y o))
    (odflt (Some (Nd [:: 2; 1]%N [:: dec 1 4; dec 1 4])) (o_mean o))
    (odflt (Some (dbuild 2 2 (fun i j => nth 0 (nth [::] [:: [:: 1; - dec 1 4]; [:: - dec 1 4; dec 1 2]] i) j))) (o_covi o))
    (odflt (Some (dbuild 1 1 (fun _ _ => 1))) (o_covo o))
    (odflt None (o_alpha o)).

(** The figures in the order of linear.py:567-595. *)
Definition contour_figures : seq (string * string * drawing) :=
  [:: ("data_mismatch", "data_mismatch_contour.png", call_mismatch);
      ("tikhonov", "tikhonov_contour.png", call_tikhonov);
      ("consistent", "consistent_contour.png", call_consistent);
      ("map", "classical_solution.png", call_map);
      ("mud", "consistent_solution.png", call_mud);
      ("comparison", "map_compare_contour.png", call_comparison)]%string.
Fixpoint draw_figures (sel : figsel) (sp : option string) (cl : bool)
    (fs : seq (string * string * drawing)) (p : lgp) : seq figure * res lgp :=
  if fs is (k, fname, d) :: fs' then
    if fig_in k sel || fig_in "all" sel then
      let (p1, r) := d p in
      match r with
      | Err e => ([::], Err e)
      | Ok a => let (l, r') := draw_figures sel sp cl fs' p1 in (finish fname sp cl a :: l, r')
      end
    else draw_figures sel sp cl fs' p
  else ([::], Ok p).

(** linear.py:513-597 run_contours: the figures finished and the outcome. *)
Definition run_contours (plot_fig : option figsel) (save_path : option string) (close_fig : bool)
    (kw : overrides) : seq figure * res lgp :=
  let sel := odflt (FigNames [:: "all"%string]) plot_fig in
  match contour_problem kw with
  | Err e => ([::], Err e)
  | Ok p0 =>
    let (p1, r1) := solve p0 "mud" None in
    if r1 is Err e then ([::], Err e) else
    let (p2, r2) := solve p1 "map" None in
    if r2 is Err e then ([::], Err e) else
    let (p3, r3) := solve p2 "ls" None in
    if r3 is Err e then ([::], Err e) else
    draw_figures sel save_path close_fig contour_figures p3
  end.
End Cont.
