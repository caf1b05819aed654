(** The drawing functions that use pyplot's current axes: plot_1D_vecs, plot_vert_line (plot.py) and
    SpatioTemporalProblem.sensor_scatter_plot (base.py). *)
Set Warnings "-notation-overridden,-ambiguous-paths".
From Coq Require Import String.
From mathcomp Require Import all_ssreflect all_algebra.
From Verif Require Import Py Nd StModel PoisExModel.
Set Implicit Arguments. Unset Strict Implicit. Unset Printing Implicit Defensive.
Import Order.Theory GRing.Theory Num.Theory.
Local Open Scope ring_scope.

Section Pyp.
Variable R : rcfType.
Notation nd := (nd R).

(** What is drawn on an Axes: points with a label and a marker (None: matplotlib's own), the texts
    of the axes with a legend, a line, a colour bar beside it. *)
Inductive dart :=
| DPoints of seq R & seq R & option string & option string
| DTexts
| DBar.

(** pyplot: the Axes made so far with what is on each, and the current one. *)
Record pyp := PyP { axes : seq (seq dart); cur : option nat }.
(** [fig = plt.figure(..); ax = fig.add_subplot(1, 1, 1)]: the new Axes is the current one. *)
Definition new_axes (s : pyp) : pyp * nat := (PyP (rcons (axes s) [::]) (Some (size (axes s))), size (axes s)).
(** [plt.gca()] *)
Definition gca (s : pyp) : pyp * nat := if cur s is Some i then (s, i) else new_axes s.
Definition draw_on (s : pyp) (i : nat) (a : dart) : pyp :=
  PyP (set_nth [::] (axes s) i (rcons (nth [::] (axes s) i) a)) (cur s).
(** [plt.scatter(..)] *)
Definition plt_draw (s : pyp) (a : dart) : pyp := let: (s, i) := gca s in draw_on s i a.

(** plot.py:154-157: the loop. *)
Definition vec_label (i : nat) : string := ("$p^{(" ++ str_int (Posz i.+1) ++ ")}$")%string.
Fixpoint scatter_vecs (i : nat) (vecs : seq (seq R)) (markers : option (seq string)) (s : pyp) : pyp * res unit :=
  if vecs is v :: vecs' then
    match (if markers is Some m then (if (i < size m)%N then Ok (Some (nth ""%string m i)) else Err IndexError) else Ok None) with
    | Err e => (s, Err e)
    | Ok m => scatter_vecs i.+1 vecs' markers
                (plt_draw s (DPoints [seq k%:R | k <- iota 0 (size v)] v (Some (vec_label i)) m))
    end
  else (s, Ok tt).
(** plot.py:147-164 plot_1D_vecs.  Simplifications: no further keyword arguments; the vectors are
    not empty numbers but lists of numbers. *)
Definition plot_1D_vecs (vecs : seq (seq R)) (markers : option (seq string)) (ax : option nat) (label : bool) (s : pyp)
  : pyp * res nat :=
  let: (s, i) := if ax is Some i then (s, i) else new_axes s in
  match scatter_vecs 0 vecs markers s with
  | (s, Err e) => (s, Err e)
  | (s, Ok _) => (if label then draw_on s i DTexts else s, Ok i)
  end.

(** base.py:1905-1922 sensor_scatter_plot without a mask or with a list of positions as the mask.
    Simplification: no keyword arguments, so no colour bar (base.py:1918). *)
Definition sensor_scatter_plot (t : st R) (ax : option nat) (mask : option (seq nat)) (s : pyp) : pyp * res nat :=
  let: (s, i) := if ax is Some i then (s, i) else new_axes s in
  match (se <- of_opt TypeError (s_sens t) ;;
         _ <- guard (ndim se == 2%N) IndexError ;;
         scatter_at se (if mask is Some l then l else iota 0 (dim se 0))) with
  | Err e => (s, Err e)
  | Ok p => (plt_draw s (DPoints p.1 p.2 None None), Ok i)
  end.

(** plot.py:237-242 plot_vert_line on an Axes with the limits [lim]: the line drawn, the limits
    afterwards.  Simplification: the two limits are different (matplotlib widens equal ones). *)
Definition plot_vert_line (lim : R * R) (x_loc : R) (ylim : option R) : (seq R * seq R) * (R * R) :=
  let hi := if ylim is Some h then h else lim.2 in
  (([:: x_loc; x_loc], [:: lim.1; hi]), (lim.1, hi)).
End Pyp.
