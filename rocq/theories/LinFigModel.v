(** The figures of run_wme_covariance and run_high_dim_linear (examples/linear.py). *)
Set Warnings "-notation-overridden,-ambiguous-paths".
From Coq Require Import String.
From mathcomp Require Import all_ssreflect all_algebra.
From Verif Require Import Py Nd Dmx LgpModel UtilModel2 LinExModel PoisExModel.
Set Implicit Arguments. Unset Strict Implicit. Unset Printing Implicit Defensive.
Import Order.Theory GRing.Theory Num.Theory.
Local Open Scope ring_scope.

(** ** [f"{N:1.0E}"] for a natural number (linear.py:689) *)
(** The number is made a float first.  Simplification: floats are exact (N < 2^53).
    One digit, half to even; the exponent has at least two digits. *)
Definition sci_digit (N e : nat) : nat :=
  let q := (N %/ 10 ^ e)%N in let r := (N %% 10 ^ e)%N in
  if (10 ^ e < 2 * r)%N || ((2 * r == 10 ^ e)%N && odd q) then q.+1 else q.
Definition sci_parts (N : nat) : nat * nat :=
  let e := trunc_log 10 N in let d := sci_digit N e in
  if d == 10%N then (1%N, e.+1) else (d, e).
Definition sci (N : nat) : string :=
  let: (d, e) := sci_parts N in
  (str_int (Posz d) ++ "E+" ++ (if (e < 10)%N then "0" else "") ++ str_int (Posz e))%string.

Section LinFig.
Variable R : rcfType.

(** ** What is drawn on an Axes *)
(** ax.scatter(xs, ys); ax.plot(xs, ys, label=, ls=, c=); ax.annotate(text, (x, y)). *)
Inductive lart :=
| LScatter of seq R & seq R
| LLine of seq R & seq R & string & string & string
| LNote of string & R & R.
(** The legend: [ax.legend()] shows the labels of the lines; [ax.legend(names)] gives the first
    lines, in the order they were drawn, those names. *)
Inductive llegend := ByLabel | Names of seq string.
Record lfig := LFig {
  lf_art : seq lart;
  lf_logy : bool;                 (* set_yscale("log") *)
  lf_ylim : option (R * R);       (* set_ylim *)
  lf_ticks : option (seq R);      (* set_xticks *)
  lf_legend : llegend;
  lf_file : option string;        (* where save_figure wrote it *)
  lf_closed : bool }.

Definition is_line (a : lart) : bool := if a is LLine _ _ _ _ _ then true else false.
Definition line_label (a : lart) : string := if a is LLine _ _ l _ _ then l else "".
Definition lines_of (f : lfig) : seq lart := filter is_line (lf_art f).
(** What the legend shows: a text for each line it knows. *)
Definition legend_entries (f : lfig) : seq (string * lart) :=
  match lf_legend f with
  | ByLabel => [seq (line_label a, a) | a <- lines_of f]
  | Names l => zip l (lines_of f)
  end.

(** plot.py:71-97 save_figure, called when [save_path is not None] (linear.py:702, 827, 867). *)
Definition lsave (name : string) (sp : option string) (cl : bool) : option string * bool :=
  if sp is Some d then (Some (path_join d name), cl) else (None, false).

(** ** run_wme_covariance *)
Variable svdvals : dmx R -> seq R.   (* scipy.linalg.svdvals *)

(** linear.py:663 [np.arange(dim_input) + 1] *)
Definition index_values (n : nat) : seq R := [seq i%:R + 1 | i <- iota 0 n].
(** linear.py:664, 692: lines[j % len(lines)] *)
Definition wme_styles : seq string := [:: "solid"; "dashed"; "dashdot"; "dotted"]%string.

(** linear.py:677-694: what the pass of the loop number j draws. *)
Definition wme_cov_art (di j N : nat) (U : dmx R) : seq lart :=
  let s := svdvals U in
  [:: LScatter (index_values di) s;
      LLine (index_values di) s ("$N=" ++ sci N ++ "$")%string (nth ""%string wme_styles (j %% 4)) "k"].

(** linear.py:662-710: the figure. *)
Definition wme_cov_fig (di : nat) (Ns : seq nat) (Us : seq (dmx R)) (sp : option string) (cl : bool) : lfig :=
  LFig (flatten [seq wme_cov_art di j (nth 0%N Ns j) (nth (dzeros 0 0) Us j) | j <- iota 0 (size Ns)])
       true None (Some (index_values di)) ByLabel
       (lsave "lin-meas-cov-sd-convergence.png" sp cl).1 (lsave "lin-meas-cov-sd-convergence.png" sp cl).2.

Variables (G : Type) (reseed : int -> res G) (randn rand : nat -> G -> seq R * G).

(** linear.py:599-710 run_wme_covariance with its figure.  Simplification: the figure that an
    exception leaves open is not modelled. *)
Definition wme_covariance_figure (di do_ : nat) (sigma : R) (Ns : seq nat) (seed : option int)
    (sp : option string) (cl : bool) (g : G) : G * res (lgp R * lfig) :=
  match run_wme_covariance reseed randn rand di do_ sigma Ns seed g with
  | (g, Err e) => (g, Err e)
  | (g, Ok (p, Us)) => (g, Ok (p, wme_cov_fig di Ns Us sp cl))
  end.

(** ** run_high_dim_linear *)
(** linear.py:795 [np.arange(1, dim_output + 1, 1)] *)
Definition dims_axis (n : nat) : seq R := [seq i%:R | i <- iota 1 n].
(** errs[idx][:, j] *)
Definition err_col (errs : seq (seq (seq R))) (idx j : nat) : seq R := [seq nth 0 r j | r <- nth [::] errs idx].

(** linear.py:764 with the text [f"{alpha:1.2E}"] of each (815, 855) *)
Definition alpha_texts : seq string := [:: "1.00E+00"; "1.00E-01"; "1.00E-03"]%string.

(** linear.py:796-817 (only = 0) and 836-857 (only = 1): the lines and notes of the pass idx. *)
Definition high_dim_art (only n : nat) (errs : seq (seq (seq R))) (idx : nat) : seq lart :=
  let x := dims_axis n in
  let m := err_col errs idx 1 in
  (if idx == only then [:: LLine x (err_col errs idx 0) "MUD" "-" "k";
                           LLine x (err_col errs idx 2) "LSQ" "-" "xkcd:light blue"] else [::]) ++
  [:: LLine x m "MAP" "--" "r";
      LNote ("$\alpha$=" ++ nth ""%string alpha_texts idx)%string 100%:R (Num.max (last 0 m) (100%:R^-1))].

(** linear.py:794-833 (the dimension) and 835-873 (the rank) *)
Definition high_dim_fig (only : nat) (name : string) (n : nat) (errs : seq (seq (seq R)))
    (sp : option string) (cl : bool) : lfig :=
  LFig (flatten [seq high_dim_art only n errs idx | idx <- iota 0 3])
       false (Some (0, 1)) None (Names [:: "MUD"; "MAP"; "Least Squares"]%string)
       (lsave name sp cl).1 (lsave name sp cl).2.

Variable svd : forall m n, 'M[R]_(m, n) -> svd_out R m n.

(** linear.py:713-875 run_high_dim_linear with its two figures. *)
Definition high_dim_figures (di do_ : nat) (seed : option int) (sp : option string) (cl : bool) (g : G)
  : G * res ((seq (seq (seq R)) * seq (seq (seq R))) * (lfig * lfig)) :=
  match run_high_dim_linear reseed randn rand svd di do_ seed g with
  | (g, Err e) => (g, Err e)
  | (g, Ok (de, re)) =>
      (g, Ok ((de, re), (high_dim_fig 0 "lin-dim-cov-convergence.png" do_ de sp cl,
                         high_dim_fig 1 "lin-rank-cov-convergence.png" do_ re sp cl)))
  end.
End LinFig.
