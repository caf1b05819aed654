(** Model of the commands comparison, contours, wme_covariance and high_dim_linear of
    examples/examples.py, and of figures 1 to 6 of mud_paper, with numpy's global generator
    threaded through everything that draws from it. *)
Set Warnings "-notation-overridden,-ambiguous-paths".
From Coq Require Import String ZArith.
From mathcomp Require Import all_ssreflect all_algebra.
From Verif Require Import Py Nd Xnum LinAlg Dmx LgpModel UtilModel DensityModel BayesModel UtilModel2 DrawModel ContModel LinExModel
  PoisExModel SimpleModel CompModel LinFigModel CliModel.
Set Implicit Arguments. Unset Strict Implicit. Unset Printing Implicit Defensive.
Import Order.Theory GRing.Theory Num.Theory.
Local Open Scope ring_scope.

Section Paper.
Variable R : rcfType.
Notation nd := (nd R).
Notation xnum := (xnum R).
(** Oracles as in CompModel, ContModel, LinExModel and LinFigModel. *)
Variables (expf : R -> R) (cpi : R) (K : Type) (kde : nd -> unit -> seq xnum -> res K) (kde_pdf : K -> nd -> res (seq xnum))
  (kde_at : K -> seq (seq R) -> res (seq R)) (trunc ln : R -> R).
Variable ns : seq R -> res (seq (seq R)).
Variables (G : Type) (reseed : int -> res G) (randn rand : nat -> G -> seq R * G).
Variables (svdvals : dmx R -> seq R) (svd : forall m n, 'M[R]_(m, n) -> svd_out R m n).
Notation sdist := (sdist R K).
Notation figs := (@figure_pass R expf cpi K kde kde_pdf kde_at trunc ln).
Notation seeded := (@seeded G reseed).

(** ** run_comparison_example with the global generator *)
(** simple.py:83-93, called in each pass of comparison.py:187-194: the numbers drawn ([u] from [0, 1),
    [z] standard normal) and the generator afterwards.  scipy draws nothing when the size is negative
    (ValueError) or the scale is 0. *)
Definition pass_draws (num_samples : int) (sigma : R) (domain : seq R) (N : int) (g : G) : ((nat -> R) * (nat -> R)) * G :=
  match size domain == 2%N, num_samples with
  | true, Posz n =>
      let: (u, g) := rand n g in
      match (N == 1) || (sigma == 0), N with
      | false, Posz m => let: (z, g) := randn m g in ((nth 0 u, nth 0 z), g)
      | _, _ => ((nth 0 u, fun _ => 0), g)
      end
  | _, _ => ((fun _ => 0, fun _ => 0), g)
  end.
(** comparison.py:132-229 run_comparison_example: the generator afterwards, the figures, the problems
    of each N. *)
Fixpoint comparison_gen (p : nat) (num_samples : int) (mu sigma : R) (domain : seq R) (domint : bool)
    (Ns : seq int) (sp : option string) (cl : bool) (g : G) : G * (seq (cfig R) * res (seq (dprob R sdist * bprob R sdist))) :=
  match Ns with
  | [::] => (g, ([::], Ok [::]))
  | N :: Ns' =>
      let: ((u, z), g) := pass_draws num_samples sigma domain N g in
      match figs p num_samples mu sigma domain domint N u z sp cl with
      | (fs, Err e) => (g, (fs, Err e))
      | (fs, Ok r) =>
          let t := comparison_gen p num_samples mu sigma domain domint Ns' sp cl g in
          (t.1, (fs ++ t.2.1, rmap (cons r) t.2.2))
      end
  end.

(** ** The commands *)
(** Each is run after examples.py:91-120, which restarts the generator when --seed is given. *)
Definition command T (seed : option int) (run : G -> G * (seq T * res unit)) (g : G) : G * (seq T * res unit) :=
  match examples_group reseed seed g with Err e => (g, ([::], Err e)) | Ok g => run g end.

(** examples.py:123-190 comparison.  Simplification: the domain is of integers (click's type for
    the default [-1, 1]). *)
Definition comparison (seed : option int) (sp : option string) (p : nat) (num_samples : int) (mu sigma : R)
    (domain : seq int) (Ns : seq int) : G -> G * (seq (cfig R) * res unit) :=
  command seed (fun g =>
    let t := comparison_gen p num_samples mu sigma [seq x%:~R | x <- domain] true Ns sp false g in
    (t.1, (t.2.1, _ <- t.2.2 ;; Ok tt))).
(** examples.py:193-238 contours.  [file]: what the json file holds, each value made an array, or
    None.  Simplification: the file can be read and has no other keys than those of overrides. *)
Definition contours (seed : option int) (sp : option string) (file : option (overrides R)) (plot_fig : seq string)
  : G -> G * (seq (figure R) * res unit) :=
  command seed (fun g =>
    let t := run_contours ns (Some (FigNames plot_fig)) sp false (odflt (no_overrides R) file) in
    (g, (t.1, _ <- t.2 ;; Ok tt))).
(** examples.py:241-306 wme_covariance *)
Definition wme_covariance (seed : option int) (sp : option string) (di do_ : nat) (sigma : R) (Ns : seq nat)
  : G -> G * (seq (lfig R) * res unit) :=
  command seed (fun g =>
    match wme_covariance_figure svdvals reseed randn rand di do_ sigma Ns seed sp false g with
    | (g, Err e) => (g, ([::], Err e)) | (g, Ok (_, f)) => (g, ([:: f], Ok tt)) end).
(** examples.py:309-354 high_dim_linear *)
Definition high_dim_linear (seed : option int) (sp : option string) (di do_ : nat)
  : G -> G * (seq (lfig R) * res unit) :=
  command seed (fun g =>
    match high_dim_figures reseed randn rand svd di do_ seed sp false g with
    | (g, Err e) => (g, ([::], Err e)) | (g, Ok (_, (f1, f2))) => (g, ([:: f1; f2], Ok tt)) end).

(** ** mud_paper, figures 1 to 6 *)
(** A figure of one of the three kinds, and the file it was written to. *)
Inductive pic := PComp of cfig R | PCont of figure R | PLin of lfig R.
Definition pic_file (f : pic) : option string :=
  match f with PComp f => cf_file f | PCont f => f_saved f | PLin f => lf_file f end.
(** The files on the disk after the figures have been saved in turn. *)
Fixpoint save_all (fs : seq pic) (disk : dict pic) : dict pic :=
  if fs is f :: fs' then save_all fs' (if pic_file f is Some n then put disk n f else disk) else disk.

(** One step: [_set_seed()], a run; the next one if it does not raise. *)
Definition stage := G -> G * (seq pic * res unit).
Fixpoint stages (seed : option int) (l : seq stage) (g : G) : G * (seq pic * res unit) :=
  if l is s :: l' then
    match seeded seed g with
    | Err e => (g, ([::], Err e))
    | Ok g =>
      match s g with
      | (g, (fs, Err e)) => (g, (fs, Err e))
      | (g, (fs, Ok _)) => let t := stages seed l' g in (t.1, (fs ++ t.2.1, t.2.2))
      end
    end
  else (g, ([::], Ok tt)).

Definition comp_stage (sp : string) (Ns : seq int) : stage := fun g =>
  let t := comparison_gen 5 (Posz 1000) (25%:R / 100%:R) (1 / 10%:R) [:: -1; 1] true Ns (Some sp) false g in
  (t.1, (map PComp t.2.1, _ <- t.2.2 ;; Ok tt)).
Definition cont_stage (sp sel : string) (kw : overrides R) : stage := fun g =>
  let t := run_contours ns (Some (FigString sel)) (Some sp) false kw in
  (g, (map PCont t.1, _ <- t.2 ;; Ok tt)).
Definition wme_stage (sp : string) : stage := fun g =>
  match wme_covariance_figure svdvals reseed randn rand 20 5 (1 / 10%:R) [:: 10; 10 ^ 2; 10 ^ 3; 10 ^ 4]%N None (Some sp) false g with
  | (g, Err e) => (g, ([::], Err e)) | (g, Ok (_, f)) => (g, ([:: PLin f], Ok tt)) end.
Definition high_dim_stage (sp : string) : stage := fun g =>
  match high_dim_figures reseed randn rand svd 100 100 (Some (Posz 21)) (Some sp) true g with
  | (g, Err e) => (g, ([::], Err e)) | (g, Ok (_, (f1, f2))) => (g, ([:: PLin f1; PLin f2], Ok tt)) end.
(** examples.py:889-897: the lists for figure 5. *)
Definition fig5_problem : overrides R :=
  Overrides (Some (Nd [:: 1; 2]%N [:: 1; 1])) (Some (Some (Nd [:: 1; 1]%N [:: 0]))) (Some (Some (Nd [:: 1; 1]%N [:: 1])))
    (Some (Some (Nd [:: 2; 1]%N [:: dec R 1 4; dec R 1 4])))
    (Some (Some (dbuild 2 2 (fun i j => nth 0 (nth [::] [:: [:: 1; - dec R 1 2]; [:: - dec R 1 2; dec R 1 2]] i) j))))
    (Some (Some (dbuild 1 1 (fun _ _ => dec R 1 2)))) (Some (Some 1)).
(** examples.py:850-905 mud_paper up to figure 6; [save_path]: None only when the command is called
    from Python.  Simplifications: the directories can be made; [cwd]: the current directory. *)
Definition paper_linear (cwd : string) (save_path : option string) (seed : option int) (g : G) : G * (seq pic * res unit) :=
  let figs_path := path_join (if save_path is Some d then d else path_join cwd "mud_paper") "figures" in
  stages seed
    [:: comp_stage figs_path [:: Posz 1]; comp_stage figs_path [:: Posz 5; Posz 10; Posz 20];
        cont_stage figs_path "all" (no_overrides R); wme_stage figs_path;
        cont_stage figs_path "comparison" fig5_problem; high_dim_stage figs_path] g.
(** The command. *)
Definition mud_paper_linear (cwd : string) (save_path : option string) (seed : option int) : G -> G * (seq pic * res unit) :=
  command seed (paper_linear cwd save_path seed).
End Paper.
