(** Model of the import of mud.plot (plot.py:20-68) and of the command group (examples.py:91-120). *)
From Coq Require Import String.
Set Warnings "-notation-overridden,-ambiguous-paths".
From mathcomp Require Import all_ssreflect all_algebra.
Set Implicit Arguments. Unset Strict Implicit. Unset Printing Implicit Defensive.

(** What can be raised here; [OtherError]: anything else. *)
Inductive lexn := RuntimeErr | FileNotFoundErr | FileExistsErr | ValueErr | OtherError.
(** Settings of matplotlib: strings, numbers, booleans, and any other value (numbered). *)
Inductive setting := SStr of string | SNum of nat | SBool of bool | SAny of nat.
(** matplotlib and the working directory: the settings, the open figures, which names exist. *)
Record world := W { rc : string -> setting; figs : seq nat; exists_ : string -> bool }.
(** What the calls do: None, or what they raise; [savefig] also says whether the file exists afterwards. *)
Record oracles := O {
  o_cwd : option lexn; o_plot1 : world -> option lexn; o_plot2 : world -> option lexn;
  o_savefig : world -> bool * option lexn; o_unlink : world -> option lexn;
  o_newfig : seq nat -> nat }.

Definition same (a b : string) : bool := if string_dec a b then true else false.
(** [rcParams.update(d)] for a dictionary given as a list; all keys are known to matplotlib. *)
Definition lookup (d : seq (string * setting)) (k : string) : option setting :=
  ohead [seq p.2 | p <- rev d & same p.1 k].
Definition rc_update (d : seq (string * setting)) (w : world) : world :=
  W (fun k => odflt (rc w k) (lookup d k)) (figs w) (exists_ w).
(** [rcParams.update(original)], which has every key. *)
Definition rc_restore (original : string -> setting) (w : world) : world := W original (figs w) (exists_ w).
(** [plt.plot] draws on the current figure, or on a new one if there is none. *)
Definition with_fig (o : oracles) (w : world) : world :=
  W (rc w) (if figs w is [::] then [:: o_newfig o [::]] else figs w) (exists_ w).
Definition put_file (f : string) (b : bool) (w : world) : world :=
  W (rc w) (figs w) (fun k => if same k f then b else exists_ w k).
Definition close_all (w : world) : world := W (rc w) [::] (exists_ w).

Definition test_fig : string := ".test_fig.png".
(** plot.py:27-36: the body of the try, and what it raises. *)
Definition check_body (o : oracles) (w : world) : world * option lexn :=
  let w := rc_update [:: ("text.usetex"%string, SBool true)] w in
  let w := with_fig o w in
  if o_plot1 o w is Some e then (w, Some e) else
  if o_plot2 o w is Some e then (w, Some e) else
  let (written, r) := o_savefig o w in
  let w := put_file test_fig (exists_ w test_fig || written) w in
  if r is Some e then (w, Some e) else
  if exists_ w test_fig then
    if o_unlink o w is Some e then (w, Some e) else (put_file test_fig false w, None)
  else (w, None).
(** plot.py:23-42 _check_latex.  [Path.cwd()] is called before the try.  Simplification: logging is
    left out; the finally clause does not raise. *)
Definition check_latex (o : oracles) (w : world) : world * (lexn + bool) :=
  let original := rc w in
  if o_cwd o is Some e then (w, inl e) else
  let (w, r) := check_body o w in
  let out := match r with
             | None => inr true
             | Some RuntimeErr | Some FileNotFoundErr => inr false
             | Some e => inl e
             end in
  (close_all (rc_restore original w), out).

(** plot.py:53-67 *)
Definition mud_plot_params (latex : bool) (preamble : string) : seq (string * setting) := [::
  ("mathtext.fontset"%string, SStr "stix"); ("font.family"%string, SStr "STIXGeneral");
  ("axes.labelsize"%string, SNum 14); ("axes.titlesize"%string, SNum 26); ("legend.fontsize"%string, SNum 16);
  ("xtick.labelsize"%string, SNum 14); ("ytick.labelsize"%string, SNum 14); ("axes.titlepad"%string, SNum 1);
  ("axes.labelpad"%string, SNum 1); ("font.size"%string, SNum 16); ("savefig.facecolor"%string, SStr "white");
  ("text.usetex"%string, SBool latex); ("text.latex.preamble"%string, SStr preamble)].
(** [" ".join(...)] *)
Fixpoint join (sep : string) (l : seq string) : string :=
  match l with [::] => ""%string | [:: x] => x | x :: l' => (x ++ sep ++ join sep l')%string end.
(** plot.py:46-51 *)
Definition preamble (latex : bool) : string :=
  if latex then join " " [:: "\usepackage{bm}"%string; "\usepackage{amsfonts}"%string; "\usepackage{amsmath}"%string] else ""%string.
(** plot.py:46-68: the import; [inr b]: it succeeds with HAS_LATEX = b. *)
Definition import_plot (o : oracles) (w : world) : world * (lexn + bool) :=
  let (w, r) := check_latex o w in
  match r with
  | inl e => (w, inl e)
  | inr b => (rc_update (mud_plot_params b (preamble b)) w, inr b)
  end.
(** poisson.py:23, adcirc.py:20, linear.py:18, comparison.py:17: one more update, at the import of each. *)
Definition import_example (b : bool) (w : world) : world := rc_update (mud_plot_params b (preamble b)) w.

(** ** The command group, examples.py:91-120 *)
(** The file system: a path is a directory, another file, or nothing; [parent p]. *)
Inductive node := Dir | File.
Section Group.
Variables (G : Type) (parent : string -> string) (reseed : int -> lexn + G).
Record cobj := CO { c_show : bool; c_seed : option int; c_path : option string; c_dpi : nat }.
(** [Path(p).mkdir(exist_ok=True)]: without the parent FileNotFoundError; a file there FileExistsError.
    Simplification: permissions. *)
Definition mkdir (fs : string -> option node) (p : string) : (string -> option node) * option lexn :=
  match fs p with
  | Some Dir => (fs, None)
  | Some File => (fs, Some FileExistsErr)
  | None => match fs (parent p) with
            | Some Dir => (fun q => if same q p then Some Dir else fs q, None)
            | Some File => (fs, Some OtherError)
            | None => (fs, Some FileNotFoundErr)
            end
  end.
(** examples.py:110-120: the files, numpy's generator, and the context object handed to the command. *)
Definition group (show : bool) (seed : option int) (save_path : option string) (dpi : nat)
    (fs : string -> option node) (g : G) : (string -> option node) * G * (lexn + cobj) :=
  let obj := CO show seed save_path dpi in
  let (fs, r) := if save_path is Some p then mkdir fs p else (fs, None) in
  if r is Some e then (fs, g, inl e) else
  match seed with
  | None => (fs, g, inr obj)
  | Some q => match reseed q with inl e => (fs, g, inl e) | inr g => (fs, g, inr obj) end
  end.
End Group.
