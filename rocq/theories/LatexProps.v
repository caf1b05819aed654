(** Properties C154 (the import of mud.plot) and C155 (the command group). *)
From Coq Require Import String.
Set Warnings "-notation-overridden,-ambiguous-paths".
From mathcomp Require Import all_ssreflect all_algebra.
From Verif Require Import LatexModel.
Set Implicit Arguments. Unset Strict Implicit. Unset Printing Implicit Defensive.

Lemma sameP a b : reflect (a = b) (same a b).
Proof. by rewrite /same; case: string_dec => h; constructor. Qed.

(** ** Specification *)
(** matplotlib while the test figure is drawn: LaTeX on, and a figure open. *)
Definition testing (o : oracles) (w : world) (w1 : world) : Prop :=
  [/\ forall k, rc w1 k = if same k "text.usetex" then SBool true else rc w k,
      figs w1 = (if figs w is [::] then [:: o_newfig o [::]] else figs w) & exists_ w1 = exists_ w].
(** The first of the steps that raises. *)
Definition first_raise (l : seq (option lexn)) : option lexn := ohead (pmap id l).
(** The values mud.plot gives to settings: thirteen of them. *)
Definition fixed_settings : seq (string * setting) := [::
  ("mathtext.fontset"%string, SStr "stix"); ("font.family"%string, SStr "STIXGeneral");
  ("axes.labelsize"%string, SNum 14); ("axes.titlesize"%string, SNum 26); ("legend.fontsize"%string, SNum 16);
  ("xtick.labelsize"%string, SNum 14); ("ytick.labelsize"%string, SNum 14); ("axes.titlepad"%string, SNum 1);
  ("axes.labelpad"%string, SNum 1); ("font.size"%string, SNum 16); ("savefig.facecolor"%string, SStr "white")].
Definition mud_settings (latex : bool) (rc : string -> setting) : Prop :=
  [/\ forall k v, List.In (k, v) fixed_settings -> rc k = v, rc "text.usetex"%string = SBool latex &
      rc "text.latex.preamble"%string =
        SStr (if latex then "\usepackage{bm} \usepackage{amsfonts} \usepackage{amsmath}"%string else ""%string)].
Definition set_by_mud (k : string) : Prop :=
  k = "text.usetex"%string \/ k = "text.latex.preamble"%string \/ exists v, List.In (k, v) fixed_settings.

(** ** The settings *)
Lemma params_set b w : mud_settings b (rc (rc_update (mud_plot_params b (preamble b)) w)).
Proof.
split; [|reflexivity|by case: b].
by move=> k v; rewrite {1}/fixed_settings; do 11 (case=> [[<- <-]|]; first reflexivity); case.
Qed.
Lemma lookup_none d k : (forall p, List.In p d -> same p.1 k = false) -> lookup d k = None.
Proof.
move=> h; rewrite /lookup filter_rev map_rev.
have -> // : [seq p <- d | same p.1 k] = [::].
by elim: d h => [//|p d ih] h /=; rewrite h /=; [apply: ih => q hq; apply: h; right | left].
Qed.
Lemma params_keep b w k : ~ set_by_mud k -> rc (rc_update (mud_plot_params b (preamble b)) w) k = rc w k.
Proof.
move=> h; have n s : set_by_mud s -> same s k = false by move=> hs; apply/sameP => e; apply: h; rewrite -e.
have f s v : List.In (s, v) fixed_settings -> same s k = false by move=> hs; apply: n; right; right; exists v.
cbn [rc_update rc]; rewrite lookup_none // => p.
rewrite /mud_plot_params; do 11 (case=> [<-|]; first by cbn [fst]; apply: f; rewrite /fixed_settings; do 12 (first [by left | right])).
by case=> [<-|[<-|//]]; apply: n; [left | right; left].
Qed.
Lemma rc_one s v w k : rc (rc_update [:: (s, v)] w) k = if same k s then v else rc w k.
Proof.
rewrite /= /lookup /rev /=.
case: (sameP k s) => [<-|]; first by case: sameP.
by move=> ne; case: sameP => // e; case: ne.
Qed.

(** ** The import *)
(** C154: what the import finds out, which exception it raises, and what it leaves of the figures. *)
Theorem C154_outcome o w w1 : o_cwd o = None -> testing o w w1 ->
  (forall u v, rc u =1 rc v -> figs u = figs v -> exists_ u =1 exists_ v ->
     [/\ o_plot1 o u = o_plot1 o v, o_plot2 o u = o_plot2 o v, o_savefig o u = o_savefig o v & o_unlink o u = o_unlink o v]) ->
  exists w2, let first := first_raise [:: o_plot1 o w1; o_plot2 o w1; (o_savefig o w1).2;
      if exists_ w test_fig || (o_savefig o w1).1 then o_unlink o w2 else None] in
  (import_plot o w).2 = match first with
    | None => inr true
    | Some RuntimeErr | Some FileNotFoundErr => inr false
    | Some e => inl e
    end /\ [/\ rc w2 =1 rc w1, figs w2 = figs w1, exists_ w2 test_fig = exists_ w test_fig || (o_savefig o w1).1 &
      forall f, f <> test_fig -> exists_ w2 f = exists_ w f].
Proof.
move=> ec [r1 f1 e1] ext; set u := with_fig o (rc_update [:: ("text.usetex"%string, SBool true)] w).
have [x1 x2 x3 _] : [/\ o_plot1 o u = o_plot1 o w1, o_plot2 o u = o_plot2 o w1, o_savefig o u = o_savefig o w1 & o_unlink o u = o_unlink o w1].
  apply: ext => [k||k]; last by rewrite e1.
    by rewrite r1 -rc_one.
  by rewrite f1.
exists (put_file test_fig (exists_ w test_fig || (o_savefig o w1).1) u).
split; last first.
  split=> //; last by move=> f hf; rewrite /=; case: sameP => // e; case: hf.
  - by move=> k; rewrite r1 -rc_one.
rewrite /import_plot /check_latex ec /check_body -/u x1 x2 x3.
case: (o_plot1 o w1) => [e|]; first by case: e.
case: (o_plot2 o w1) => [e|]; first by case: e.
case: (o_savefig o w1) => [b [e|]]; first by case: e.
rewrite /first_raise /= /same /=.
by case: (_ || b) => //=; case: (o_unlink _ _) => [[]|].
Qed.

(** C154: the settings. *)
Theorem C154_settings o w : let w' := (import_plot o w).1 in
  match (import_plot o w).2 with
  | inr b => mud_settings b (rc w') /\ forall k, ~ set_by_mud k -> rc w' k = rc w k
  | inl _ => rc w' =1 rc w
  end.
Proof.
have S b v : (forall k, rc v k = rc w k) -> mud_settings b (rc (rc_update (mud_plot_params b (preamble b)) v)) /\
    forall k, ~ set_by_mud k -> rc (rc_update (mud_plot_params b (preamble b)) v) k = rc w k.
  by move=> e; split; [exact: params_set | move=> k hk; rewrite (params_keep b v hk)].
rewrite /import_plot /check_latex; case: (o_cwd o) => [e|] //.
by case: (check_body o w) => w1 [[]|]; first [exact: S | move=> k].
Qed.

(** C154: whatever happens, every figure that was open before the import is closed; unless there is
    no working directory: then nothing happens. *)
Theorem C154_figures o w : figs (import_plot o w).1 = [::] \/ (o_cwd o <> None /\ (import_plot o w).1 = w).
Proof.
rewrite /import_plot /check_latex; case: (o_cwd o) => [e|]; first by right.
by left; case: (check_body o w) => w1 [[]|].
Qed.

(** C154: files.  Only .test_fig.png is touched: it is gone after an import that found LaTeX, also if it
    was the user's, and else it is there if it was before or if saving left it. *)
Theorem C154_files o w : let w' := (import_plot o w).1 in
  (forall f, f <> test_fig -> exists_ w' f = exists_ w f) /\
  ((import_plot o w).2 = inr true -> exists_ w' test_fig = false) /\
  ((forall u, (o_savefig o u).1 = false) -> exists_ w test_fig = false -> exists_ w' test_fig = false) /\
  ((import_plot o w).2 <> inr true -> exists_ w test_fig -> exists_ w' test_fig).
Proof.
have put f b u : f <> test_fig -> exists_ (put_file test_fig b u) f = exists_ u f.
  by move=> hf; rewrite /=; case: sameP.
rewrite /import_plot /check_latex; case: (o_cwd o) => [e|] //.
rewrite /check_body; set u := with_fig _ _; have eu : exists_ u = exists_ w by [].
case: (o_plot1 o u) => [e|]; first by case: e; rewrite /= ?eu.
case: (o_plot2 o u) => [e|]; first by case: e; rewrite /= ?eu.
case es : (o_savefig o u) => [b r]; set v := put_file _ (_ || b) u.
have ev f : f <> test_fig -> exists_ v f = exists_ w f by move=> hf; rewrite put.
have ew : exists_ v test_fig = exists_ w test_fig || b by [].
have kw : exists_ w test_fig -> exists_ v test_fig by rewrite ew => ->.
have nw : (forall z, (o_savefig o z).1 = false) -> exists_ w test_fig = false -> exists_ v test_fig = false.
  by move=> h e0; rewrite ew e0; have := h u; rewrite es.
case: r {es} => [e|] /=; first by case: e.
case: ifP => [h|h] /=; last by do 3?[split => //]; rewrite h.
case: (o_unlink o v) => [[]|] //; cbn [close_all rc_restore rc_update exists_ fst snd]; split=> //.
by move=> f hf; rewrite (put f false v hf); exact: ev.
Qed.

(** C154: the modules of mud.examples set the settings once more at their import: no change, and what the
    user set in between is replaced exactly for the settings mud sets. *)
Theorem C154_examples b w : mud_settings b (rc (import_example b w)) /\
  (forall k, ~ set_by_mud k -> rc (import_example b w) k = rc w k) /\
  (forall o w0, import_plot o w0 = (w, inr b) -> rc (import_example b w) =1 rc w).
Proof.
split; [exact: params_set | split=> [k hk|o w0 E k]; first exact: params_keep].
have [[h1 h2 h3] h4] : mud_settings b (rc w) /\ True by have := C154_settings o w0; rewrite E /= => -[].
have [g1 g2 g3] := params_set b w.
rewrite /import_example.
have d : set_by_mud k \/ ~ set_by_mud k.
  case: (sameP k "text.usetex"%string) => [->|n1]; first by left; left.
  case: (sameP k "text.latex.preamble"%string) => [->|n2]; first by left; right; left.
  have : (exists v, List.In (k, v) fixed_settings) \/ ~ (exists v, List.In (k, v) fixed_settings).
    elim: fixed_settings => [|[s v] l ih]; first by right; case=> v [].
    case: (sameP s k) => [->|ne]; first by left; exists v; left.
    case: ih => [[v' hv]|nv]; first by left; exists v'; right.
    by right; case=> v' [[]|h] //; apply: nv; exists v'.
  case=> [h|h]; first by left; right; right.
  by right; case=> [//|[//|//]].
case: d => [[->|[->|[v hv]]]|nk]; last exact: params_keep.
- by rewrite g2 h2.
- by rewrite g3 h3.
by rewrite (g1 _ _ hv) (h1 _ _ hv).
Qed.

(** ** The command group *)
Section Group.
Variables (G : Type) (parent : string -> string) (reseed : int -> lexn + G).
Notation group := (group parent reseed).
(** C155: a command is reached only with the directory there (or no directory asked for) and the generator
    restarted, with the options as they were given; nothing else is changed. *)
Theorem C155_reached show seed path dpi fs g fs' g' obj : group show seed path dpi fs g = (fs', g', inr obj) ->
  [/\ obj = CO show seed path dpi, (forall p, path = Some p -> fs' p = Some Dir),
      (forall q, path <> Some q -> fs' q = fs q) &
      (match seed with None => g' = g | Some q => reseed q = inr g' end)].
Proof.
rewrite /LatexModel.group; case: path => [p|].
  rewrite /mkdir; case ep : (fs p) => [[]|] //.
    case: seed => [q|]; last by move=> [<- <- <-]; split=> // p' [<-].
    by case: (reseed q) => [e|g1] // [<- <- <-]; split=> // p' [<-].
  case: (fs (parent p)) => [[]|] //.
  have d q : Some p <> Some q -> (if same q p then Some Dir else fs q) = fs q.
    by move=> h; case: sameP => // e; case: h; rewrite e.
  have d2 : (if same p p then Some Dir else fs p) = Some Dir by case: sameP.
  case: seed => [q|]; last by move=> [<- <- <-]; split=> // p' [<-].
  by case: (reseed q) => [e|g1] // [<- <- <-]; split=> // p' [<-].
case: seed => [q|]; last by move=> [<- <- <-]; split.
by case: (reseed q) => [e|g1] // [<- <- <-]; split.
Qed.

(** C155: without the parent directory, or with a file in the place of the directory, every command raises
    before the seed is looked at, and nothing is changed. *)
Theorem C155_no_directory show seed p dpi fs g : (fs p = None -> fs (parent p) <> Some Dir) -> fs p <> Some Dir ->
  exists e, group show seed (Some p) dpi fs g = (fs, g, inl e) /\
    (fs p = Some File -> e = FileExistsErr) /\ (fs p = None -> fs (parent p) = None -> e = FileNotFoundErr).
Proof.
rewrite /LatexModel.group /mkdir => h1 h2; case: (fs p) h1 h2 => [[]|] // h1 h2; first by exists FileExistsErr.
by case: (fs (parent p)) (h1 erefl) => [[]|] // _; [exists OtherError | exists FileNotFoundErr].
Qed.

(** C155: a refused seed raises with the generator as it was; the directory has been made by then. *)
Theorem C155_bad_seed show q p dpi fs g e : reseed q = inl e -> fs (parent p) = Some Dir -> fs p <> Some File ->
  exists fs', [/\ group show (Some q) (Some p) dpi fs g = (fs', g, inl e), fs' p = Some Dir & forall r, r <> p -> fs' r = fs r].
Proof.
move=> er hp hf; rewrite /LatexModel.group /mkdir; case ep : (fs p) hf => [[]|] // _.
  by exists fs; rewrite er.
rewrite hp er; exists (fun r => if same r p then Some Dir else fs r); split=> //; first by case: sameP.
by move=> r hr; case: sameP.
Qed.

(** C155: a second command with the same options finds the directory, makes none, and with a seed starts from
    the same state of the generator, whatever was drawn in between. *)
Theorem C155_again show seed path dpi fs g fs' g1 obj g2 : group show seed path dpi fs g = (fs', g1, inr obj) ->
  group show seed path dpi fs' g2 = (fs', (if seed is Some _ then g1 else g2), inr obj).
Proof.
move=> E; have [-> hd _ hs] := C155_reached E; rewrite /LatexModel.group.
case: path hd {E} => [p|] hd; first by rewrite /mkdir (hd p erefl); case: seed hs => [q|] // ->.
by case: seed hs => [q|] // ->.
Qed.
End Group.
