(** Properties C144 and C145: the numbers run_comparison_example draws from the global generator,
    the commands comparison, contours, wme_covariance and high_dim_linear, and figures 1 to 6 of
    mud_paper. *)
Set Warnings "-notation-overridden,-ambiguous-paths".
From Coq Require Import String ZArith.
From mathcomp Require Import all_ssreflect all_algebra.
From Verif Require Import Py Nd Xnum Spec LinAlg Dmx DmxProofs LgpModel LgpTheory LgpProofs LinProps UtilModel DensityModel BayesModel UtilModel2
  LinExamples PlotModel PlotProps3 DrawModel DrawProps2 DrawProps3 ContModel ContProps ContProps2 LinExModel LinExProps4 PoisExModel SimpleModel CompModel CompProps2 CompProps3 LinFigModel
  LinFigProps CliModel PaperModel.
Set Implicit Arguments. Unset Strict Implicit. Unset Printing Implicit Defensive.
Import Order.Theory GRing.Theory Num.Theory.
Local Open Scope ring_scope.

Section Props.
Variable R : rcfType.
Notation nd := (nd R).
Notation xnum := (xnum R).
Variables (expf : R -> R) (cpi : R) (K : Type) (kde : nd -> unit -> seq xnum -> res K) (kde_pdf : K -> nd -> res (seq xnum))
  (kde_at : K -> seq (seq R) -> res (seq R)) (trunc ln : R -> R).
Variable ns : seq R -> res (seq (seq R)).
Variables (G : Type) (reseed : int -> res G) (randn rand : nat -> G -> seq R * G).
Variables (svdvals : dmx R -> seq R) (svd : forall m n, 'M[R]_(m, n) -> svd_out R m n).
Notation figs := (@figure_pass R expf cpi K kde kde_pdf kde_at trunc ln).
Notation run := (@run_comparison_example R expf cpi K kde kde_pdf kde_at trunc ln).
Notation gen := (@comparison_gen R expf cpi K kde kde_pdf kde_at trunc ln G randn rand).
Notation comparison := (@comparison R expf cpi K kde kde_pdf kde_at trunc ln G reseed randn rand).
Notation contours := (@contours R ns G reseed).
Notation wme_covariance := (@wme_covariance R G reseed randn rand svdvals).
Notation high_dim_linear := (@high_dim_linear R G reseed randn rand svd).
Notation paper := (@mud_paper_linear R expf cpi K kde kde_pdf kde_at trunc ln ns G reseed randn rand svdvals svd).
Notation stages := (@stages R G reseed).
Notation comp_stage := (@comp_stage R expf cpi K kde kde_pdf kde_at trunc ln G randn rand).
Notation cont_stage := (@cont_stage R ns G).
Notation wme_stage := (@wme_stage R G reseed randn rand svdvals).
Notation high_dim_stage := (@high_dim_stage R G reseed randn rand svd).
Notation pic := (pic R).

(** ** The draws of run_comparison_example *)
(** The generator before each pass: num_samples uniform numbers are drawn in every pass, and N normal
    ones unless N = 1. *)
Definition after_pass (n : nat) (N : int) (g : G) : G :=
  let g1 := (rand n g).2 in if N == 1 then g1 else (randn (absz N) g1).2.
Fixpoint before_pass (n : nat) (Ns : seq int) (g : G) (i : nat) : G :=
  match i, Ns with i.+1, N :: Ns' => before_pass n Ns' (after_pass n N g) i | _, _ => g end.

(** C145: run_comparison_example with the global generator is that of C120 and C141 with these draws. *)
Theorem C145_draws p (n : nat) mu sigma dom dint (Ns : seq int) sp cl g :
  size dom = 2%N -> sigma != 0 -> all (fun N : int => 0 <= N) Ns ->
  let at_ := before_pass n Ns g in
  let draws i := (nth 0 (rand n (at_ i)).1,
                  if nth 0 Ns i == 1 then fun _ => 0 else nth 0 (randn (absz (nth 0 Ns i)) (rand n (at_ i)).2).1) in
  (gen p n mu sigma dom dint Ns sp cl g).2 = run p n mu sigma dom dint Ns draws sp cl /\
  (forall rs, (gen p n mu sigma dom dint Ns sp cl g).2.2 = Ok rs -> (gen p n mu sigma dom dint Ns sp cl g).1 = at_ (size Ns)).
Proof.
move=> hd s0; elim: Ns g => [|N Ns ih] g; first by [].
cbn [all]; case/andP => hN hNs.
cbn [comparison_gen run_comparison_example].
have -> : pass_draws randn rand n sigma dom N g =
  ((nth 0 (rand n g).1, if N == 1 then fun _ => 0 else nth 0 (randn (absz N) (rand n g).2).1), after_pass n N g).
  rewrite /pass_draws hd eqxx (negbTE s0) orbF /after_pass; case: (rand n g) => u g1 /=.
  by case: N hN => // m _; rewrite ?absz_nat; case: (randn m g1) => z g2; case: eqP.
have [h1 h2] := ih (after_pass n N g) hNs.
cbn [before_pass nth].
case: (figs _ _ _ _ _ _ _ _ _ _ _) => fs [r|e]; last by [].
cbn [fst snd]; rewrite h1; split=> // rs; case E : (run _ _ _ _ _ _ _ _ _ _).2 => [rs'|e']; last by [].
by move=> _; rewrite (h2 rs') // h1.
Qed.

(** ** The commands *)
Lemma commandS T q g gq (f : G -> G * (seq T * res unit)) : reseed q = Ok gq -> command reseed (Some q) f g = f gq.
Proof. by move=> e; rewrite /command /= e. Qed.

(** C145: with --seed the outcome of a command does not depend on the state of the generator; a
    seed that numpy refuses: its exception, and nothing is drawn. *)
Theorem C145_seeded T q g g' (f : G -> G * (seq T * res unit)) gq :
  reseed q = Ok gq -> command reseed (Some q) f g = command reseed (Some q) f g'.
Proof. by move=> e; rewrite !(commandS _ _ e). Qed.
Theorem C145_bad_seed T q g (f : G -> G * (seq T * res unit)) e :
  reseed q = Err e -> command reseed (Some q) f g = (g, ([::], Err e)).
Proof. by move=> h; rewrite /command /= h. Qed.

(** C145: the wme_covariance command draws the figure of C142 with this seed. *)
Theorem C145_wme_covariance seed sp di do_ sigma Ns g g0 : seeded reseed seed g = Ok g0 ->
  let: (g', r) := wme_covariance_figure svdvals reseed randn rand di do_ sigma Ns seed sp false g in
  wme_covariance seed sp di do_ sigma Ns g =
    (g', if r is Ok (_, f) then ([:: f], Ok tt) else ([::], rmap (fun _ => tt) r)).
Proof.
move=> e.
have -> : wme_covariance_figure svdvals reseed randn rand di do_ sigma Ns seed sp false g =
          wme_covariance_figure svdvals reseed randn rand di do_ sigma Ns seed sp false g0.
  rewrite /wme_covariance_figure /run_wme_covariance; case: seed e => [q|] /=; last by case=> ->.
  by move=> ->.
rewrite /PaperModel.wme_covariance /command.
have -> : examples_group reseed seed g = Ok g0 by [].
by case: (wme_covariance_figure _ _ _ _ _ _ _ _ _ _ _ _) => g' [[p f]|e'].
Qed.

(** C145: the high_dim_linear command draws the two figures of C143, with the seed of --seed; without
    it from wherever the generator is. *)
Theorem C145_high_dim seed sp di do_ g g0 : seeded reseed seed g = Ok g0 ->
  let: (g', r) := high_dim_figures reseed randn rand svd di do_ seed sp false g in
  high_dim_linear seed sp di do_ g =
    (g', if r is Ok (_, (f1, f2)) then ([:: f1; f2], Ok tt) else ([::], rmap (fun _ => tt) r)).
Proof.
move=> e.
have -> : high_dim_figures reseed randn rand svd di do_ seed sp false g =
          high_dim_figures reseed randn rand svd di do_ seed sp false g0.
  rewrite /high_dim_figures /run_high_dim_linear /random_linear_problem; case: seed e => [q|] /=; last by case=> ->.
  by move=> ->.
rewrite /PaperModel.high_dim_linear /command.
have -> : examples_group reseed seed g = Ok g0 by [].
by case: (high_dim_figures _ _ _ _ _ _ _ _ _ _) => g' [[p [f1 f2]]|e'].
Qed.

(** C145: the contours command draws nothing from the generator; without a file the figures asked
    for by name (or "all") are those of x + y = 1 with the MUD point (5/8, 3/8). *)
Theorem C145_contours sp names v g seed g0 : seeded reseed seed g = Ok g0 ->
  ns [:: 1; 1] = Ok [:: [:: v.1; v.2]] ->
  exists fs content,
  let asked_for := filter (fun k => has (String.eqb k) names || has (String.eqb "all") names) keys in
  let q : R := 1 / 4%:R in
  [/\ contours seed sp None names g = (g0, (fs, Ok tt)),
      [seq f_art f | f <- fs] = [seq content k | k <- asked_for] &
      forall k, List.In k keys -> figure_shows (sumA R) 0 1%:M (pt2 q q) (sym2 1 (- (1 / 4%:R)) (1 / 2%:R)) 1%:M 1 v
         (pt2 (5%:R / 8%:R) (3%:R / 8%:R)) (pt2 (7%:R / 16%:R) (5%:R / 16%:R)) (pt2 (1 / 2%:R) (1 / 2%:R)) k (content k)].
Proof.
move=> es hn.
have en : [seq sumA R 0 j | j <- enum 'I_2] = [:: 1; 1].
  have -> : enum 'I_2 = [:: ord0; @Ordinal 2 1 isT] by apply: (inj_map val_inj); rewrite val_enum_ord.
  by rewrite /= !mxE.
have [p [ep [ip eS] [fA pC pS] [h1 h2 h3]]] := C130_default R.
rewrite -en in hn.
have [fs [p' [content [xmud [xmap [xls [er [a1 a2 a3] _ [ea hc] _]]]]]]] :=
  C130_figures (Some (FigNames names)) sp false ep ip eS fA pC pS ltr01 hn.
exists fs, content; split=> //.
- by rewrite /PaperModel.contours /command; have -> : examples_group reseed seed g = Ok g0 by []; rewrite er.
- by move=> k hk; have := hc k hk; rewrite (answer_inj a1 h1) (answer_inj a2 h2) (answer_inj a3 h3).
Qed.
End Props.
