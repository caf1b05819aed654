(** Property C149 continued: the first eighteen figures of mud_paper. *)
Set Warnings "-notation-overridden,-ambiguous-paths".
From Coq Require Import String ZArith.
From mathcomp Require Import all_ssreflect all_algebra.
From mathcomp Require Import zify.
From Verif Require Import Py Nd Xnum LinAlg Dmx LgpModel UtilModel DensityModel BayesModel UtilModel2 StModel DrawModel ContModel PoisModel StExModel
  LinExModel PoisExModel PoisExProps PoisExProps2 PoisExProps3 AdcModel AdcProps AdcProps3 AdcProps4 SimpleModel CompModel CompProps2 LinFigModel
  CliModel CliProps2 CliProps3 PaperModel PaperProps PaperProps2 PaperProps3 PaperProps4 AllModel AllProps AllProps2.
Set Implicit Arguments. Unset Strict Implicit. Unset Printing Implicit Defensive.
Import Order.Theory GRing.Theory Num.Theory.
Local Open Scope ring_scope.

Section AllProps3.
Variable R : rcfType.
Notation xnum := (xnum R).
Notation nd := (nd R).
Notation dset := (dset R).
Variables (D KW BW : Type) (pdf : D -> KW -> nd -> res (pdfval xnum)) (nokw : KW) (nobw : BW)
  (uniform : seq R -> seq R -> D) (norm01 : D) (kde : nd -> BW -> seq xnum -> res D)
  (kde_pdf : D -> nd -> res (seq xnum)) (trunc : R -> R).
Variables (pca_components : nd -> int -> res nd) (svd_v : nd -> res nd).
Variables (G : Type) (reseed : int -> res G) (randn rand : nat -> G -> seq R * G).
Variables (H : Type) (pyseed : int -> H) (pysample : nat -> H -> seq nat * H).
Variable curve : string -> D -> seq (R * R) -> int -> res (seq R * seq R).
Variable tri : seq R -> seq R -> seq R -> res unit.
Variable closest : R * R.
Variable field : dset -> res (seq R * seq R * seq R).
Variables (stamps : nd -> res (seq R)) (parse : string -> res R) (mesh : nd -> nd -> nd -> res unit).
Variables (solve : seq R -> R -> R -> R) (solve_gamma : R -> R -> R -> R) (u : pyv R).
Variables (wind : dset -> res (seq R * seq R)) (grid : dset -> res dset).
Variables (expf : R -> R) (cpi : R) (K : Type) (ckde : nd -> unit -> seq xnum -> res K) (ckde_pdf : K -> nd -> res (seq xnum))
  (ckde_at : K -> seq (seq R) -> res (seq R)) (ln : R -> R).
Variable ns : seq R -> res (seq (seq R)).
Variables (svdvals : dmx R -> seq R) (svd : forall m n, 'M[R]_(m, n) -> svd_out R m n).

Notation figs_of := (adcirc_figs pdf nokw nobw uniform norm01 kde kde_pdf trunc pca_components svd_v curve tri
  stamps parse mesh wind grid).
Notation adcirc := (paper_adcirc pdf nokw nobw uniform norm01 kde kde_pdf trunc pca_components svd_v reseed randn curve tri
  stamps parse mesh wind grid).
Notation load := (load_adcirc_prob reseed randn).
Notation linear := (paper_linear expf cpi ckde ckde_pdf ckde_at trunc ln ns reseed randn rand svdvals svd).
Notation linear_command := (mud_paper_linear expf cpi ckde ckde_pdf ckde_at trunc ln ns reseed randn rand svdvals svd).
Notation poisson := (paper_poisson pdf nokw nobw uniform norm01 kde kde_pdf trunc pca_components svd_v reseed randn rand
  pyseed pysample curve tri closest field solve solve_gamma u).
Notation poisson_data := (paper_poisson_data reseed rand solve solve_gamma u).
Notation fenics := (run_fenics reseed rand solve solve_gamma).
Notation run_sol := (run_2d_poisson_sol pdf nokw nobw uniform norm01 kde kde_pdf trunc pca_components svd_v
  reseed randn pysample curve tri closest field).
Notation run_trials := (run_2d_poisson_trials pdf nokw nobw uniform norm01 kde kde_pdf trunc pca_components svd_v
  reseed randn pyseed pysample curve closest).
Notation paper := (mud_paper pdf nokw nobw uniform norm01 kde kde_pdf trunc pca_components svd_v reseed randn rand
  pyseed pysample curve tri closest field stamps parse mesh solve solve_gamma u wind grid expf cpi ckde ckde_pdf ckde_at ln
  ns svdvals svd).

(** C149: the whole run is figures 1 to 6, then 7 to 9, then the nine of ADCIRC; what a part leaves (the
    generators, the files) is what the next one starts from. *)
Theorem C149_composed fen sp rp ra seed disk g h g1 fs1 g2 h2 d2 f7 f9 t g3 d3 A r :
  linear_command "" (Some sp) seed g = (g1, (fs1, Ok tt)) ->
  poisson fen sp rp seed disk g1 h = ((g2, h2, d2), (f7, f9, Ok t)) -> adcirc sp ra d2 g2 = ((g3, d3), (A, r)) ->
  paper fen sp rp ra seed disk g h = ((g3, h2, d3), ((map (@ALin R) fs1 ++ map (@APois R) f7 ++ map (@APois R) f9) ++ A, Some t, r)).
Proof.
rewrite /mud_paper_linear /command /mud_paper; case: (examples_group reseed seed g) => [g0 -> -> ->|//]; by [].
Qed.

Hypothesis rand_size : forall n g, size (rand n g).1 = n.
Hypothesis rand_unit : forall n g x, x \in (rand n g).1 -> 0 <= x < 1.
Hypothesis svd_size : forall m n (A : 'M[R]_(m, n)), size (sv_s (svd A)) = minn m n.
Hypothesis cpi_pos : 0 < cpi.
Hypothesis exp_pos : forall x, 0 < expf x.
Hypothesis exp_incr : forall x y, x < y -> expf x < expf y.
Hypothesis exp_add : forall x y, expf (x + y) = expf x * expf y.
(** Kernel density estimates of n > 0 numbers with n weights never raise. *)
Hypothesis kde_works : forall (v : seq R) (w : seq xnum), v != [::] -> size w = size v ->
  exists k f, ckde (Nd [:: size v; 1%N] v) tt w = Ok k /\ estimates ckde_at k f.
Hypothesis kde_pdf_works : forall k n (v : seq R), exists2 pr, ckde_pdf k (Nd [:: n; 1%N] v) = Ok pr & size pr = n.

(** C149: whatever happens afterwards, figures 1 to 6 are finished, as the command mud_paper_linear
    alone would make them. *)
Theorem C149_first_figures fen sp rp ra seed disk g h g0 g21 v :
  (if seed is Some q then reseed q else Ok g) = Ok g0 -> reseed (Posz 21) = Ok g21 -> ns [:: 1; 1] = Ok [:: [:: v.1; v.2]] ->
  exists g' fs rest, [/\ linear_command "" (Some sp) seed g = (g', (fs, Ok tt)),
    (paper fen sp rp ra seed disk g h).2.1.1 = map (@ALin R) fs ++ rest &
    [seq pic_file f | f <- fs] = [seq Some (in_dir (in_dir sp "figures") n) | n <- paper_names]].
Proof.
move=> hs h21 hv.
have [g' [fs e]] : exists g' fs, linear_command "" (Some sp) seed g = (g', (fs, Ok tt)).
  exact: (@C144_total R expf cpi K ckde ckde_pdf ckde_at trunc ln ns G reseed randn rand svdvals svd rand_size rand_unit svd_size cpi_pos exp_pos exp_incr exp_add kde_works kde_pdf_works _ _ _ _ _ _ _ hs h21 hv).
exists g', fs; have F := C144_files e.
have [rest er] : exists rest, (paper fen sp rp ra seed disk g h).2.1.1 = map (@ALin R) fs ++ rest.
  move: e; rewrite /mud_paper_linear /command /mud_paper /examples_group; case: (match seed with Some _ => _ | None => _ end) hs => [gq _|//].
  move=> ->; case: (poisson _ _ _ _ _ _ _) => -[[g2 h2] d2] [[f7 f9] [tb|x]]; last by exists (map (@APois R) f7 ++ map (@APois R) f9).
  case: (adcirc _ _ _ _) => -[g3 d3] [A r]; exists (map (@APois R) f7 ++ map (@APois R) f9 ++ A); by rewrite -!catA.
by exists rest; split=> //; exact: F.
Qed.
End AllProps3.
