(** Property C138: the data files of the Poisson problem and where mud_paper saves its figures. *)
Set Warnings "-notation-overridden,-ambiguous-paths".
From Coq Require Import String ZArith.
From mathcomp Require Import all_ssreflect all_algebra.
From mathcomp Require Import zify.
From Verif Require Import Py Nd Xnum XnumProofs UtilModel DensityModel NdProofs DensityProps3 UtilModel2 UtilProps
  StModel StProps StProps2 StProps3 StProps4 StProps5 DrawModel DrawProps DrawProps3 ContModel PoisModel StExModel StExProps
  PoisExModel PoisExProps PoisExProps2 PoisExProps3 AdcModel AdcProps AdcProps2 AdcProps3 AdcProps4 CliModel CliProps.
Set Implicit Arguments. Unset Strict Implicit. Unset Printing Implicit Defensive.
Import Order.Theory GRing.Theory Num.Theory.
Local Open Scope ring_scope.

(** C138: the name of a data file tells the numbers of samples and sensors and the dimension, nothing
    else. *)
Theorem C138_names sp n k (d : nat) n' k' (d' : nat) :
  fenics_file sp n k d = fenics_file sp n' k' d' <-> [/\ n = n', k = k' & d = d'].
Proof.
split=> [|[-> -> ->] //]; rewrite /fenics_file.
move=> /app_inj /= [] /(split_us (no_us_str n) (no_us_str n')) [/str_int_inj ->].
move=> [] /(split_us (no_us_str k) (no_us_str k')) [/str_int_inj -> []].
by move=> /(split_us (no_us_str d) (no_us_str d')) [/str_int_inj [->]].
Qed.

Lemma get_put T (d : dict T) k v k' : get (put d k v) k' = if (k' =? k)%string then Some v else get d k'.
Proof. by []. Qed.

Section CliProps3.
Variable R : rcfType.
Notation xnum := (xnum R).
Notation nd := (nd R).
Notation dset := (dset R).
Variables (D KW BW : Type) (pdf : D -> KW -> nd -> res (pdfval xnum)) (nokw : KW) (nobw : BW)
  (uniform : seq R -> seq R -> D) (norm01 : D) (kde : nd -> BW -> seq xnum -> res D)
  (kde_pdf : D -> nd -> res (seq xnum)) (trunc : R -> R).
Variables (pca_components : nd -> int -> res nd) (svd_v : nd -> res nd).
Variables (G : Type) (reseed : int -> res G) (randn rand : nat -> G -> seq R * G).
Variables (H : Type) (pyseed : int -> H) (pysample : nat -> H -> seq nat * H).
Variable curve : string -> D -> seq (R * R) -> int -> res (seq R * seq R).
Variable tri : seq R -> seq R -> seq R -> res unit.
Variable closest : R * R.
Variable field : dset -> res (seq R * seq R * seq R).
Variables (solve : seq R -> R -> R -> R) (solve_gamma : R -> R -> R -> R) (u : pyv R).
Notation fenics := (run_fenics reseed rand solve solve_gamma).
Notation generate := (poisson_generate reseed rand solve solve_gamma u).
Notation paper := (paper_poisson pdf nokw nobw uniform norm01 kde kde_pdf trunc pca_components svd_v
  reseed randn rand pyseed pysample curve tri closest field solve solve_gamma u).
Notation paper_data := (paper_poisson_data reseed rand solve solve_gamma u).

(** C138: the file written holds the data set computed; every other file stays as it was. *)
Theorem C138_generate n k mins maxs low high gamma seed sp (disk : dict dset) g g1 r :
  let p := fenics_file (if sp is Some d then d else "."%string) n k (size mins) in
  fenics n k mins maxs low high gamma seed u g = (g1, r) ->
  let: ((g2, disk2), out) := generate true n k mins maxs low high gamma seed sp disk g in
  g2 = g1 /\ match r with
  | Ok ds => [/\ out = Ok (Some p), open_file disk2 p = Ok ds & forall q, q <> p -> get disk2 q = get disk q]
  | Err e => out = Err e /\ disk2 = disk
  end.
Proof.
move=> p e; rewrite /poisson_generate e; case: r {e} => [ds|x] //; split=> //.
rewrite -[odflt _ sp]/(if sp is Some d then d else "."%string) -/p; split=> //.
  by rewrite /open_file get_put String.eqb_refl.
by move=> q /String.eqb_neq hq; rewrite get_put hq.
Qed.
(** Without FEniCS nothing is written and nothing raised. *)
Theorem C138_without n k mins maxs low high gamma seed sp (disk : dict dset) g :
  generate false n k mins maxs low high gamma seed sp disk g = ((g, disk), Ok None).
Proof. by []. Qed.
(** A second run for as many samples, sensors and parameters replaces the data of the first, also if
    the domain, the sensors or gamma differ; otherwise both files are there. *)
Theorem C138_twice n k mins maxs low high gamma seed n' k' mins' maxs' low' high' gamma' seed' sp (disk : dict dset) g g1 g2 ds ds' :
  let d := if sp is Some d then d else "."%string in
  let p := fenics_file d n k (size mins) in let p' := fenics_file d n' k' (size mins') in
  fenics n k mins maxs low high gamma seed u g = (g1, Ok ds) ->
  fenics n' k' mins' maxs' low' high' gamma' seed' u g1 = (g2, Ok ds') ->
  let disk1 := (generate true n k mins maxs low high gamma seed sp disk g).1.2 in
  let disk2 := (generate true n' k' mins' maxs' low' high' gamma' seed' sp disk1 g1).1.2 in
  open_file disk2 p' = Ok ds' /\
  open_file disk2 p = Ok (if [&& n == n', k == k' & size mins == size mins'] then ds' else ds).
Proof.
move=> d p p' e1 e2 disk1 disk2.
have d1 : disk1 = put disk p ds by rewrite /disk1 /poisson_generate e1.
have d2 : disk2 = put disk1 p' ds' by rewrite /disk2 /poisson_generate e2.
rewrite d2 /open_file !get_put String.eqb_refl; split=> //; case ne: [&& n == n', _ & _].
  have /and3P [/eqP en /eqP ek /eqP es] := ne; have -> : p = p' by apply/C138_names.
  by rewrite String.eqb_refl.
case: String.eqb_spec => [/C138_names [en ek es]|_]; first by move: ne; rewrite en ek es !eqxx.
by rewrite d1 get_put String.eqb_refl.
Qed.
(** With a seed, the data written are the same in every run. *)
Theorem C138_reproducible n k mins maxs low high gamma q g g' :
  (fenics n k mins maxs low high gamma (Some q) u g).2 = (fenics n k mins maxs low high gamma (Some q) u g').2.
Proof. by rewrite /run_fenics; case: (reseed q). Qed.

(** ** mud_paper *)
(** Where it looks for the data. *)
Definition paper_file (sp : string) : string :=
  if ((sp =? "") || (sp =? "."))%string then "data/poisson_data.pkl"%string else (sp ++ "/data/poisson_data.pkl")%string.
Lemma paper_fileE sp : path_join sp "data/poisson_data.pkl" = paper_file sp.
Proof. by rewrite /path_join /paper_file; case: ifP. Qed.
Fixpoint last_char (s : string) : string := match s with String c EmptyString => String c EmptyString | String _ s' => last_char s' | EmptyString => EmptyString end.
Lemma last_app a b : b <> ""%string -> last_char (a ++ b) = last_char b.
Proof. by move=> hb; elim: a => //= x a <-; case: a => //=; case: b hb. Qed.
Lemma fenics_not_paper sp n k d : fenics_file "." n k d <> paper_file sp.
Proof.
have ne a c s : (a ++ String c s)%string <> ""%string by case: a.
have l1 : last_char (fenics_file "." n k d) = "s"%string.
  rewrite /fenics_file.
  have e1 : last_char (str_int (Posz d) ++ "_res") = "s"%string by rewrite last_app //; apply: ne.
  have e2 : last_char ("_d" ++ str_int (Posz d) ++ "_res") = "s"%string by rewrite last_app //; apply: ne.
  have e3 : last_char (str_int k ++ "_d" ++ str_int (Posz d) ++ "_res") = "s"%string by rewrite last_app //; apply: ne.
  have e4 : last_char ("_n" ++ str_int k ++ "_d" ++ str_int (Posz d) ++ "_res") = "s"%string by rewrite last_app //; apply: ne.
  have e5 : last_char (str_int n ++ "_n" ++ str_int k ++ "_d" ++ str_int (Posz d) ++ "_res") = "s"%string by rewrite last_app //; apply: ne.
  rewrite last_app; [by rewrite last_app //; apply: ne | by []].
have l2 : last_char (paper_file sp) = "l"%string by rewrite /paper_file; case: ifP => // _; rewrite last_app.
by move=> e; move: l2; rewrite -e l1.
Qed.

(** C138: if the data are there, they are used; otherwise they are downloaded to their place. *)
Theorem C138_paper_data fen sp remote seed (disk : dict dset) g :
  (forall ds, get disk (paper_file sp) = Some ds -> paper_data fen sp remote seed disk g = ((g, disk), Ok tt)) /\
  (get disk (paper_file sp) = None -> forall ds, remote = Ok ds ->
   exists2 disk', paper_data false sp remote seed disk g = ((g, disk'), Ok tt) &
     get disk' (paper_file sp) = Some ds /\ forall q, q <> paper_file sp -> get disk' q = get disk q).
Proof.
rewrite /paper_poisson_data paper_fileE; split=> [ds ->|-> ds ->] //.
eexists; first by [].
rewrite get_put String.eqb_refl; split=> // q /String.eqb_neq hq; by rewrite get_put hq.
Qed.
(** C138: if they are not there and FEniCS is, mud_paper computes the data but writes them to another
    file, and raises FileNotFoundError, at every call; figures 7 to 9 are never drawn. *)
Theorem C138_paper_fenics_refuted sp remote seed (disk : dict dset) g h g1 g2 ds :
  get disk (paper_file sp) = None ->
  fenics (Posz 1000) (Posz 500) [:: - 4%:R; - 4%:R] [:: 0; 0] (0, 0) (1, 1) (- 3%:R) seed u g = (g1, Ok ds) ->
  (if seed is Some q then reseed q else Ok g1) = Ok g2 ->
  exists disk', [/\ paper true sp remote seed disk g h = ((g2, h, disk'), ([::], [::], Err FileNotFoundError)),
    get disk' "./s1000_n500_d2_res" = Some ds & get disk' (paper_file sp) = None].
Proof.
move=> e0 ef es; exists (put disk (fenics_file "." (Posz 1000) (Posz 500) 2) ds).
have ep : get (put disk (fenics_file "." (Posz 1000) (Posz 500) 2) ds) (paper_file sp) = None.
  by rewrite get_put; case: String.eqb_spec => // e; case: (@fenics_not_paper sp (Posz 1000) (Posz 500) 2).
split=> //.
rewrite /paper_poisson /paper_poisson_data paper_fileE e0 ef /= /examples_group es.
rewrite -/(fenics_file "." (Posz 1000) (Posz 500) 2) /open_file.
by rewrite (_ : get _ _ = None) //= ?ep.
Qed.
(** Downloaded data give the same figures and table as data that were there. *)
Theorem C138_paper_download sp remote remote' fen seed (disk disk2 : dict dset) g h ds :
  get disk (paper_file sp) = None -> remote = Ok ds -> get disk2 (paper_file sp) = Some ds ->
  (paper false sp remote seed disk g h).2 = (paper fen sp remote' seed disk2 g h).2.
Proof.
move=> e1 -> e2; rewrite /paper_poisson /paper_poisson_data paper_fileE e1 e2; cbn beta iota; rewrite /examples_group /open_file.
rewrite get_put String.eqb_refl e2.
case: (if seed is Some q then _ else _) => [g1|//].
by case: (run_2d_poisson_sol _ _ _ _ _ _ _ _ _ _ _ _ _ _ _ _ _ _ _ _ _ _ _ _ _ _ _ _ _ g1 h) => -[ga ha] [fs [x|//]];
   case: (run_2d_poisson_trials _ _ _ _ _ _ _ _ _ _ _ _ _ _ _ _ _ _ _ _ _ _ _ _ _ _ _ ga ha) => -[gb hb] [].
Qed.

(** Whatever happens, the figures of the solution go to the directory "figures", those of the trials
    one directory up. *)
Theorem C138_paper_files fen sp remote seed (disk : dict dset) g h :
  let r := (paper fen sp remote seed disk g h).2 in
  let figs := if ((sp =? "") || (sp =? "."))%string then "figures"%string else (sp ++ "/figures")%string in
  (forall f, List.In f r.1.1 -> pf_file f = Some (figs ++ "/response_surface")%string \/ pf_file f = Some (figs ++ "/learned_qoi")%string) /\
  (forall f, List.In f r.1.2 -> exists2 N, List.In N [:: 5; 50; 500]%N & pf_file f = trial_file (Some sp) (Posz N)).
Proof.
move=> r figs; rewrite /r /paper_poisson.
have ef : path_join sp "figures" = figs by rewrite /path_join /figs; case: ifP.
rewrite ef.
case: (paper_data _ _ _ _ _ _) => -[ga da] [[]|x] //=.
case: (examples_group _ _ _) => [gb|x] //=.
set file := open_file _ _.
have sol : forall f, List.In f (run_2d_poisson_sol pdf nokw nobw uniform norm01 kde kde_pdf trunc pca_components svd_v
  reseed randn pysample curve tri closest field file (5%:R / 100%:R) seed [:: "response"; "qoi"]%string
      (Some figs) false "random" default_groups default_markers default_colors (pp0 R) (pp0 R) gb h).2.1 ->
   pf_file f = Some (figs ++ "/response_surface")%string \/ pf_file f = Some (figs ++ "/learned_qoi")%string.
  rewrite /run_2d_poisson_sol; case: (load_poisson_prob _ _ _ _ _ _) => g1 [[ds s]|//].
  case: (sensor_order _ _ _ _) => h1 [idx|//]; case: (st_mud_problem _ _ _ _ _ _ _ _ _ _ _ _) => [P|//].
  case: (DensityModel.estimate _ _ _ _ _ _ _ _) => P1 [m|//].
  have fo name a : pf_file (saved_truthy name (Some figs) false a) = Some (figs ++ "/" ++ name)%string.
    have n1 : (figs =? "")%string = false by rewrite /figs; case: ifP => // _; case: (sp).
    have n2 : (figs =? ".")%string = false.
      rewrite /figs; case: ifP => // hs; apply/String.eqb_neq; case: (sp) hs => [|c t] //= _ [_]; by case: t.
    by rewrite /saved_truthy n1 /saved /path_join n1 n2.
  rewrite /step /density_figs /step /=.
  case: (plot_response_ex _ _ _ _ _ _ _ _) => [a1|x1] //; cbn [rmap].
  case: (plot_qoi_ex _ _ _) => [a2|x2]; cbn [rmap cat fst snd] => f.
    by case=> [<-|[<-|//]]; [left | right]; exact: fo.
  by case=> [<-|//]; left; exact: fo.
have tr s idx xr l1 l2 Ns : forall f, List.In f (trials pdf nokw nobw uniform norm01 kde kde_pdf trunc pca_components svd_v curve closest s idx xr l1 l2 (Some sp) false Ns).1 ->
    exists2 N, List.In N Ns & pf_file f = trial_file (Some sp) N.
  elim: Ns => [//|N Ns ih]; cbn [trials] => f; case: (trial _ _ _ _ _ _ _ _ _ _ _ _ _ _ _ _ _ _) => [[P a]|//].
  move: ih; case: (trials _ _ _ _ _ _ _ _ _ _ _ _ _ _ _ _ _ _ _ _) => fs x ih; case=> [<-|/ih [M hM ->]]; last by exists M => //; right.
  by exists N; [left | rewrite savedE].
case: (run_2d_poisson_sol _ _ _ _ _ _ _ _ _ _ _ _ _ _ _ _ _ _ _ _ _ _ _ _ _ _ _ _ _ gb h) sol => -[gc hc] [fs [x|x]] sol; last by split.
have tr2 : forall f, List.In f (run_2d_poisson_trials pdf nokw nobw uniform norm01 kde kde_pdf trunc pca_components svd_v
  reseed randn pyseed pysample curve closest file [:: Posz 5; Posz 50; Posz 500] "random" (- (45%:R / 10%:R), 5%:R / 10%:R) (- (45%:R / 10%:R), 5%:R / 10%:R)
      (default_loc1 R) (default_loc2 R) (5%:R / 100%:R) seed (Some sp) false gc hc).2.1 ->
    exists2 N, List.In N [:: 5; 50; 500]%N & pf_file f = trial_file (Some sp) (Posz N).
  rewrite /run_2d_poisson_trials; case: (load_poisson_prob _ _ _ _ _ _) => g1 [[ds s]|//].
  case: (sensor_order _ _ _ _) => h1 [idx|//] f.
  have := tr s idx [:: (- (45%:R / 10%:R), 5%:R / 10%:R); (- (45%:R / 10%:R), 5%:R / 10%:R)] (default_loc1 R) (default_loc2 R) [:: Posz 5; Posz 50; Posz 500] f.
  case: (trials _ _ _ _ _ _ _ _ _ _ _ _ _ _ _ _ _ _ _ _) => fs' x' /= h1' /h1' [N [<-|[<-|[<-|//]]] ->].
  - by exists 5%N => //; left.
  - by exists 50%N => //; right; left.
  - by exists 500%N => //; right; right; left.
by case: (run_2d_poisson_trials _ _ _ _ _ _ _ _ _ _ _ _ _ _ _ _ _ _ _ _ _ _ _ _ _ _ _ gc hc) tr2 => -[gd hd] [fs' r'] tr2; split.
Qed.
End CliProps3.
