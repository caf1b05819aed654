(** Property C149: the whole of mud_paper. *)
Set Warnings "-notation-overridden,-ambiguous-paths".
From Coq Require Import String ZArith.
From mathcomp Require Import all_ssreflect all_algebra.
From mathcomp Require Import zify.
From Verif Require Import Py Nd Xnum LinAlg Dmx LgpModel UtilModel DensityModel BayesModel UtilModel2 StModel DrawModel ContModel PoisModel StExModel
  LinExModel PoisExModel PoisExProps PoisExProps2 PoisExProps3 AdcModel AdcProps AdcProps3 AdcProps4 SimpleModel CompModel CompProps2 LinFigModel
  CliModel CliProps2 CliProps3 PaperModel PaperProps PaperProps2 PaperProps3 PaperProps4 AllModel AllProps.
Set Implicit Arguments. Unset Strict Implicit. Unset Printing Implicit Defensive.
Import Order.Theory GRing.Theory Num.Theory.
Local Open Scope ring_scope.

Section AllProps2.
Variable R : rcfType.
Notation xnum := (xnum R).
Notation nd := (nd R).
Notation dset := (dset R).
Variables (D KW BW : Type) (pdf : D -> KW -> nd -> res (pdfval xnum)) (nokw : KW) (nobw : BW)
  (uniform : seq R -> seq R -> D) (norm01 : D) (kde : nd -> BW -> seq xnum -> res D)
  (kde_pdf : D -> nd -> res (seq xnum)) (trunc : R -> R).
Variables (pca_components : nd -> int -> res nd) (svd_v : nd -> res nd).
Variables (G : Type) (reseed : int -> res G) (randn rand : nat -> G -> seq R * G).
Variables (H : Type) (pyseed : int -> H) (pysample : nat -> H -> seq nat * H).
Variable curve : string -> D -> seq (R * R) -> int -> res (seq R * seq R).
Variable tri : seq R -> seq R -> seq R -> res unit.
Variable closest : R * R.
Variable field : dset -> res (seq R * seq R * seq R).
Variables (stamps : nd -> res (seq R)) (parse : string -> res R) (mesh : nd -> nd -> nd -> res unit).
Variables (solve : seq R -> R -> R -> R) (solve_gamma : R -> R -> R -> R) (u : pyv R).
Variables (wind : dset -> res (seq R * seq R)) (grid : dset -> res dset).
Variables (expf : R -> R) (cpi : R) (K : Type) (ckde : nd -> unit -> seq xnum -> res K) (ckde_pdf : K -> nd -> res (seq xnum))
  (ckde_at : K -> seq (seq R) -> res (seq R)) (ln : R -> R).
Variable ns : seq R -> res (seq (seq R)).
Variables (svdvals : dmx R -> seq R) (svd : forall m n, 'M[R]_(m, n) -> svd_out R m n).

Notation figs_of := (adcirc_figs pdf nokw nobw uniform norm01 kde kde_pdf trunc pca_components svd_v curve tri
  stamps parse mesh wind grid).
Notation adcirc := (paper_adcirc pdf nokw nobw uniform norm01 kde kde_pdf trunc pca_components svd_v reseed randn curve tri
  stamps parse mesh wind grid).
Notation load := (load_adcirc_prob reseed randn).
Notation linear := (paper_linear expf cpi ckde ckde_pdf ckde_at trunc ln ns reseed randn rand svdvals svd).
Notation linear_command := (mud_paper_linear expf cpi ckde ckde_pdf ckde_at trunc ln ns reseed randn rand svdvals svd).
Notation poisson := (paper_poisson pdf nokw nobw uniform norm01 kde kde_pdf trunc pca_components svd_v reseed randn rand
  pyseed pysample curve tri closest field solve solve_gamma u).
Notation poisson_data := (paper_poisson_data reseed rand solve solve_gamma u).
Notation fenics := (run_fenics reseed rand solve solve_gamma).
Notation run_sol := (run_2d_poisson_sol pdf nokw nobw uniform norm01 kde kde_pdf trunc pca_components svd_v
  reseed randn pysample curve tri closest field).
Notation run_trials := (run_2d_poisson_trials pdf nokw nobw uniform norm01 kde kde_pdf trunc pca_components svd_v
  reseed randn pyseed pysample curve closest).
Notation paper := (mud_paper pdf nokw nobw uniform norm01 kde kde_pdf trunc pca_components svd_v reseed randn rand
  pyseed pysample curve tri closest field stamps parse mesh solve solve_gamma u wind grid expf cpi ckde ckde_pdf ckde_at ln
  ns svdvals svd).

(** ** The ADCIRC part does not depend on the random generator *)
Lemma load_fixed file sd q (g g' : G) :
  let r := load file sd (Some q) (Nd [:: 1; 2]%N [:: 0; 0]) g in let r' := load file sd (Some q) (Nd [:: 1; 2]%N [:: 0; 0]) g' in
  r.2 = r'.2 /\ (is_ok r.2 -> r = r').
Proof.
rewrite /load_adcirc_prob /load_with; case: file => [ds|//]; case: (StModel.load _ _ _) => s0 [v|//].
rewrite /measurements_from_reference; case: (s_tv _) => [[tv|]|//]; case: (s_sd _) => [x|//]; rewrite /add_noise.
  case: (reseed q) => [g1|//]; case: (randn _ _) => z g2; case: (add_last _ _) => [y|//].
  by case: (set_meas _ _) => s1 [].
by case: (reseed q) => [g1|//]; case: (randn _ _) => z g2; case: (add_last _ _) => [y|//].
Qed.
(** C148: whatever the generator is (--seed, the figures before): the same figures, and if they are all
    drawn, the same generator afterwards. *)
Theorem C148_fixed sp remote (disk : dict dset) g g' :
  (adcirc sp remote disk g).2 = (adcirc sp remote disk g').2 /\
  ((adcirc sp remote disk g).2.2 = Ok tt -> adcirc sp remote disk g = adcirc sp remote disk g').
Proof.
rewrite /paper_adcirc; case: (match _ with Some _ => _ | None => _ end) => [d|e]; last by [].
have := @load_fixed (open_file d (path_join sp "data/adcirc-si.pkl")) (5%:R / 100%:R) (Posz 21) g g'; rewrite -[Nd _ _]/(default_sensors R).
case: (load _ _ _ _ _) => g1 [[ds s]|e]; case: (load _ _ _ _ _) => g2 [[ds' s']|e'] [] //.
  by move=> _ /(_ isT) [-> -> ->].
by move=> [->].
Qed.

(** ** The figures of the Poisson problem *)
Lemma sol_files file sigma seed d order groups ms cs kw1 kw2 g h gh fs x :
  (d =? "")%string = false ->
  run_sol file sigma seed [:: "response"; "qoi"]%string (Some d) false order groups ms cs kw1 kw2 g h = (gh, (fs, Ok x)) ->
  [seq pf_file f | f <- fs] = [:: Some (in_dir d "response_surface"); Some (in_dir d "learned_qoi")].
Proof.
move=> hd; rewrite /run_2d_poisson_sol; case: (load_poisson_prob _ _ _ _ _ _) => g1 [[ds s]|//].
case: (sensor_order _ _ _ _) => h1 [idx|//]; case: (st_mud_problem _ _ _ _ _ _ _ _ _ _ _ _) => [P|//].
case: (DensityModel.estimate _ _ _ _ _ _ _ _) => P1 [m|//].
rewrite /step /density_figs /step /=.
case: (plot_response_ex _ _ _ _ _ _ _ _) => [a1|x1] //; cbn [rmap].
case: (plot_qoi_ex _ _ _) => [a2|x2]; cbn [rmap cat fst snd] => //.
by case=> _ <- _; rewrite /saved_truthy hd /= !in_dir_path.
Qed.
Lemma trials_files file Ns order x1 x2 l1 l2 sigma seed d cl g h gh fs x :
  run_trials file Ns order x1 x2 l1 l2 sigma seed (Some d) cl g h = (gh, (fs, Ok x)) ->
  [seq pf_file f | f <- fs] = [seq Some (in_dir d ("solution_n" ++ str_int N)) | N <- Ns].
Proof.
rewrite /run_2d_poisson_trials; case: (load_poisson_prob _ _ _ _ _ _) => g1 [[ds s]|//].
case: (sensor_order _ _ _ _) => h1 [idx|//].
set t := trials _ _ _ _ _ _ _ _ _ _ _ _ _ _ _ _ _ _ _ _.
suff ht : is_ok t.2 -> [seq pf_file f | f <- t.1] = [seq Some (in_dir d ("solution_n" ++ str_int N)) | N <- Ns].
  by case: t ht => fs' [ps|//] /(_ isT) /= e [_ <- _].
rewrite /t {t}; elim: Ns => [//|N Ns ih]; cbn [trials]; case: (trial _ _ _ _ _ _ _ _ _ _ _ _ _ _ _ _ _ _) => [[P a]|//].
move: ih; case: (trials _ _ _ _ _ _ _ _ _ _ _ _ _ _ _ _ _ _ _ _) => fs' [ps|//] /(_ isT) /= -> _.
by rewrite in_dir_path.
Qed.
Lemma poisson_files fen sp remote seed disk g h st fs7 fs9 t : poisson fen sp remote seed disk g h = (st, (fs7, fs9, Ok t)) ->
  [seq pf_file f | f <- fs7] = [seq Some (in_dir (in_dir sp "figures") n) | n <- [:: "response_surface"; "learned_qoi"]%string] /\
  [seq pf_file f | f <- fs9] = [seq Some (in_dir sp n) | n <- [:: "solution_n5"; "solution_n50"; "solution_n500"]%string].
Proof.
rewrite /paper_poisson; case: (poisson_data _ _ _ _ _ _) => -[ga da] [?|//]; case: (examples_group _ _ _) => [gb|//].
have [nd _] := in_dir_full sp; rewrite -in_dir_path in nd.
rewrite -[strings_of _]/[:: "response"; "qoi"]%string.
case es: (run_sol _ _ _ _ _ _ _ _ _ _ _ _ _ _) => [[gc hc] [f7 [x|//]]].
case et: (run_trials _ _ _ _ _ _ _ _ _ _ _ _ _) => [[gd hd] [f9 [y|]]] [_ <- <-] //= _.
by rewrite (sol_files nd es) (trials_files et) in_dir_path.
Qed.

(** ** The whole run *)
(** C149: a run that completes draws 23 figures, then the nine of ADCIRC (see C148_files). *)
Theorem C149_files fen sp rp ra seed disk g h st figs t : paper fen sp rp ra seed disk g h = (st, (figs, t, Ok tt)) ->
  exists ds s A L,
  [/\ figs = L ++ A, t <> None, get st.2 (adcirc_file sp) = Some ds, figs_of ds s (in_dir sp "figures") = (A, Ok tt) &
      load (Ok ds) (5%:R / 100%:R) (Some (Posz 21)) (Nd [:: 1; 2]%N [:: 0; 0]) g = (st.1.1, Ok (ds, s)) /\
      [seq any_file f | f <- L] =
        [seq Some (in_dir (in_dir sp "figures") n) | n <- paper_names ++ [:: "response_surface"; "learned_qoi"]%string] ++
        [seq Some (in_dir sp n) | n <- [:: "solution_n5"; "solution_n50"; "solution_n500"]%string]].
Proof.
rewrite /mud_paper; case eg0: (examples_group _ _ _) => [g0|//].
case el: (linear _ _ _ _) => [g1 [fs1 [[]|//]]].
case ep: (poisson _ _ _ _ _ _ _) => [[[g2 h2] d2] [[f7 f9] [tb|//]]].
have [e7 e9] := poisson_files ep; have e1 : linear_command "" (Some sp) seed g = (g1, (fs1, Ok tt)) by rewrite /mud_paper_linear /command eg0.
have {}e1 := C144_files e1.
case ea: (adcirc _ _ _ _) => [[g3 d3] [A r]] [<- <- <- er]; rewrite er in ea.
move: ea; rewrite /paper_adcirc !in_dir_path -/(adcirc_file sp).
case: (match _ with Some _ => _ | None => _ end) => [d|//]; rewrite /open_file.
case eg: (get d (adcirc_file sp)) => [ds|]; last by cbn [of_opt].
cbn [of_opt]; have lf := @load_fixed (Ok ds) (5%:R / 100%:R) (Posz 21) g2 g; move: lf; rewrite -[Nd _ _]/(default_sensors R).
case ld: (load _ _ _ _ g2) => [g4 [[ds' s]|//]] [_ lf] [<- <- eA].
have eds : ds' = ds.
  by move: ld; rewrite /load_adcirc_prob /load_with; case: (StModel.load _ _ _) => s0 [?|//]; case: (measurements_from_reference _ _ _ _ _ _ _) => -[? ?] [?|//] [_ <-].
subst ds'; exists ds, s, A, (map (@ALin R) fs1 ++ map (@APois R) f7 ++ map (@APois R) f9).
split=> //.
split; first by rewrite -(lf isT).
have c T (mk : T -> anypic R) F l : (forall x, any_file (mk x) = F x) -> [seq any_file f | f <- map mk l] = map F l.
  by move=> hm; rewrite -map_comp; apply: eq_map => x /=; rewrite hm.
by rewrite !map_cat (c _ _ (@pic_file R)) // !(c _ _ (@pf_file R)) // e1 e7 e9 -catA.
Qed.

(** C149: a seed numpy refuses: nothing happens. *)
Theorem C149_bad_seed fen sp rp ra q e disk g h : reseed q = Err e ->
  paper fen sp rp ra (Some q) disk g h = ((g, h, disk), ([::], None, Err e)).
Proof. by rewrite /mud_paper /examples_group => ->. Qed.
(** C149: with a seed, the run does not depend on numpy's generator ... *)
Theorem C149_seeded fen sp rp ra q gq disk g g' h : reseed q = Ok gq ->
  paper fen sp rp ra (Some q) disk g h = paper fen sp rp ra (Some q) disk g' h.
Proof. by rewrite /mud_paper /examples_group => ->. Qed.

Lemma trials_reseeded file Ns x1 x2 l1 l2 sigma q sp g h g' h' :
  (run_trials file Ns "random" x1 x2 l1 l2 sigma (Some q) sp false g h).2 =
  (run_trials file Ns "random" x1 x2 l1 l2 sigma (Some q) sp false g' h').2.
Proof. exact: C131_reproducible. Qed.
(** ... and on Python's generator only in the figures 7 and 8 (the order of the sensors). *)
Theorem C149_python_random fen sp rp ra q gq disk g g' h h' st st' figs figs' t t' (f0 : anypic R) : reseed q = Ok gq ->
  paper fen sp rp ra (Some q) disk g h = (st, (figs, t, Ok tt)) ->
  paper fen sp rp ra (Some q) disk g' h' = (st', (figs', t', Ok tt)) ->
  [/\ st.1.1 = st'.1.1, st.2 = st'.2, t = t', size figs = size figs' &
      forall i, i \notin [:: 18; 19]%N -> nth f0 figs i = nth f0 figs' i].
Proof.
move=> eq; rewrite (C149_seeded fen sp rp ra disk g' g h' eq) /mud_paper /examples_group eq.
case el: (linear _ _ _ gq) => [g1 [fs1 [[]|//]]].
have s1 : size fs1 = 18%N.
  have e1 : linear_command "" (Some sp) (Some q) gq = (g1, (fs1, Ok tt)) by rewrite /mud_paper_linear /command /examples_group eq.
  by have := congr1 size (C144_files e1); rewrite !size_map.
case ep: (poisson _ _ _ _ _ _ h) => [[[g2 h2] d2] [[f7 f9] [tb|//]]].
case ep': (poisson _ _ _ _ _ _ h') => [[[g2' h2'] d2'] [[f7' f9'] [tb'|//]]].
have [n7 _] := poisson_files ep; have [n7' _] := poisson_files ep'.
have z7 : size f7 = 2%N by have := congr1 size n7; rewrite size_map.
have z7' : size f7' = 2%N by have := congr1 size n7'; rewrite size_map.
move: ep ep'; rewrite /paper_poisson; case: (poisson_data _ _ _ _ _ _) => -[ga da] [?|//]; rewrite /examples_group eq.
set file := open_file _ _.
case: (run_sol _ _ _ _ _ _ _ _ _ _ _ _ gq h) => -[gc hc] [p7 [x|//]].
case: (run_sol _ _ _ _ _ _ _ _ _ _ _ _ gq h') => -[gc' hc'] [p7' [x'|//]].
have := trials_reseeded file [:: Posz 5; Posz 50; Posz 500] (- (45%:R / 10%:R), 5%:R / 10%:R) (- (45%:R / 10%:R), 5%:R / 10%:R)
  (default_loc1 R) (default_loc2 R) (5%:R / 100%:R) q (Some sp) gc hc gc' hc'.
case: (run_trials _ _ _ _ _ _ _ _ _ _ _ gc hc) => -[gd hd] [p9 r9]; case: (run_trials _ _ _ _ _ _ _ _ _ _ _ gc' hc') => -[gd' hd'] [p9' r9'] /= [-> ->].
move=> [_ _ <- e7 <- et] [_ _ <- e7' <- et'].
have ett : tb = tb' by move: et; rewrite et' => -[].
have [a1 a2] := C148_fixed sp ra da g2 g2'.
case ea: (adcirc sp ra da g2) a1 a2 => [[g3 d3] [A r]] a1 a2.
case ea': (adcirc sp ra da g2') a1 a2 => [[g3' d3'] [A' r']] /= [-> ->] a2.
move=> [<- <- <- er] [<- <- <- _]; case: (a2 er) => -> ->; rewrite ett.
split=> //; first by rewrite !size_cat !size_map z7 z7'.
move=> i hi; rewrite -!catA !nth_cat !size_map s1 z7 z7'; case: ifP => // k1; case: ifP => // k2.
by move: hi; rewrite !inE; lia.
Qed.
(** C149: two runs that complete, with any seeds: the same ADCIRC figures, and the same generator of
    numpy afterwards, if the data are the same. *)
Theorem C149_any_seed fen sp rp ra seed disk g h fen' rp' ra' seed' disk' g' h' st st' figs figs' t t' :
  paper fen sp rp ra seed disk g h = (st, (figs, t, Ok tt)) ->
  paper fen' sp rp' ra' seed' disk' g' h' = (st', (figs', t', Ok tt)) ->
  get st.2 (adcirc_file sp) = get st'.2 (adcirc_file sp) ->
  st.1.1 = st'.1.1 /\ drop 23 figs = drop 23 figs'.
Proof.
move=> /C149_files [ds [s [A [L [-> _ eg eA [el eL]]]]]] /C149_files [ds' [s' [A' [L' [-> _ eg' eA' [el' eL']]]]]].
rewrite eg eg' => -[ed]; subst ds'.
have [_ /(_ _)] := load_fixed (Ok ds) (5%:R / 100%:R) (Posz 21) g g'; rewrite el el' => /(_ isT) [-> es].
have zL : size L = 23%N by have := congr1 size eL; rewrite size_cat !size_map.
have zL' : size L' = 23%N by have := congr1 size eL'; rewrite size_cat !size_map.
split=> //; rewrite !drop_size_cat //; move: eA; by rewrite es eA' => -[].
Qed.

(** C149: a run in which FEniCS is there and the data of the Poisson problem are not: figures 1 to 6,
    then FileNotFoundError; no table, no other figure, and no data where they are looked for. *)
Theorem C149_fenics_refuted sp rp ra seed disk g h g0 g1 g2 g3 fs ds :
  (if seed is Some q then reseed q else Ok g) = Ok g0 -> linear ""%string (Some sp) seed g0 = (g1, (fs, Ok tt)) ->
  get disk (paper_file sp) = None ->
  fenics (Posz 1000) (Posz 500) [:: - 4%:R; - 4%:R] [:: 0; 0] (0, 0) (1, 1) (- 3%:R) seed u g1 = (g2, Ok ds) ->
  (if seed is Some q then reseed q else Ok g2) = Ok g3 ->
  exists disk', paper true sp rp ra seed disk g h = ((g3, h, disk'), (map (@ALin R) fs, None, Err FileNotFoundError)) /\
    get disk' (paper_file sp) = None.
Proof.
move=> e0 el ed ef e3; have [disk' [e _ e']] := @C138_paper_fenics_refuted R D KW BW pdf nokw nobw uniform norm01 kde kde_pdf trunc
   pca_components svd_v G reseed randn rand H pyseed pysample curve tri closest field solve solve_gamma u sp rp seed disk g1 h g2 g3 ds ed ef e3.
by exists disk'; split=> //; rewrite /mud_paper /examples_group e0 el e /= cats0.
Qed.
(** C149: an exception leaves the figures finished before it. *)
Theorem C149_prefix fen sp rp ra seed disk g h st figs t e : paper fen sp rp ra seed disk g h = (st, (figs, t, Err e)) ->
  (t = None /\ (forall f, List.In f figs -> (exists x, f = ALin x) \/ (exists x, f = APois x))) \/
  (t <> None /\ (23 <= size figs < 32)%N /\ [seq any_file f | f <- take 23 figs] =
        [seq Some (in_dir (in_dir sp "figures") n) | n <- paper_names ++ [:: "response_surface"; "learned_qoi"]%string] ++
        [seq Some (in_dir sp n) | n <- [:: "solution_n5"; "solution_n50"; "solution_n500"]%string]).
Proof.
rewrite /mud_paper; case eg0: (examples_group _ _ _) => [g0|x]; last by case=> _ <- <- _; left.
have inL T (mk : T -> anypic R) (l : seq T) f : List.In f (map mk l) -> exists x, f = mk x.
  by elim: l => //= y l ih [<-|/ih]; first by exists y.
have inC (f : anypic R) l1 l2 : List.In f (l1 ++ l2) -> List.In f l1 \/ List.In f l2.
  by elim: l1 => [|y l1 ih] /=; [right | case=> [<-|/ih [?|?]]; [left; left | left; right | right]].
case el: (linear _ _ _ _) => [g1 [fs1 [[]|x]]]; last first.
  by case=> _ <- <- _; left; split=> // f /inL; left.
case ep: (poisson _ _ _ _ _ _ _) => [[[g2 h2] d2] [[f7 f9] [tb|x]]]; last first.
  case=> _ <- <- _; left; split=> // f.
  by move=> /inC [/inL|/inC [/inL|/inL]]; [left | right | right].
have [e7 e9] := poisson_files ep.
have e1 : linear_command "" (Some sp) seed g = (g1, (fs1, Ok tt)) by rewrite /mud_paper_linear /command eg0.
have {}e1 := C144_files e1.
case ea: (adcirc _ _ _ _) => [[g3 d3] [A r]] [_ <- <- er]; rewrite er in ea.
right; split=> //.
have c T (mk : T -> anypic R) F l : (forall x, any_file (mk x) = F x) -> [seq any_file f | f <- map mk l] = map F l.
  by move=> hm; rewrite -map_comp; apply: eq_map => x /=; rewrite hm.
have eL : [seq any_file f | f <- map (@ALin R) fs1 ++ map (@APois R) f7 ++ map (@APois R) f9] =
        [seq Some (in_dir (in_dir sp "figures") n) | n <- paper_names ++ [:: "response_surface"; "learned_qoi"]%string] ++
        [seq Some (in_dir sp n) | n <- [:: "solution_n5"; "solution_n50"; "solution_n500"]%string].
  by rewrite !map_cat (c _ _ (@pic_file R)) // !(c _ _ (@pf_file R)) // e1 e7 e9 -catA.
have zL := congr1 size eL; rewrite size_map in zL.
have zA : (size A < 9)%N.
  move: ea; rewrite /paper_adcirc; case: (match _ with Some _ => _ | None => _ end) => [d|x]; last by case=> _ _ <-.
  case: (load _ _ _ _ _) => ga [[ds s]|x]; last by case=> _ _ <-.
  by case=> _ _; rewrite C148_figures => /until_short.
by rewrite take_size_cat // size_cat zL size_cat !size_map; split=> //=; lia.
Qed.
End AllProps2.
