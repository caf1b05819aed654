(** Property C144: figures 1 to 6 of mud_paper: the files written, what is left of them, the part of
    the seed, and the exceptions. *)
Set Warnings "-notation-overridden,-ambiguous-paths".
From Coq Require Import String ZArith.
From mathcomp Require Import all_ssreflect all_algebra.
From Verif Require Import Py Nd Xnum Spec LinAlg Dmx DmxProofs LgpModel LgpTheory LgpProofs LinProps UtilModel DensityModel BayesModel UtilModel2
  LinExamples PlotModel PlotProps3 DrawModel DrawProps2 DrawProps3 ContModel ContProps ContProps2 LinExModel LinExProps4 LinExProps7 PoisExModel SimpleModel CompModel CompProps2 CompProps3 LinFigModel
  LinFigProps CliModel PaperModel PaperProps.
Set Implicit Arguments. Unset Strict Implicit. Unset Printing Implicit Defensive.
Import Order.Theory GRing.Theory Num.Theory.
Local Open Scope ring_scope.

(** The names of the files, in the order they are written. *)
Definition paper_names : seq string :=
  [:: "bip-vs-sip-1.png"; "bip-vs-sip-pf-1.png";
      "bip-vs-sip-5.png"; "bip-vs-sip-pf-5.png"; "bip-vs-sip-10.png"; "bip-vs-sip-pf-10.png"; "bip-vs-sip-20.png"; "bip-vs-sip-pf-20.png";
      "data_mismatch_contour.png"; "tikhonov_contour.png"; "consistent_contour.png"; "classical_solution.png";
      "consistent_solution.png"; "map_compare_contour.png";
      "lin-meas-cov-sd-convergence.png"; "map_compare_contour.png";
      "lin-dim-cov-convergence.png"; "lin-rank-cov-convergence.png"]%string.
(** The directory the figures are saved in. *)
Definition figures_dir (cwd : string) (save_path : option string) : string :=
  in_dir (if save_path is Some d then d else in_dir cwd "mud_paper") "figures".

Lemma in_dir_eqb d a b : (in_dir d a =? in_dir d b)%string = (a =? b)%string.
Proof.
have C (s t u : string) : (s ++ t =? s ++ u)%string = (t =? u)%string by elim: s => //= c s ->; rewrite Ascii.eqb_refl.
by rewrite /in_dir; case: (d =? "")%string => //; case: (d =? ".")%string => //; rewrite C /= .
Qed.
Lemma in_dir_path d n : path_join d n = in_dir d n.
Proof. by rewrite /path_join /in_dir; case: (d =? "")%string; case: (d =? ".")%string. Qed.
Lemma str_eqb_refl (a : string) : (a =? a)%string.
Proof. exact: String.eqb_refl. Qed.
Lemma in_dir_full d : let s := in_dir d "figures" in (s =? "")%string = false /\ (s =? ".")%string = false.
Proof.
have C (s : string) : (s ++ "/figures" =? "")%string = false /\ (s ++ "/figures" =? ".")%string = false.
  by case: s => [|c [|c' s]] //=; split=> //; case: (Ascii.eqb _ _).
by rewrite /in_dir; case: (d =? "")%string => //; case: (d =? ".")%string => //; exact: C.
Qed.

Section Props.
Variable R : rcfType.
Notation nd := (nd R).
Notation xnum := (xnum R).
Variables (expf : R -> R) (cpi : R) (K : Type) (kde : nd -> unit -> seq xnum -> res K) (kde_pdf : K -> nd -> res (seq xnum))
  (kde_at : K -> seq (seq R) -> res (seq R)) (trunc ln : R -> R).
Variable ns : seq R -> res (seq (seq R)).
Variables (G : Type) (reseed : int -> res G) (randn rand : nat -> G -> seq R * G).
Variables (svdvals : dmx R -> seq R) (svd : forall m n, 'M[R]_(m, n) -> svd_out R m n).
Notation figs := (@figure_pass R expf cpi K kde kde_pdf kde_at trunc ln).
Notation run := (@run_comparison_example R expf cpi K kde kde_pdf kde_at trunc ln).
Notation gen := (@comparison_gen R expf cpi K kde kde_pdf kde_at trunc ln G randn rand).
Notation paper := (@mud_paper_linear R expf cpi K kde kde_pdf kde_at trunc ln ns G reseed randn rand svdvals svd).
Notation stages := (@stages R G reseed).
Notation comp_stage := (@comp_stage R expf cpi K kde kde_pdf kde_at trunc ln G randn rand).
Notation cont_stage := (@cont_stage R ns G).
Notation wme_stage := (@wme_stage R G reseed randn rand svdvals).
Notation high_dim_stage := (@high_dim_stage R G reseed randn rand svd).
Notation pic := (pic R).

(** ** Proof: the stages one after the other *)
Lemma stages_ok seed s l g g' fs : stages seed (s :: l) g = (g', (fs, Ok tt)) ->
  exists g0 g1 fs1 fs2, [/\ seeded reseed seed g = Ok g0, s g0 = (g1, (fs1, Ok tt)),
    stages seed l g1 = (g', (fs2, Ok tt)) & fs = fs1 ++ fs2].
Proof.
cbn [PaperModel.stages]; case: (seeded reseed seed g) => [g0|e] //.
case es: (s g0) => [g1 [fs1 [[]|e]]] // ; case el: (stages seed l g1) => [g2 [fs2 [[]|e]]]; cbn [fst snd] => -[] //.
by move=> <- <-; exists g0, g1, fs1, fs2.
Qed.
Lemma stages_nil seed g g' fs : stages seed [::] g = (g', (fs, Ok tt)) -> g' = g /\ fs = [::].
Proof. by case=> <- <-. Qed.

Lemma pass_files p n mu sigma dom dint N u z d cl fs r :
  figs p n mu sigma dom dint N u z (Some d) cl = (fs, Ok r) ->
  [seq cf_file f | f <- fs] = [:: Some (in_dir d (fig_name false N)); Some (in_dir d (fig_name true N))].
Proof.
move=> E; have := @C141_pass R expf cpi K kde kde_pdf kde_at trunc ln p n mu sigma dom dint N u z (Some d) cl; rewrite E => -[sz _].
have := @C141_saved R expf cpi K kde kde_pdf kde_at trunc ln p n mu sigma dom dint N u z (Some d) cl; rewrite E /= sz.
by case: fs sz {E} => [|a [|b []]] // _ h; have [/= -> _] := h 0%N a isT; have [/= -> _] := h 1%N a isT.
Qed.
Lemma comp_files d Ns g g' fs : comp_stage d Ns g = (g', (fs, Ok tt)) ->
  [seq pic_file f | f <- fs] = flatten [seq [:: Some (in_dir d (fig_name false N)); Some (in_dir d (fig_name true N))] | N <- Ns].
Proof.
rewrite /PaperModel.comp_stage; elim: Ns g g' fs => [|N Ns ih] g g' fs; first by case=> _ <-.
cbn [comparison_gen map flatten cat]; case: (pass_draws _ _ _ _ _ _ _) => [[u z] g1].
case E : (figs _ _ _ _ _ _ _ _ _ _ _) => [fs1 [r|e]]; last by move=> [].
have {}ih := ih g1; case: (gen _ _ _ _ _ _ _ _ _ _) ih => g2 [cs [rs|e]] ih; last by move=> [].
have {}ih := ih g2 (map (@PComp R) cs) erefl; cbn [fst snd rmap rbind] => -[_ <-].
by rewrite map_cat map_cat ih -map_comp /= (pass_files E).
Qed.
Lemma cont_files d sel kw g g' fs : (d =? "")%string = false -> (d =? ".")%string = false ->
  cont_stage d sel kw g = (g', (fs, Ok tt)) ->
  g' = g /\ [seq pic_file f | f <- fs] = [seq Some (in_dir d (file_of k)) | k <- filter (asked (Some (FigString sel))) keys].
Proof.
move=> h1 h2; rewrite /PaperModel.cont_stage /run_contours.
case: (contour_problem kw) => [p0|e]; last by move=> [].
case: (solve p0 "mud" None) => p1 [v1|e]; last by move=> [].
case: (solve p1 "map" None) => p2 [v2|e]; last by move=> [].
case: (solve p2 "ls" None) => p3 [v3|e]; last by move=> [].
have I n : in_dir d n = (d ++ "/" ++ n)%string by rewrite /in_dir h1 h2.
have main (l : seq (string * string * drawing R)) p : let t := draw_figures (FigString sel) (Some d) false l p in
  (if t.2 is Ok _ then True else False) ->
  [seq f_saved f | f <- t.1] = [seq Some (in_dir d x.1.2) | x <- filter (fun x => asked (Some (FigString sel)) x.1.1) l].
  elim: l p => [//|[[k n] dr] l ih] p; cbn [draw_figures filter fst snd asked].
  case: (fig_in k _ || _); last exact: ih.
  case: (dr p) => p' [a|e] //; have := ih p'; case: (draw_figures _ _ _ _ _) => fs' [p4|e] //= -> //.
  by rewrite h1 h2 I.
have {main} := main (contour_figures ns) p3.
cbn [odflt oapp]; case: (draw_figures _ _ _ _ _) => fs' [p4|e]; cbn [fst snd rbind]; last by move=> _ [].
move=> h [<- <-]; split=> //; rewrite -map_comp; transitivity [seq f_saved f | f <- fs'] => //; rewrite h //.
have -> : contour_figures ns = [seq (k, file_of k, call_of ns k) | k <- keys] by [].
by rewrite filter_map -map_comp.
Qed.
Lemma wme_files d g g' fs : wme_stage d g = (g', (fs, Ok tt)) ->
  [seq pic_file f | f <- fs] = [:: Some (in_dir d "lin-meas-cov-sd-convergence.png")].
Proof.
rewrite /PaperModel.wme_stage /wme_covariance_figure; case: (run_wme_covariance _ _ _ _ _ _ _ _ _) => g1 [[p Us]|e] //=.
by case=> _ <- /=; rewrite in_dir_path.
Qed.
Lemma high_files d g g' fs : high_dim_stage d g = (g', (fs, Ok tt)) ->
  [seq pic_file f | f <- fs] = [:: Some (in_dir d "lin-dim-cov-convergence.png"); Some (in_dir d "lin-rank-cov-convergence.png")].
Proof.
rewrite /PaperModel.high_dim_stage /high_dim_figures; case: (run_high_dim_linear _ _ _ _ _ _ _ _) => g1 [[de re]|e] //=.
by case=> _ <- /=; rewrite !in_dir_path.
Qed.

(** The figures of the six runs, in order. *)
Lemma paper_ok cwd sp seed g g' fs : paper cwd sp seed g = (g', (fs, Ok tt)) ->
  let d := figures_dir cwd sp in
  exists g0 gs f1 f2 f3, exists f4 f5 f6, [/\ fs = f1 ++ f2 ++ f3 ++ f4 ++ f5 ++ f6,
    forall i, (i < 6)%N -> exists h, seeded reseed seed h = Ok (nth g0 gs i),
    [/\ exists g1, comp_stage d [:: Posz 1] (nth g0 gs 0) = (g1, (f1, Ok tt)),
        exists g1, comp_stage d [:: Posz 5; Posz 10; Posz 20] (nth g0 gs 1) = (g1, (f2, Ok tt)) &
        exists g1, cont_stage d "all" (no_overrides R) (nth g0 gs 2) = (g1, (f3, Ok tt))],
    (exists g1, wme_stage d (nth g0 gs 3) = (g1, (f4, Ok tt))) /\
    (exists g1, cont_stage d "comparison" (fig5_problem R) (nth g0 gs 4) = (g1, (f5, Ok tt))) &
    high_dim_stage d (nth g0 gs 5) = (g', (f6, Ok tt))].
Proof.
rewrite /mud_paper_linear /command; case: (examples_group reseed seed g) => [g0|e] //; rewrite /paper_linear.
rewrite in_dir_path (_ : (if sp is Some d then d else path_join cwd "mud_paper") = if sp is Some d then d else in_dir cwd "mud_paper"); last first.
  by case: sp => [//|]; rewrite in_dir_path.
rewrite -/(figures_dir cwd sp).
move=> /stages_ok [a0 [a1 [f1 [r1 [ea sa k1 ->]]]]]; move: k1.
move=> /stages_ok [b0 [b1 [f2 [r2 [eb sb k2 ->]]]]]; move: k2.
move=> /stages_ok [c0 [c1 [f3 [r3 [ec sc k3 ->]]]]]; move: k3.
move=> /stages_ok [d0 [d1 [f4 [r4 [ed sd k4 ->]]]]]; move: k4.
move=> /stages_ok [e0 [e1 [f5 [r5 [ee se k5 ->]]]]]; move: k5.
move=> /stages_ok [h0 [h1 [f6 [r6 [eh sh k6 ->]]]]]; move: k6.
move=> /stages_nil [-> ->].
exists g0, [:: a0; b0; c0; d0; e0; h0], f1, f2, f3, f4, f5, f6; split.
- by rewrite cats0.
- by case=> [|[|[|[|[|[|//]]]]]] _ /=; eexists; eauto.
- by split; eexists; eauto.
- by split; eexists; eauto.
- exact: sh.
Qed.

(** C144: when mud_paper gets past figure 6, exactly these files have been written, in this order. *)
Theorem C144_files cwd sp seed g g' fs : paper cwd sp seed g = (g', (fs, Ok tt)) ->
  [seq pic_file f | f <- fs] = [seq Some (in_dir (figures_dir cwd sp) n) | n <- paper_names].
Proof.
move=> /paper_ok [g0 [gs [f1 [f2 [f3 [f4 [f5 [f6 [-> _ [[g1 h1] [g2 h2] [g3 h3]] [[g4 h4] [g5 h5]] h6]]]]]]]]].
have [n1 n2] := in_dir_full (if sp is Some d then d else in_dir cwd "mud_paper"); rewrite -/(figures_dir cwd sp) in n1 n2.
have [_ c3] := cont_files n1 n2 h3; have [_ c5] := cont_files n1 n2 h5.
by rewrite !map_cat (comp_files h1) (comp_files h2) c3 (wme_files h4) c5 (high_files h6).
Qed.

Lemma get_put T (d : dict T) a v k : get (put d a v) k = if (k =? a)%string then Some v else get d k.
Proof. by []. Qed.
Lemma save_last (fs : seq pic) disk k : (forall f, List.In f fs -> pic_file f <> Some k) -> get (save_all fs disk) k = get disk k.
Proof.
elim: fs disk => [//|f fs ih] disk h; cbn [save_all]; rewrite ih; last by move=> f' h'; apply: h; right.
case e: (pic_file f) => [n|] //; rewrite get_put; case: String.eqb_spec => // ek.
by case: (h f (or_introl erefl)); rewrite e ek.
Qed.
Lemma save_get fs disk (f0 : pic) i k : (i < size fs)%N -> pic_file (nth f0 fs i) = Some k ->
  (forall j, (i < j < size fs)%N -> pic_file (nth f0 fs j) <> Some k) ->
  get (save_all fs disk) k = Some (nth f0 fs i).
Proof.
elim: fs disk i => [//|f fs ih] disk [|i] hi ek hj; cbn [save_all]; last first.
  by apply: ih => // j hj'; apply: (hj j.+1).
rewrite /= in ek *; rewrite ek save_last ?get_put ?String.eqb_refl // => f' /(@List.In_nth _ _ _ f0) [j [lj ej]].
have lnl (l : seq pic) : List.length l = size l by elim: l => //= a l ->.
have nn (l : seq pic) m : List.nth m l f0 = nth f0 l m by elim: l m => [|a l ihl] [|m] //=.
rewrite -ej nn; apply: (hj j.+1); rewrite /= ltnS; apply/ssrnat.ltP; by rewrite -lnl.
Qed.

(** C144: of the 18 figures written, 17 are on the disk afterwards: every one but the comparison of
    figure 3, whose file holds the comparison of figure 5. *)
Theorem C144_disk cwd sp seed g g' fs disk (f0 : pic) : paper cwd sp seed g = (g', (fs, Ok tt)) ->
  size fs = 18%N /\
  forall i, (i < 18)%N ->
    get (save_all fs disk) (in_dir (figures_dir cwd sp) (nth ""%string paper_names i)) = Some (nth f0 fs (if i == 13%N then 15%N else i)).
Proof.
move=> /C144_files h; have sz : size fs = 18%N by rewrite -(size_map (@pic_file R)) h.
split=> // i hi.
have F j : (j < 18)%N -> pic_file (nth f0 fs j) = Some (in_dir (figures_dir cwd sp) (nth ""%string paper_names j)).
  by move=> hj; rewrite -(nth_map _ None) ?sz // h (nth_map ""%string).
have D i' j : (i' < j < 18)%N -> i' != 13%N -> nth ""%string paper_names i' <> nth ""%string paper_names j.
  have : all (fun a => all (fun b => (a < b)%N ==> (a != 13%N) ==> ~~ (nth ""%string paper_names a =? nth ""%string paper_names b)%string) (iota 0 18)) (iota 0 18).
    by vm_compute.
  move=> /allP H /andP [l1 l2] n13 e.
  have /H /allP/(_ j) : i' \in iota 0 18 by rewrite mem_iota add0n (ltn_trans l1 l2).
  by rewrite mem_iota add0n l2 => /(_ isT); rewrite l1 n13 e String.eqb_refl.
have I a b : in_dir (figures_dir cwd sp) a = in_dir (figures_dir cwd sp) b -> a = b.
  by move=> e; apply/String.eqb_eq; rewrite -(in_dir_eqb (figures_dir cwd sp)) e String.eqb_refl.
case: eqP => [->|/eqP n13].
  apply: (@save_get fs disk f0 15); rewrite ?sz ?F //.
  by move=> j /andP [l1 l2]; rewrite F // => -[] /I e; apply: (@D 15%N j _ isT (esym e)); rewrite l1.
apply: (@save_get fs disk f0 i); rewrite ?sz ?F //.
by move=> j /andP [l1 l2]; rewrite F // => -[] /I e; apply: (@D i j _ n13 (esym e)); rewrite l1.
Qed.
End Props.
