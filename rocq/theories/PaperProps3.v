(** Properties C144 and C145 continued: the comparison that is lost, the seed, the exceptions, and
    the commands that draw the same figures. *)
Set Warnings "-notation-overridden,-ambiguous-paths".
From Coq Require Import String ZArith.
From mathcomp Require Import all_ssreflect all_algebra.
From Verif Require Import Py Nd Xnum Spec LinAlg Dmx DmxProofs LgpModel LgpTheory LgpProofs LinProps UtilModel DensityModel BayesModel UtilModel2
  LinExamples PlotModel PlotProps3 DrawModel DrawProps2 DrawProps3 ContModel ContProps ContProps2 LinExModel LinExProps4 LinExProps5 LinExProps6 LinExProps7 LinExProps8 LinExProps9 PoisExModel SimpleModel CompModel CompProps2 CompProps3 LinFigModel
  LinFigProps CliModel PaperModel PaperProps PaperProps2.
Set Implicit Arguments. Unset Strict Implicit. Unset Printing Implicit Defensive.
Import Order.Theory GRing.Theory Num.Theory.
Local Open Scope ring_scope.

Section Props.
Variable R : rcfType.
Notation nd := (nd R).
Notation xnum := (xnum R).
Variables (expf : R -> R) (cpi : R) (K : Type) (kde : nd -> unit -> seq xnum -> res K) (kde_pdf : K -> nd -> res (seq xnum))
  (kde_at : K -> seq (seq R) -> res (seq R)) (trunc ln : R -> R).
Variable ns : seq R -> res (seq (seq R)).
Variables (G : Type) (reseed : int -> res G) (randn rand : nat -> G -> seq R * G).
Variables (svdvals : dmx R -> seq R) (svd : forall m n, 'M[R]_(m, n) -> svd_out R m n).
Notation figs := (@figure_pass R expf cpi K kde kde_pdf kde_at trunc ln).
Notation run := (@run_comparison_example R expf cpi K kde kde_pdf kde_at trunc ln).
Notation gen := (@comparison_gen R expf cpi K kde kde_pdf kde_at trunc ln G randn rand).
Notation paper := (@mud_paper_linear R expf cpi K kde kde_pdf kde_at trunc ln ns G reseed randn rand svdvals svd).
Notation stages := (@stages R G reseed).
Notation comp_stage := (@comp_stage R expf cpi K kde kde_pdf kde_at trunc ln G randn rand).
Notation cont_stage := (@cont_stage R ns G).
Notation wme_stage := (@wme_stage R G reseed randn rand svdvals).
Notation high_dim_stage := (@high_dim_stage R G reseed randn rand svd).
Notation pic := (pic R).

Notation comparison := (@comparison R expf cpi K kde kde_pdf kde_at trunc ln G reseed randn rand).
Notation contours := (@contours R ns G reseed).
Notation wme_covariance := (@wme_covariance R G reseed randn rand svdvals).
Notation high_dim_linear := (@high_dim_linear R G reseed randn rand svd).
Hypothesis rand_size : forall n g, size (rand n g).1 = n.
Hypothesis rand_unit : forall n g x, x \in (rand n g).1 -> 0 <= x < 1.
Hypothesis svd_size : forall m n (A : 'M[R]_(m, n)), size (sv_s (svd A)) = minn m n.

Lemma sumA_row : [seq sumA R 0 j | j <- enum 'I_2] = [:: 1; 1].
Proof.
have -> : enum 'I_2 = [:: ord0; @Ordinal 2 1 isT] by apply: (inj_map val_inj); rewrite val_enum_ord.
by rewrite /= !mxE.
Qed.

(** The comparison figure of the problem x + y = 1 with initial mean (1/4, 1/4), initial covariance C,
    variance s of the data, and these MUD and MAP points. *)
Definition shows_comparison (v : R * R) (C : 'M[R]_2) (s : R) (xmud xmap : 'cV[R]_2) (f : figure R) : Prop :=
  figure_shows (sumA R) 0 1%:M (pt2 (1 / 4%:R) (1 / 4%:R)) C s%:M 1 v xmud xmap (pt2 (1 / 2%:R) (1 / 2%:R)) "comparison" (f_art f).

(** What the contour stages do: no exception, nothing drawn from the generator. *)
Lemma cont_all d v g : ns [:: 1; 1] = Ok [:: [:: v.1; v.2]] -> exists fs f,
  [/\ cont_stage d "all" (no_overrides R) g = (g, ([seq PCont x | x <- fs ++ [:: f]], Ok tt)), size fs = 5%N &
      shows_comparison v (sym2 1 (- (1 / 4%:R)) (1 / 2%:R)) 1 (pt2 (5%:R / 8%:R) (3%:R / 8%:R)) (pt2 (7%:R / 16%:R) (5%:R / 16%:R)) f].
Proof.
rewrite -sumA_row => hn; have [p [ep [ip eS] [fA pC pS] [h1 h2 h3]]] := C130_default R.
have [fs [p' [content [xmud [xmap [xls [er [a1 a2 a3] _ [ea hc] _]]]]]]] :=
  C130_figures (Some (FigString "all")) (Some d) false ep ip eS fA pC pS ltr01 hn.
have sz : size fs = 6%N by rewrite -(size_map (fun f => f_art f)) ea size_map.
have {}hc := hc "comparison"%string (or_intror (or_intror (or_intror (or_intror (or_intror (or_introl erefl)))))).
case: fs er ea sz => [|b0 [|b1 [|b2 [|b3 [|b4 [|b5 []]]]]]] // er ea _.
exists [:: b0; b1; b2; b3; b4], b5; split=> //; first by rewrite /PaperModel.cont_stage er.
rewrite /shows_comparison -(answer_inj a1 h1) -(answer_inj a2 h2) -(answer_inj a3 h3).
by case: ea => _ _ _ _ _ ->.
Qed.
Lemma cont_five d v g : ns [:: 1; 1] = Ok [:: [:: v.1; v.2]] -> exists f,
  cont_stage d "comparison" (fig5_problem R) g = (g, ([:: PCont f], Ok tt)) /\
  shows_comparison v (sym2 1 (- (1 / 2%:R)) (1 / 2%:R)) (1 / 2%:R) (pt2 (3%:R / 4%:R) (1 / 4%:R)) (pt2 (1 / 2%:R) (1 / 4%:R)) f.
Proof.
rewrite -sumA_row => hn; have [p [ep [ip eS] [fA pC pS] [h1 h2 h3] hk]] := C130_paper R.
have [fs [p' [content [xmud [xmap [xls [er [a1 a2 a3] _ [ea hc] _]]]]]]] :=
  C130_figures (Some (FigString "comparison")) (Some d) false ep ip eS fA pC pS ltr01 hn.
rewrite hk in ea.
have {}hc := hc "comparison"%string (or_intror (or_intror (or_intror (or_intror (or_intror (or_introl erefl)))))).
case: fs er ea => [|f []] // er ea; exists f; split; first by rewrite /PaperModel.cont_stage er.
rewrite /shows_comparison -(answer_inj a1 h1) -(answer_inj a2 h2) -(answer_inj a3 h3).
by case: ea => ->.
Qed.

(** C144: the comparison of figure 3 (MUD point (5/8, 3/8), MAP point (7/16, 5/16)) is written first;
    then that of figure 5 (MUD point (3/4, 1/4), MAP point (1/2, 1/4)) to the same file, where it stays. *)
Theorem C144_overwritten cwd sp seed g g' fs disk v (f0 : pic) :
  ns [:: 1; 1] = Ok [:: [:: v.1; v.2]] -> paper cwd sp seed g = (g', (fs, Ok tt)) ->
  let name := in_dir (figures_dir cwd sp) "map_compare_contour.png" in
  exists f3 f5,
  [/\ nth f0 fs 13 = PCont f3 /\ f_saved f3 = Some name,
      shows_comparison v (sym2 1 (- (1 / 4%:R)) (1 / 2%:R)) 1 (pt2 (5%:R / 8%:R) (3%:R / 8%:R)) (pt2 (7%:R / 16%:R) (5%:R / 16%:R)) f3,
      nth f0 fs 15 = PCont f5 /\ f_saved f5 = Some name,
      shows_comparison v (sym2 1 (- (1 / 2%:R)) (1 / 2%:R)) (1 / 2%:R) (pt2 (3%:R / 4%:R) (1 / 4%:R)) (pt2 (1 / 2%:R) (1 / 4%:R)) f5 &
      get (save_all fs disk) name = Some (PCont f5)].
Proof.
move=> hn hp name; have [sz hd] := C144_disk disk f0 hp.
have hf i : (i < 18)%N -> pic_file (nth f0 fs i) = Some (in_dir (figures_dir cwd sp) (nth ""%string paper_names i)).
  by move=> hi; rewrite -(nth_map _ None) ?sz // (C144_files hp) (nth_map ""%string).
have [g0 [gs [p1 [p2 [p3 [p4 [p5 [p6 [efs _ [[g1 h1] [g2 h2] [g3 h3]] [[g4 h4] [g5 h5]] h6]]]]]]]]] := paper_ok hp.
have [l3 [f3 [e3 s3 m3]]] := cont_all (figures_dir cwd sp) (nth g0 gs 2) hn.
have [f5 [e5 m5]] := cont_five (figures_dir cwd sp) (nth g0 gs 4) hn.
move: h3; rewrite e3 => -[_ e3']; move: h5; rewrite e5 => -[_ e5'].
have z1 : size p1 = 2%N by rewrite -(size_map (@pic_file R)) (comp_files h1).
have z2 : size p2 = 6%N by rewrite -(size_map (@pic_file R)) (comp_files h2).
have z4 : size p4 = 1%N by rewrite -(size_map (@pic_file R)) (wme_files h4).
have n3 : nth f0 fs 13 = PCont f3.
  by rewrite efs -e3' map_cat -catA !nth_cat z1 z2 size_map s3.
have n5 : nth f0 fs 15 = PCont f5.
  by rewrite efs -e3' -e5' !nth_cat z1 z2 size_map size_cat s3 z4.
exists f3, f5; split=> //.
- by split=> //; have := hf 13%N isT; rewrite n3.
- by split=> //; have := hf 15%N isT; rewrite n5.
- by have := hd 15%N isT; rewrite n5.
Qed.

(** ** The seed *)
(** C144: with --seed nothing depends on the state the generator was in. *)
Theorem C144_seeded cwd sp q gq g g' : reseed q = Ok gq -> paper cwd sp (Some q) g = paper cwd sp (Some q) g'.
Proof. exact: C145_seeded. Qed.
Theorem C144_bad_seed cwd sp q e g : reseed q = Err e -> paper cwd sp (Some q) g = (g, ([::], Err e)).
Proof. exact: C145_bad_seed. Qed.

Lemma high_restarts d g g' g21 : reseed 21 = Ok g21 -> high_dim_stage d g = high_dim_stage d g'.
Proof.
by move=> hs; rewrite /PaperModel.high_dim_stage /high_dim_figures /run_high_dim_linear /random_linear_problem /LinExModel.seeded hs.
Qed.
Lemma sizes d (p1 p2 p3 p4 : seq pic) g1 g2 g3 g4 a1 a2 a3 a4 : (d =? "")%string = false -> (d =? ".")%string = false ->
  comp_stage d [:: Posz 1] g1 = (a1, (p1, Ok tt)) -> comp_stage d [:: Posz 5; Posz 10; Posz 20] g2 = (a2, (p2, Ok tt)) ->
  cont_stage d "all" (no_overrides R) g3 = (a3, (p3, Ok tt)) -> wme_stage d g4 = (a4, (p4, Ok tt)) ->
  [/\ size p1 = 2%N, size p2 = 6%N, size p3 = 6%N & size p4 = 1%N].
Proof.
move=> n1 n2 h1 h2 h3 h4; split.
- by rewrite -(size_map (@pic_file R)) (comp_files h1).
- by rewrite -(size_map (@pic_file R)) (comp_files h2).
- by have [_ e] := cont_files n1 n2 h3; rewrite -(size_map (@pic_file R)) e.
- by rewrite -(size_map (@pic_file R)) (wme_files h4).
Qed.
(** C144: without --seed, the contours, figure 6 and the state of the generator afterwards are the same
    in every run: figure 6 restarts the generator with 21. *)
Theorem C144_unseeded cwd sp g1 g2 g1' g2' fs1 fs2 g21 (f0 : pic) : reseed 21 = Ok g21 ->
  paper cwd sp None g1 = (g1', (fs1, Ok tt)) -> paper cwd sp None g2 = (g2', (fs2, Ok tt)) ->
  g1' = g2' /\ forall i, i \in [:: 8; 9; 10; 11; 12; 13; 15; 16; 17]%N -> nth f0 fs1 i = nth f0 fs2 i.
Proof.
move=> hs hp hq.
have [a0 [as_ [p1 [p2 [p3 [p4 [p5 [p6 [efs _ [[b1 h1] [b2 h2] [b3 h3]] [[b4 h4] [b5 h5]] h6]]]]]]]]] := paper_ok hp.
have [c0 [cs_ [q1 [q2 [q3 [q4 [q5 [q6 [eqs _ [[d1 k1] [d2 k2] [d3 k3]] [[d4 k4] [d5 k5]] k6]]]]]]]]] := paper_ok hq.
have [n1 n2] := in_dir_full (if sp is Some d then d else in_dir cwd "mud_paper"); rewrite -/(figures_dir cwd sp) in n1 n2.
have [z1 z2 z3 z4] := sizes n1 n2 h1 h2 h3 h4; have [y1 y2 y3 y4] := sizes n1 n2 k1 k2 k3 k4.
have E3 : p3 = q3 by move: h3 k3; rewrite /PaperModel.cont_stage => -[_ <-] _ [_ <-].
have E5 : p5 = q5 by move: h5 k5; rewrite /PaperModel.cont_stage => -[_ <-] _ [_ <-].
have [E6 E7] : g1' = g2' /\ p6 = q6.
  by move: h6; rewrite (high_restarts _ _ (nth c0 cs_ 5) hs) k6 => -[-> ->].
split=> // i; rewrite efs eqs -E3 -E5 -E7 !inE.
have zz : size p5 = 1%N by have [_ e] := cont_files n1 n2 h5; rewrite -(size_map (@pic_file R)) e.
by do ![case/orP]; move/eqP=> ->; rewrite !nth_cat z1 z2 z3 z4 y1 y2 y4 zz.
Qed.
Lemma seeded_again seed g g0 h : seeded reseed seed g = Ok g0 -> exists h', seeded reseed seed h = Ok h'.
Proof. by case: seed => [q|] /= e; [exists g0 | exists h]. Qed.
Lemma seeded_idem seed g g0 : seeded reseed seed g = Ok g0 -> seeded reseed seed g0 = Ok g0.
Proof. by case: seed => [q|] /= e. Qed.
Lemma wme_completes d g : exists g' fs, wme_stage d g = (g', (fs, Ok tt)).
Proof.
have s0 : (10%:R ^+ 14)^-1 < 1 / 10%:R :> R.
  by rewrite div1r ltf_pinv ?posrE ?exprn_gt0 ?ltr0n // ltr_eexpr // ltr1n.
have pos : all (fun N => 0 < N)%N [:: 10; 10 ^ 2; 10 ^ 3; 10 ^ 4]%N by vm_compute.
have [g' [p [Us [C [e _ _ _ _]]]]] :=
  @C112_covariances R G reseed randn rand rand_size rand_unit 20 5 (1 / 10%:R) [:: 10; 10 ^ 2; 10 ^ 3; 10 ^ 4]%N None g g
    erefl isT isT pos s0.
by do 2 eexists; rewrite /PaperModel.wme_stage /wme_covariance_figure e.
Qed.
Lemma high_completes d g g21 : reseed 21 = Ok g21 -> exists g' fs, high_dim_stage d g = (g', (fs, Ok tt)).
Proof.
move=> hs.
have [g' [de [re [f1 [f2 [_ e _ _ _]]]]]] :=
  @C143_figures R G reseed randn rand svd rand_size rand_unit svd_size 100 (Some (Posz 21)) (Some d) true g g21 isT hs.
by do 2 eexists; rewrite /PaperModel.high_dim_stage e.
Qed.
Lemma paperE cwd sp seed g g0 : seeded reseed seed g = Ok g0 ->
  let d := figures_dir cwd sp in
  paper cwd sp seed g = stages seed
    [:: comp_stage d [:: Posz 1]; comp_stage d [:: Posz 5; Posz 10; Posz 20];
        cont_stage d "all" (no_overrides R); wme_stage d; cont_stage d "comparison" (fig5_problem R); high_dim_stage d] g0.
Proof.
move=> h d; rewrite /mud_paper_linear /command; have -> : examples_group reseed seed g = Ok g0 by [].
rewrite /paper_linear in_dir_path (_ : (if sp is Some d then d else path_join cwd "mud_paper") = if sp is Some d then d else in_dir cwd "mud_paper") //.
by clear d; case: sp => [//|]; rewrite in_dir_path.
Qed.
Lemma stage_next seed s l g g0 g1 fs : seeded reseed seed g = Ok g0 -> s g0 = (g1, (fs, Ok tt)) ->
  stages seed (s :: l) g = ((stages seed l g1).1, (fs ++ (stages seed l g1).2.1, (stages seed l g1).2.2)).
Proof. by move=> h1 h2; cbn [PaperModel.stages]; rewrite h1 h2. Qed.

(** ** Exceptions *)
(** The run of figures 1 and 2. *)
Definition comparison_run (d : string) (Ns : seq int) :=
  gen 5 (Posz 1000) (25%:R / 100%:R) (1 / 10%:R) [:: -1; 1] true Ns (Some d) false.

(** C144: if neither of the two comparisons raises, nothing does. *)
Theorem C144_completes cwd sp seed g g0 g1 g2 g3 fs1 fs2 rs1 rs2 g21 v :
  let d := figures_dir cwd sp in
  seeded reseed seed g = Ok g0 -> reseed 21 = Ok g21 -> ns [:: 1; 1] = Ok [:: [:: v.1; v.2]] ->
  comparison_run d [:: Posz 1] g0 = (g1, (fs1, Ok rs1)) -> seeded reseed seed g1 = Ok g2 ->
  comparison_run d [:: Posz 5; Posz 10; Posz 20] g2 = (g3, (fs2, Ok rs2)) ->
  exists g' fs3, paper cwd sp seed g = (g', (map (@PComp R) fs1 ++ map (@PComp R) fs2 ++ fs3, Ok tt)).
Proof.
move=> d hs hr hn c1 h1 c2; rewrite (paperE _ _ hs) -/d.
have C Ns x y cs rs : comparison_run d Ns x = (y, (cs, Ok rs)) -> comp_stage d Ns x = (y, (map (@PComp R) cs, Ok tt)).
  by rewrite /comparison_run /PaperModel.comp_stage => ->.
rewrite (stage_next _ (seeded_idem hs) (C _ _ _ _ _ c1)) (stage_next _ h1 (C _ _ _ _ _ c2)).
have [k3 s3] := seeded_again g3 hs; have [l3 [f3 [e3 _ _]]] := cont_all d k3 hn; rewrite (stage_next _ s3 e3).
have [k4 s4] := seeded_again k3 hs; have [m4 [l4 e4]] := wme_completes d k4; rewrite (stage_next _ s4 e4).
have [k5 s5] := seeded_again m4 hs; have [f5 [e5 _]] := cont_five d k5 hn; rewrite (stage_next _ s5 e5).
have [k6 s6] := seeded_again k5 hs; have [m6 [l6 e6]] := high_completes d k6 hr; rewrite (stage_next _ s6 e6).
by do 2 eexists; cbn [fst snd PaperModel.stages]; reflexivity.
Qed.
(** C144: an exception in a comparison ends the command; the figures before it are saved (C141). *)
Theorem C144_stops cwd sp seed g g0 e :
  let d := figures_dir cwd sp in seeded reseed seed g = Ok g0 ->
  (forall g1 fs1, comparison_run d [:: Posz 1] g0 = (g1, (fs1, Err e)) ->
     paper cwd sp seed g = (g1, (map (@PComp R) fs1, Err e))) /\
  (forall g1 g2 g3 fs1 fs2 rs1, comparison_run d [:: Posz 1] g0 = (g1, (fs1, Ok rs1)) -> seeded reseed seed g1 = Ok g2 ->
     comparison_run d [:: Posz 5; Posz 10; Posz 20] g2 = (g3, (fs2, Err e)) ->
     paper cwd sp seed g = (g3, (map (@PComp R) fs1 ++ map (@PComp R) fs2, Err e))).
Proof.
move=> d hs; rewrite (paperE _ _ hs) -/d; split=> [g1 fs1 c1|g1 g2 g3 fs1 fs2 rs1 c1 h1 c2].
  by cbn [PaperModel.stages]; rewrite (seeded_idem hs) /PaperModel.comp_stage; rewrite /comparison_run in c1; rewrite c1.
have C1 : comp_stage d [:: Posz 1] g0 = (g1, (map (@PComp R) fs1, Ok tt)) by rewrite /PaperModel.comp_stage; rewrite /comparison_run in c1; rewrite c1.
rewrite (stage_next _ (seeded_idem hs) C1).
have C2 : comp_stage d [:: Posz 5; Posz 10; Posz 20] g2 = (g3, (map (@PComp R) fs2, Err e)).
  by rewrite /PaperModel.comp_stage; rewrite /comparison_run in c2; rewrite c2.
by cbn [PaperModel.stages]; rewrite h1 C2.
Qed.

Lemma comp_head d N Ns g g' l : 0 <= N -> comp_stage d (N :: Ns) g = (g', (l, Ok tt)) ->
  let u := nth 0 (rand 1000 g).1 in
  let z := if N == 1 then fun _ => 0 else nth 0 (randn (absz N) (rand 1000 g).2).1 in
  take 2 l = map (@PComp R) (figs 5 (Posz 1000) (25%:R / 100%:R) (1 / 10%:R) [:: -1; 1] true N u z (Some d) false).1.
Proof.
move=> hN H u z.
have s0 : 1 / 10%:R != 0 :> R by rewrite div1r invr_eq0 pnatr_eq0.
have P : pass_draws randn rand (Posz 1000) (1 / 10%:R) [:: -1; 1] N g = ((u, z), after_pass randn rand 1000 N g).
  rewrite /u /z /pass_draws [size _ == _]/= (negbTE s0) orbF /after_pass; case: (rand 1000 g) => a b; cbn [fst snd].
  by case: N hN {H z} => // m _; rewrite ?absz_nat; case: (randn m b) => a' b'; rewrite eqxx; case: eqP.
move: H; rewrite /PaperModel.comp_stage.
have -> : gen 5 (Posz 1000) (25%:R / 100%:R) (1 / 10%:R) [:: -1; 1] true (N :: Ns) (Some d) false g =
  match figs 5 (Posz 1000) (25%:R / 100%:R) (1 / 10%:R) [:: -1; 1] true N u z (Some d) false with
  | (fs, Err e) => (after_pass randn rand 1000 N g, (fs, Err e))
  | (fs, Ok r) => let t := gen 5 (Posz 1000) (25%:R / 100%:R) (1 / 10%:R) [:: -1; 1] true Ns (Some d) false (after_pass randn rand 1000 N g) in
      (t.1, (fs ++ t.2.1, rmap (cons r) t.2.2))
  end by cbn [comparison_gen]; rewrite P.
have := @pass_files R expf cpi K kde kde_pdf kde_at trunc ln 5 (Posz 1000) (25%:R / 100%:R) (1 / 10%:R) [:: -1; 1] true N u z d false.
case: (figs _ _ _ _ _ _ _ _ _ _ _) => cs [r|e] F; cbn [fst snd rmap rbind]; last by move=> [].
have {F} sc : size cs = 2%N by rewrite -(size_map (fun f => cf_file f)) (F _ _ erefl).
case=> _ <- _; by rewrite map_cat take_cat size_map sc ltnn subnn seq.take0 cats0.
Qed.
(** C144: with --seed the two comparisons start from the same state: the samples of figure 1 are those
    of the first pass of figure 2 (N = 5). *)
Theorem C144_same_samples cwd sp q gq g g' fs : reseed q = Ok gq -> paper cwd sp (Some q) g = (g', (fs, Ok tt)) ->
  let d := figures_dir cwd sp in
  let u := nth 0 (rand 1000 gq).1 in
  let z := nth 0 (randn 5 (rand 1000 gq).2).1 in
  let pass N z := (figs 5 (Posz 1000) (25%:R / 100%:R) (1 / 10%:R) [:: -1; 1] true N u z (Some d) false).1 in
  take 2 fs = map (@PComp R) (pass 1 (fun _ => 0)) /\ take 2 (drop 2 fs) = map (@PComp R) (pass 5 z).
Proof.
move=> hr hp d u z pass.
have [g0 [gs [p1 [p2 [p3 [p4 [p5 [p6 [-> hg [[g1 h1] [g2 h2] _] _ _]]]]]]]]] := paper_ok hp.
have e0 : nth g0 gs 0 = gq by have [h /=] := hg 0%N isT; rewrite hr => -[].
have e1 : nth g0 gs 1 = gq by have [h /=] := hg 1%N isT; rewrite hr => -[].
rewrite e0 -/d in h1; rewrite e1 -/d in h2.
have z1 : size p1 = 2%N by rewrite -(size_map (@pic_file R)) (comp_files h1).
have z2 : size p2 = 6%N by rewrite -(size_map (@pic_file R)) (comp_files h2).
rewrite take_cat drop_cat z1 ltnn subnn seq.take0 drop0 cats0 take_cat z2 [(2 < 6)%N]/=; split.
- by rewrite -(comp_head _ h1) // take_oversize // z1.
- by rewrite (comp_head _ h2).
Qed.

(** ** The same figures from the commands *)
Definition closed (f : lfig R) : lfig R :=
  LFig (lf_art f) (lf_logy f) (lf_ylim f) (lf_ticks f) (lf_legend f) (lf_file f) true.
Lemma draw_same (l : seq (string * string * drawing R)) sel sel' sp cl p :
  (forall k, List.In k [seq x.1.1 | x <- l] -> fig_in k sel || fig_in "all" sel = fig_in k sel' || fig_in "all" sel') ->
  draw_figures sel sp cl l p = draw_figures sel' sp cl l p.
Proof.
elim: l p => [//|[[k n] dr] l ih] p h; cbn [draw_figures]; rewrite (h k (or_introl erefl)).
have {}ih p' := ih p' (fun k' hk => h k' (or_intror hk)).
by case: (fig_in k sel' || _) => //; case: (dr p) => p' [a|e] //; rewrite ih.
Qed.
Lemma contours_same t names sp cl kw :
  (forall k, List.In k keys -> asked (Some (FigString t)) k = asked (Some (FigNames names)) k) ->
  run_contours ns (Some (FigString t)) sp cl kw = run_contours ns (Some (FigNames names)) sp cl kw.
Proof.
move=> h; rewrite /run_contours; case: (contour_problem kw) => // p0.
case: (solve p0 "mud" None) => p1 [v1|//]; case: (solve p1 "map" None) => p2 [v2|//]; case: (solve p2 "ls" None) => p3 [v3|//].
by apply: draw_same => k hk; apply: (h k).
Qed.

(** C145: figures 1 to 6 of [mud_paper --seed q] are those of the commands with the same seed, in the same
    directory, except that figure 6 is always that of [high_dim_linear --seed 21] (and is closed). *)
Theorem C145_paper cwd sp q gq g21 g g' fs h : reseed q = Ok gq -> reseed 21 = Ok g21 ->
  paper cwd sp (Some q) g = (g', (fs, Ok tt)) ->
  let d := Some (figures_dir cwd sp) in
  let comp Ns := (comparison (Some q) d 5 (Posz 1000) (25%:R / 100%:R) (1 / 10%:R) [:: Negz 0; Posz 1] Ns h).2 in
  let cont file names := (contours (Some q) d file names h).2 in
  let wme := (wme_covariance (Some q) d 20 5 (1 / 10%:R) [:: 10; 100; 1000; 10 * 1000]%N h).2 in
  let high := (high_dim_linear (Some (Posz 21)) d 100 100 h).2 in
  let A := comp [:: Posz 1] in let B := comp [:: Posz 5; Posz 10; Posz 20] in
  let C := cont None [:: "all"%string] in let E := cont (Some (paper_overrides R)) [:: "comparison"%string] in
  fs = map (@PComp R) A.1 ++ map (@PComp R) B.1 ++ map (@PCont R) C.1 ++ map (@PLin R) wme.1 ++ map (@PCont R) E.1 ++
       map (@PLin R) (map closed high.1) /\
  [/\ A.2 = Ok tt, B.2 = Ok tt, C.2 = Ok tt, wme.2 = Ok tt & E.2 = Ok tt /\ high.2 = Ok tt].
Proof.
move=> hr h21 hp d.
have [g0 [gs [p1 [p2 [p3 [p4 [p5 [p6 [-> hg [[g1 h1] [g2 h2] [g3 h3]] [[g4 h4] [g5 h5]] h6]]]]]]]]] := paper_ok hp.
have eg i : (i < 6)%N -> nth g0 gs i = gq by move=> hi; have [x /=] := hg i hi; rewrite hr => -[].
have domE : [seq x%:~R | x <- [:: Negz 0; Posz 1]] = [:: -1; 1 : R] by [].
have compE Ns gi gj l : comp_stage (figures_dir cwd sp) Ns gi = (gj, (l, Ok tt)) -> gi = gq ->
  let t := (comparison (Some q) d 5 (Posz 1000) (25%:R / 100%:R) (1 / 10%:R) [:: Negz 0; Posz 1] Ns h).2 in
  map (@PComp R) t.1 = l /\ t.2 = Ok tt.
  move=> + ei; rewrite ei /PaperModel.comparison (commandS _ _ hr) domE /PaperModel.comp_stage -/d; cbn [fst snd].
  by case: (gen _ _ _ _ _ _ _ _ _ _) => x [y z]; cbn [fst snd] => -[_ -> ->].
have [a1 a2] := compE _ _ _ _ h1 (eg 0%N isT).
have [b1 b2] := compE _ _ _ _ h2 (eg 1%N isT).
have contE t names kw o gi gj l : odflt (no_overrides R) o = kw ->
  (forall k, List.In k keys -> asked (Some (FigString t)) k = asked (Some (FigNames names)) k) ->
  cont_stage (figures_dir cwd sp) t kw gi = (gj, (l, Ok tt)) ->
  let t := (contours (Some q) d o names h).2 in map (@PCont R) t.1 = l /\ t.2 = Ok tt.
  move=> ek hk; rewrite /PaperModel.cont_stage (contours_same _ _ _ hk) -/d.
  by rewrite /PaperModel.contours (commandS _ _ hr) ek; cbn [fst snd] => -[_ -> ->].
have [c1 c2] : let t := (contours (Some q) d None [:: "all"%string] h).2 in map (@PCont R) t.1 = p3 /\ t.2 = Ok tt.
  by apply: (contE "all"%string _ _ None _ _ _ erefl _ h3) => k; do 6 (case=> [<- //|]).
have [e1 e2] : let t := (contours (Some q) d (Some (paper_overrides R)) [:: "comparison"%string] h).2 in map (@PCont R) t.1 = p5 /\ t.2 = Ok tt.
  by apply: (contE "comparison"%string _ _ (Some (paper_overrides R)) _ _ _ erefl _ h5) => k; do 6 (case=> [<- //|]).
have [w1 w2] : let t := (wme_covariance (Some q) d 20 5 (1 / 10%:R) [:: 10; 100; 1000; 10 * 1000]%N h).2 in map (@PLin R) t.1 = p4 /\ t.2 = Ok tt.
  have eN : [:: 10; 100; 1000; 10 * 1000]%N = [:: 10; 10 ^ 2; 10 ^ 3; 10 ^ 4]%N by vm_compute.
  move: h4; rewrite (eg 3%N isT) eN /PaperModel.wme_stage /PaperModel.wme_covariance (commandS _ _ hr) -/d.
  have -> : wme_covariance_figure svdvals reseed randn rand 20 5 (1 / 10%:R) [:: 10; 10 ^ 2; 10 ^ 3; 10 ^ 4]%N (Some q) d false gq =
            wme_covariance_figure svdvals reseed randn rand 20 5 (1 / 10%:R) [:: 10; 10 ^ 2; 10 ^ 3; 10 ^ 4]%N None d false gq.
    by rewrite /wme_covariance_figure /run_wme_covariance /LinExModel.seeded hr.
  by case: (wme_covariance_figure _ _ _ _ _ _ _ _ _ _ _ _) => x [[y z]|e]; cbn [fst snd] => -[] // _ <-.
have [k1 k2] : let t := (high_dim_linear (Some (Posz 21)) d 100 100 h).2 in map (@PLin R) (map closed t.1) = p6 /\ t.2 = Ok tt.
  move: h6; rewrite (high_restarts _ _ g21 h21) /PaperModel.high_dim_stage /PaperModel.high_dim_linear (commandS _ _ h21) -/d.
  rewrite /high_dim_figures.
  by case: (run_high_dim_linear _ _ _ _ _ _ _ _) => x [[y z]|e]; cbn [fst snd] => -[] // _ <-.
cbv beta zeta; by rewrite a1 a2 b1 b2 c1 c2 e1 e2 w1 w2 k1 k2.
Qed.
End Props.
