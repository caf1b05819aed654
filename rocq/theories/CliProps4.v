(** Property C138 continued: what mud_paper draws and prints in its figures 7 to 9. *)
Set Warnings "-notation-overridden,-ambiguous-paths".
From Coq Require Import String ZArith.
From mathcomp Require Import all_ssreflect all_algebra.
From mathcomp Require Import zify.
From Verif Require Import Py Nd Xnum XnumProofs UtilModel DensityModel NdProofs DensityProps3 UtilModel2 UtilProps
  StModel StProps StProps2 StProps3 StProps4 StProps5 DrawModel DrawProps DrawProps3 ContModel PoisModel StExModel StExProps
  PoisExModel PoisExProps PoisExProps2 PoisExProps3 AdcModel AdcProps AdcProps2 AdcProps3 AdcProps4 CliModel CliProps CliProps3.
Set Implicit Arguments. Unset Strict Implicit. Unset Printing Implicit Defensive.
Import Order.Theory GRing.Theory Num.Theory.
Local Open Scope ring_scope.

Section CliProps4.
Variable R : rcfType.
Notation xnum := (xnum R).
Notation nd := (nd R).
Notation dset := (dset R).
Variables (D KW BW : Type) (pdf : D -> KW -> nd -> res (pdfval xnum)) (nokw : KW) (nobw : BW)
  (uniform : seq R -> seq R -> D) (norm01 : D) (kde : nd -> BW -> seq xnum -> res D)
  (kde_pdf : D -> nd -> res (seq xnum)) (trunc : R -> R).
Variables (pca_components : nd -> int -> res nd) (svd_v : nd -> res nd).
Variables (G : Type) (reseed : int -> res G) (randn rand : nat -> G -> seq R * G).
Variables (H : Type) (pyseed : int -> H) (pysample : nat -> H -> seq nat * H).
Variable curve : string -> D -> seq (R * R) -> int -> res (seq R * seq R).
Variable tri : seq R -> seq R -> seq R -> res unit.
Variable closest : R * R.
Variable field : dset -> res (seq R * seq R * seq R).
Variables (solve : seq R -> R -> R -> R) (solve_gamma : R -> R -> R -> R) (u : pyv R).
Notation fenics := (run_fenics reseed rand solve solve_gamma).
Notation generate := (poisson_generate reseed rand solve solve_gamma u).
Notation paper := (paper_poisson pdf nokw nobw uniform norm01 kde kde_pdf trunc pca_components svd_v
  reseed randn rand pyseed pysample curve tri closest field solve solve_gamma u).
Notation paper_data := (paper_poisson_data reseed rand solve solve_gamma u).


Notation dprob := (dprob R D).
Notation estimate := (estimate pdf nokw nobw uniform norm01 kde kde_pdf).
Notation mud_problem := (st_mud_problem D trunc pca_components svd_v).
Notation poisson := (load_poisson_prob reseed randn).
Notation solved := (solved pdf nokw nobw uniform norm01 kde kde_pdf trunc pca_components svd_v curve).

(** The problem of figure 7, of all sensors in the order [idx]: [P] is built, its two components can be
    contoured, and estimate gives the problem [P1]. *)
Definition learned (s : st R) (idx : seq nat) (n : nat) (P P1 : dprob) : Prop :=
  exists m, [/\ mud_problem s "pca" None None 2 None None (Some (MInts (map Posz idx))) = Ok P,
    Nd.shape (dX P) = [:: n; 2%N] /\ Nd.shape (dy P) = [:: n; 2%N],
    forall i, (i < 2)%N -> tri (ncol (dX P) 0) (ncol (dX P) 1) (ncol (dy P) i) = Ok tt & estimate P = (P1, Ok m)].

(** C138: with the data in place, figure 7 shows the sensors in the order drawn first and the two
    principal components of all the sensors; figures 8 and 9 the trials with the first 5, 50 and 500
    sensors of the order drawn next (from the seed, if there is one), whose MUD points and expected
    ratios are the rows of the table. *)
Theorem C138_paper_run fen sp remote seed (disk : dict dset) g h ds g0 g1 g2 s s' k n h1 h2 l l' se lam f P P1
    (Q Q1 : int -> dprob) (m : int -> seq R) (e : int -> xnum) (cin cup : int -> nat -> seq R * seq R) :
  get disk (paper_file sp) = Some ds -> (if seed is Some q then reseed q else Ok g) = Ok g0 ->
  poisson (Ok ds) (5%:R / 100%:R) seed g0 = (g1, Ok (ds, s)) -> n_sensors s = Ok k -> pysample k h = (l, h1) ->
  s_sens s = Some se /\ nd_wf se /\ Nd.shape se = [:: k; 2%N] /\ all (fun i => (i < k)%N) l ->
  s_lam s = Some lam /\ nd_wf lam /\ Nd.shape lam = [:: n; 2%N] ->
  field ds = Ok f -> tri f.1.1 f.1.2 f.2 = Ok tt -> learned s l n P P1 ->
  poisson (Ok ds) (5%:R / 100%:R) seed g1 = (g2, Ok (ds, s')) -> n_sensors s' = Ok k ->
  pysample k (if seed is Some q then pyseed q else h1) = (l', h2) ->
  let Ns := [:: Posz 5; Posz 50; Posz 500] in let xr : R * R := (- (45%:R / 10%:R), 5%:R / 10%:R) in
  (forall N, N \in Ns -> solved s' (sensors_of l' N) [:: xr; xr] (Q N) (Q1 N) (m N) (e N) (cin N) (cup N)) ->
  let figures := if ((sp =? "") || (sp =? "."))%string then "figures"%string else (sp ++ "/figures")%string in
  paper fen sp remote seed disk g h =
    ((g2, h2, disk),
     ([:: fig_of (Some figures) false "response_surface" (response_axes closest f se lam 2 l
            [:: (Posz 0, Posz 5); (Posz 5, Posz 50); (Posz 50, Negz 0)] [:: "*"; "+"; "."]%string [:: "red"; "white"; "k"]%string);
          fig_of (Some figures) false "learned_qoi" [:: qoi_axes (dX P) (dy P) 0; qoi_axes (dX P) (dy P) 1]],
      [seq trial_fig (Some sp) false N
        [:: trial_marks closest 0 N (cin N 0%N) (cup N 0%N) (m N) (Some (- (26%:R / 10%:R), 12%:R / 10%:R, 8%:R / 10%:R)) (e N);
            trial_marks closest 1 N (cin N 1%N) (cup N 1%N) (m N) (Some (- (35%:R / 10%:R), 83%:R / 100%:R, 53%:R / 100%:R)) (e N)] | N <- Ns],
      Ok ([:: "N"; "mud_pt"; "r"]%string, [seq [:: CInt R N; CArr (m N); CNum (e N)] | N <- Ns]))).
Proof.
move=> eg es el ek eh hse hlam ef et [mm [eP [hX hY] hT em]] el' ek' eh' Ns xr hs figures.
rewrite /paper_poisson /paper_poisson_data paper_fileE eg; cbn beta iota; rewrite /examples_group es /open_file eg; cbn [of_opt].
have [es' [ws [sh hi]]] := hse; have [elam [wl hl]] := hlam.
have [f1 f2 f3 f4 f5] := fresh eP.
have [[d ed' di] up1 _ [bX bY bD bI] em1] := estimate_fresh f1 f2 f3 f4 em.
rewrite /run_2d_poisson_sol el /sensor_order ek; cbn [String.eqb Ascii.eqb Bool.eqb]; rewrite eh.
rewrite (eP : mud_problem s "pca" None None 2 None None (positions l) = _) em.
rewrite /step -[wanted "response" _]/true -[wanted "qoi" _]/true /density_figs -[wanted "densities" _]/false; cbv iota.
rewrite (C132_response closest _ _ _ es' ws sh hi elam wl hl ef et); cbn [size default_groups default_colors default_markers leq andb rmap].
rewrite (@qoi_figE R D tri P1 n) ?bX ?bY //; cbn [rmap].
have eo : sensor_order pysample "random" s' (if seed is Some q then pyseed q else h1) = (h2, Ok l') by rewrite /sensor_order ek' /= eh'.
have [Z [eZ hZ]] := C131_run closest (default_loc1 R) (default_loc2 R) (Some sp) false el' eo hs.
change (2 < 3 <= 3)%N with true; rewrite /step; cbv beta iota zeta; cbn [rmap cat]; cbv beta iota zeta.
rewrite -/Ns -/xr eZ; cbn [rbind snd].
rewrite (trial_rowsE (m := m) (e := e)); last by move=> N /hZ [_ _ h3 h4]; rewrite (solutionE h3 (congr1 snd h4)).
cbn [rbind].
have nd3 : List.NoDup [:: "N"; "mud_pt"; "r"]%string by exact/repeatsP.
have [h3 _] := @C135_all R [seq [:: ("N", CInt R N); ("mud_pt", CArr (m N)); ("r", CNum (e N))]%string | N <- Ns] _ nd3.
rewrite h3; last first.
  move=> r ff hr; have [j] := In_nth_seq [::] hr; rewrite size_map => hj <-; rewrite (nth_map 0) //.
  by case=> [<-|[<-|[<-|]]].
have ne : nonempty (Some figures) = Some figures.
  by rewrite /nonempty /figures; case: ((sp =? "") || (sp =? "."))%string => //; case: (sp).
have ep : path_join sp "figures" = figures by rewrite /path_join /figures; case: ifP.
rewrite !fig_of_truthyE ep ne -map_comp; congr (_, (_, Ok (_, _))).
Qed.
End CliProps4.
