(** Properties C140 and C141 continued: several data in plot_obs_space of BayesProblem; the loop of
    run_comparison_example, its exceptions and its files. *)
Set Warnings "-notation-overridden,-ambiguous-paths".
From Coq Require Import String ZArith.
From mathcomp Require Import all_ssreflect all_algebra.
From mathcomp Require Import zify.
From mathcomp.algebra_tactics Require Import ring.
From Verif Require Import Py Nd Xnum XnumProofs UtilModel DensityModel BayesModel UtilModel2 PlotModel PlotProps PlotProps2 NdProofs UtilProps
  BayesProps BayesProps2 StModel PoisModel StExModel PoisExModel PoisExProps2 SimpleModel SimpleProps CompModel CompProps CompProps2.
Set Implicit Arguments. Unset Strict Implicit. Unset Printing Implicit Defensive.
Import Order.Theory GRing.Theory Num.Theory.
Local Open Scope ring_scope.

Section Props.
Variable R : rcfType.
Notation xnum := (xnum R).
Notation nd := (nd R).
Notation mark := (mark R).
Variable expf : R -> R.
Variable cpi : R.
Variable K : Type.
Variable kde : nd -> unit -> seq xnum -> res K.
Variable kde_pdf : K -> nd -> res (seq xnum).
Variable kde_at : K -> seq (seq R) -> res (seq R).
Variables trunc ln : R -> R.
Notation sdist := (sdist R K).
Notation dprob := (dprob R sdist).
Notation bprob := (bprob R sdist).
Notation spdf := (@spdf R expf cpi K kde_pdf).
Notation skde := (@skde R K kde).
Notation grid_pdf := (@grid_pdf R expf cpi K kde_pdf).
Notation grid_eval := (@grid_eval R K kde_at).
Notation pass := (@comparison_pass R expf cpi K kde kde_pdf trunc ln).
Notation solve := (@solve_pass R expf cpi K kde kde_pdf trunc ln).
Notation figs := (@figure_pass R expf cpi K kde kde_pdf kde_at trunc ln).
Notation run := (@run_comparison_example R expf cpi K kde kde_pdf kde_at trunc ln).
Notation run_res := (@run_comparison R expf cpi K kde kde_pdf trunc ln).
Notation cplot := (@comparison_plot R expf cpi K kde kde_pdf kde_at trunc ln).
Notation bobs_plot := (@bobs_plot R sdist unit tt grid_pdf grid_eval skde).
Notation cfig := (cfig R).

(** C140: a normal likelihood with several data (one location per datum) cannot be drawn: the
    grid has M = (aff - 1) ^ d points, and the pdf of n <> M locations is asked at d rows of M numbers. *)
Theorem C140_several_data (s : bprob) idx k (aff : nat) y_range pf ll lv loc sigma :
  let yr := odflt (nseq (dim (by_ s) 1) (-1, 1)) y_range in
  py_index (size yr) idx = Ok k -> (2 < aff)%N -> b_ll s = Some lv -> b_ll_dist s = Some (Nor loc sigma) ->
  (1 < size loc)%N -> size loc != (aff.-1 ^ size yr)%N -> ll <> ONone ->
  bobs_plot s idx y_range aff ll pf = Err ValueError.
Proof.
move=> yr ek ha el ed hl hm nl; rewrite /CompModel.bobs_plot -/(odflt (nseq (dim (by_ s) 1) (-1, 1)) y_range) -/yr.
have [mesh [grid [h1 h2 h3 h4 h5]]] := bobs_prelude aff ek; rewrite h1; cbn [rbind fst snd]; rewrite ek; cbn [rbind].
rewrite ticksE; cbn [rbind]; rewrite el ed.
have -> : not_none ll by case: ll nl.
cbn [isSome guard of_opt rbind].
have -> : grid_pdf (Nor loc sigma) grid = Err ValueError; last by [].
have M : size (grid_columns yr aff) = (aff.-1 ^ size yr)%N.
  by rewrite size_map size_tuples /prodn; elim: (size yr) => [|n ih] //=; rewrite ih expnS.
have M1 : (1 < aff.-1 ^ size yr)%N.
  have : (0 < size yr)%N by rewrite (leq_ltn_trans _ (index_lt ek)).
  case: (aff) ha => [|[|[|n]]] // _; case: (size yr) => [|m] // _.
  by rewrite -[X in (X < _)%N](expn0 n.+2) ltn_exp2l.
rewrite /grid_pdf /SimpleModel.spdf /pdf_cols /ndim /dim [nth _ _ _]/= h5 M /fits !size_map (negbTE hm).
have -> : (size loc == 1%N) = false by rewrite gtn_eqF.
by have -> : ((aff.-1 ^ size yr)%N == 1%N) = false by rewrite gtn_eqF.
Qed.

(** ** C141 *)
Lemma param_step p ns mu sigma dom dint N u z d b d' b' m :
  solve p ns mu sigma dom dint N u z = Ok (d, b) -> cplot d b "param" = ((d', b'), m) ->
  b' = b /\ pass p ns mu sigma dom dint N u z = Ok (d', b).
Proof.
move=> S; rewrite pass_solve S; cbn [rbind fst snd].
have [xs [data_ [k [pr [x [rs [up [sd hp [b1 b2 b3 b4 b5] _ eD]]]]]]]] := solve_state S.
have [a0 [a1 ed]] : exists a0 a1, dom = [:: a0; a1] by case: (dom) sd => [|a0 [|a1 []]] // _; exists a0, a1.
have [Bd eF] : exists Bd, fit_domain (cast_of trunc (d_int d)) None (Some (ddom d)) (5%:R / 100%:R) = Ok Bd.
  by rewrite eD ed; eexists; rewrite /fit_domain /fit_domain_bounds /ndim /dim /= /rows /dim /=.
have eI : d_in_dist d = Some (Uni [:: np_min dom] [:: np_max dom - np_min dom]) by rewrite eD.
rewrite /after /plot_param_space eF; cbn [sbind d_in_dist]; rewrite eI; cbn [isSome guard DensityModel.lift sbind fst snd rbind].
rewrite [cplot _ _ _]/comparison_plot; cbn [String.eqb Ascii.eqb Bool.eqb]; rewrite /param_plot; cbn [pp_range pp_pad pp_in pp_up pp_win pp_mud pp_true].
rewrite eF; cbn [sbind]; rewrite [d_in_dist _]eI; cbn [of_opt DensityModel.lift sbind].
rewrite -/(put_dom d Bd).
case: (rbind _ _) => [m1|e]; cbn [sbind DensityModel.lift]; last by case=> <- <-; rewrite /put_dom eI.
case: (rbind _ _) => [m2|e]; cbn [sbind DensityModel.lift rbind fst snd]; last by case=> <- <-; rewrite /put_dom eI.
rewrite /bparam_plot; cbn [not_none DensityModel.lift sbind]; rewrite [map_point _ _ _ _]b5; cbn [sbind].
by case: (rbind _ _) => [m3|e]; cbn [sbind DensityModel.lift rbind fst snd]; case=> <- <-; rewrite /put_dom eI.
Qed.

Lemma obs_step d b : exists m, cplot d b "obs" = ((d, b), m).
Proof. by eexists; rewrite [cplot _ _ _]/comparison_plot; cbn [String.eqb Ascii.eqb Bool.eqb]. Qed.

(** C141: a pass that ends has two figures and the result of C120's pass; when the problems
    cannot be solved there is no figure; a pass that ends with another exception has at most the
    first figure. *)
Theorem C141_pass p ns mu sigma dom dint N u z sp cl :
  match figs p ns mu sigma dom dint N u z sp cl with
  | (fs, Ok r) => size fs = 2%N /\ pass p ns mu sigma dom dint N u z = Ok r
  | (fs, Err e) => pass p ns mu sigma dom dint N u z = Err e /\ fs = [::] \/
                   (exists r, pass p ns mu sigma dom dint N u z = Ok r) /\ (size fs <= 1)%N
  end.
Proof.
rewrite /figure_pass; case S : (solve _ _ _ _ _ _ _ _ _) => [[d b]|e]; last by left; rewrite pass_solve S.
case E : (cplot d b "param") => [[d' b'] [m1|e]]; have [eb P] := param_step S E; last by right; split=> //; exists (d', b).
rewrite eb; have [m2 ->] := obs_step d' b; case: m2 => [m2|e] //; right; split=> //; by exists (d', b).
Qed.

(** C141: without an exception: two figures for each N, in the order of the list, and the list
    of results is that of C120. *)
Theorem C141_run p ns mu sigma dom dint Ns draw sp cl fs rs :
  let F i := figs p ns mu sigma dom dint (nth 0 Ns i) (draw i).1 (draw i).2 sp cl in
  run p ns mu sigma dom dint Ns draw sp cl = (fs, Ok rs) ->
  [/\ fs = flatten [seq (F i).1 | i <- iota 0 (size Ns)], size fs = (2 * size Ns)%N, size rs = size Ns,
      (forall i r, (i < size Ns)%N -> (F i).2 = Ok (nth r rs i)) &
      run_res p ns mu sigma dom dint Ns draw = Ok rs].
Proof.
elim: Ns draw fs rs => [|N Ns ih] draw fs rs /=; first by case=> <- <-.
case E : (figs _ _ _ _ _ _ _ _ _ _ _) => [g [r|e]] //.
have := C141_pass p ns mu sigma dom dint N (draw 0%N).1 (draw 0%N).2 sp cl; rewrite E => -[sg hp].
case T : (run _ _ _ _ _ _ _ _ _) => [gs [rs'|e']]; cbn [fst snd rmap rbind] => // -[<- <-].
have [h1 h2 h3 h4 h5] := ih _ _ _ T; split.
- rewrite h1; congr (_ ++ flatten _); rewrite (iotaDl 1 0) -map_comp; exact: eq_map.
- by rewrite size_cat sg h2 mulnS.
- by rewrite /= h3.
- by case=> [|i] r0 hi /=; rewrite ?E //; apply: h4.
- by rewrite hp; cbn [rbind]; rewrite h5.
Qed.

(** C141: an exception in pass i: the figures of the passes before, and at most one of pass i. *)
Theorem C141_stops p ns mu sigma dom dint Ns draw sp cl i e :
  let F i := figs p ns mu sigma dom dint (nth 0 Ns i) (draw i).1 (draw i).2 sp cl in
  (i < size Ns)%N -> (forall j, (j < i)%N -> exists r, (F j).2 = Ok r) -> (F i).2 = Err e ->
  run p ns mu sigma dom dint Ns draw sp cl = (flatten [seq (F j).1 | j <- iota 0 i.+1], Err e) /\
  (size (F i).1 <= 1)%N.
Proof.
move=> F hi hj he; split; last first.
  have := C141_pass p ns mu sigma dom dint (nth 0 Ns i) (draw i).1 (draw i).2 sp cl.
  by rewrite -/(F i); case: (F i) he => fs [//|e'] _ [[_ ->]|[_ h]].
elim: Ns draw i @F hi hj he => [|N Ns ih] draw [|i] //= hi hj he.
  case: (figs _ _ _ _ _ _ _ _ _ _ _) he => g [r|e'] //= [->]; by rewrite cats0.
have [r] := hj 0%N isT; case: (figs _ _ _ _ _ _ N _ _ _ _) => g [r'|e'] //= _.
rewrite (ih (fun i => draw i.+1) i) //=; last by move=> j lt; apply: (hj j.+1).
congr (_, _); congr (_ ++ (_ ++ flatten _)).
by rewrite (iotaDl 1 1) -map_comp; apply: eq_map.
Qed.

(** *** The files *)
(** The name of the figure: of the parameter space (false) or of the observable space (true). *)
Definition fig_name (pf : bool) (N : int) : string :=
  ((if pf then "bip-vs-sip-pf-" else "bip-vs-sip-") ++ str_int N ++ ".png")%string.

(** C141: the figures of a pass are saved under these names in save_path, and closed if asked for;
    neither without save_path. *)
Theorem C141_saved p ns mu sigma dom dint N u z sp cl i f :
  let fs := (figs p ns mu sigma dom dint N u z sp cl).1 in (i < size fs)%N ->
  cf_file (nth f fs i) = omap (fun d => in_dir d (fig_name (i == 1%N) N)) sp /\
  cf_closed (nth f fs i) = isSome sp && cl.
Proof.
have J d n : path_join d n = in_dir d n by rewrite /path_join /in_dir; case: (d =? "")%string; case: (d =? ".")%string.
have H n t m : cf_file (finish n t N sp cl m) = omap (fun d => in_dir d n) sp /\ cf_closed (finish n t N sp cl m) = isSome sp && cl.
  by rewrite /finish /=; case: (sp) => [d|] //=; rewrite J.
rewrite /figure_pass; case: (solve _ _ _ _ _ _ _ _ _) => [[d b]|e] //.
case: (cplot d b "param") => [[d' b'] [m1|e]] //.
case: (cplot d' b' "obs") => [[d2 b2] [m2|e]] /=; case: i => [|[|i]] // _; exact: H.
Qed.

(** C141: if drawing the second figure raises, the first one of that pass is complete. *)
Theorem C141_second_raises p ns mu sigma dom dint N u z sp cl d b d' b' m1 e :
  solve p ns mu sigma dom dint N u z = Ok (d, b) -> cplot d b "param" = ((d', b'), Ok m1) -> (cplot d' b' "obs").2 = Err e ->
  exists f, [/\ figs p ns mu sigma dom dint N u z sp cl = ([:: f], Err e), cf_marks f = m1 ++ text R N,
                cf_file f = omap (fun d => in_dir d (fig_name false N)) sp & cf_closed f = isSome sp && cl].
Proof.
move=> hs h1 h2.
have E : figs p ns mu sigma dom dint N u z sp cl = ([:: finish ("bip-vs-sip-" ++ str_int N ++ ".png") 6%:R N sp cl m1], Err e).
  by rewrite /figure_pass hs h1; case: (cplot d' b' "obs") h2 => [[s s'] [m2|e']] //= [->].
have := @C141_saved p ns mu sigma dom dint N u z sp cl 0 (finish "" 0 N sp cl [::]); rewrite E => /(_ isT) [hf hc].
exists (finish ("bip-vs-sip-" ++ str_int N ++ ".png") 6%:R N sp cl m1); split=> //.
rewrite /finish /text /=; case: (N == 1) => /=; rewrite ?cats0 //.
by congr (_ ++ [:: TextN _ (- _) _]); field.
Qed.

(** C141: two figures have the same file only if they are of the same kind and for the same N. *)
Theorem C141_files d pf N pf' N' : in_dir d (fig_name pf N) = in_dir d (fig_name pf' N') -> pf = pf' /\ N = N'.
Proof.
have cancel a b c : String.append a b = String.append a c -> b = c by elim: a => //= x a ih [].
have len a b : String.length (String.append a b) = (String.length a + String.length b)%N by elim: a => //= x a ->.
have S a b c : String.append a c = String.append b c -> a = b.
  elim: a b => [|x a ih] [|y b] //=; last by case=> -> /ih ->.
    by move=> /(f_equal String.length); rewrite /= len; lia.
  by move=> /(f_equal String.length); rewrite /= len; lia.
have P M N0 : str_int M <> String.append "pf-" (str_int N0).
  rewrite /str_int; case: (Z.to_int (z_of M)) => [] q; last by case: q.
  by case: q.
have dd : fig_name pf N = fig_name pf' N' -> pf = pf' /\ N = N'.
  rewrite /fig_name; case: pf; case: pf' => /=.
  - by case=> /S /str_int_inj ->.
  - by case=> e; case: (P N' N); apply: (S _ _ ".png"%string).
  - by case=> e; case: (P N N'); apply: (S _ _ ".png"%string).
  - by case=> /S /str_int_inj ->.
by rewrite /in_dir; case: (d =? "")%string => //; case: (d =? ".")%string => // /cancel [] /dd.
Qed.
End Props.
