(** Properties C44, C82, C83, C85, C86 of DensityProblem. *)
Set Warnings "-notation-overridden,-ambiguous-paths".
From mathcomp Require Import all_ssreflect all_algebra.
From mathcomp.algebra_tactics Require Import ring.
From Verif Require Import Py Nd Xnum XnumProofs UtilModel DensityModel NdProofs LinProps DensityProps DensityProps2 DensityProps3.
Set Implicit Arguments. Unset Strict Implicit. Unset Printing Implicit Defensive.
Import Order.Theory GRing.Theory Num.Theory.
Local Open Scope ring_scope.

Section DensityProps4.
Variable R : rcfType.
Notation xnum := (xnum R).
Notation nd := (nd R).
Variables (D KW BW : Type).
Variable pdf : D -> KW -> nd -> res (pdfval xnum).
Variable nokw : KW.
Variable nobw : BW.
Variable uniform : seq R -> seq R -> D.
Variable norm01 : D.
Variable kde : nd -> BW -> seq xnum -> res D.
Variable kde_pdf : D -> nd -> res (seq xnum).
Variable trunc : R -> R.
Notation dprob := (dprob R D).
Notation pargs := (pargs R D KW BW).
Notation dop := (dop R D KW BW).
Notation no_args := (no_args R D nokw nobw).
Notation set_observed := (set_observed pdf nokw norm01).
Notation set_initial := (set_initial pdf nokw uniform).
Notation set_predicted := (set_predicted pdf kde kde_pdf).
Notation fit := (fit pdf nokw uniform norm01 kde kde_pdf).
Notation mud_point := (mud_point pdf nokw nobw uniform norm01 kde kde_pdf).
Notation expected_ratio := (expected_ratio pdf nokw nobw uniform norm01 kde kde_pdf).
Notation init := (density_init D trunc).
Notation run1 draw := (run1 pdf nokw nobw uniform norm01 kde kde_pdf trunc draw).
Notation run draw := (run pdf nokw nobw uniform norm01 kde kde_pdf trunc draw).
Notation all_return draw := (all_return pdf nokw nobw uniform norm01 kde kde_pdf trunc draw).

Notation nthx := (nth (NaN : xnum)).
Notation plot := (plot_param_space pdf nokw nobw uniform norm01 kde kde_pdf trunc).
Notation ensure_up := (ensure_up pdf nokw nobw uniform norm01 kde kde_pdf).



Notation fit_ready := (fit_ready pdf nokw uniform norm01 kde kde_pdf).
Notation mud_ready := (mud_ready pdf nokw nobw uniform norm01 kde kde_pdf).
Notation ratio_ready := (ratio_ready pdf nokw nobw uniform norm01 kde kde_pdf).

(** ** C44: the default initial distribution after plots *)
Lemma default_rows (s : dprob) (lo hi : nat -> R) n :
  rows (ddom s) = [seq [:: lo j; hi j] | j <- iota 0 n] -> dim (ddom s) 1 = 2%N ->
  (forall j, (j < n)%N -> lo j <= hi j) ->
  default_initial uniform s = Ok (uniform [seq lo j | j <- iota 0 n] [seq hi j - lo j | j <- iota 0 n]).
Proof.
move=> er d2 le; rewrite /default_initial d2 /= er -!map_comp.
have e1 : [seq (@np_min R \o (fun j => [:: lo j; hi j])) j | j <- iota 0 n] = [seq lo j | j <- iota 0 n].
  apply/eq_in_map => j; rewrite mem_iota add0n => hj /=.
  apply: np_min_uniq; first by rewrite inE eqxx.
  by move=> x; rewrite !inE => /orP [] /eqP ->; rewrite ?le.
have e2 : [seq (@np_max R \o (fun j => [:: lo j; hi j])) j | j <- iota 0 n] = [seq hi j | j <- iota 0 n].
  apply/eq_in_map => j; rewrite mem_iota add0n => hj /=.
  apply: np_max_uniq; first by rewrite !inE eqxx orbT.
  by move=> x; rewrite !inE => /orP [] /eqP ->; rewrite ?le.
rewrite e1 e2; congr (Ok (uniform _ _)).
by elim: (iota 0 n) => //= j l ->.
Qed.

(** [k] plots with the default range: [set_initial()] then takes the uniform distribution
    over intervals wider by the factor (1+2p)^k. *)
Theorem C44_default_initial_after_plots draw s p a b c d k :
  nd_wf (ddom s) -> Nd.shape (ddom s) = [:: n_params s; 2%N] -> d_int s = false -> 0 <= p ->
  let lo := fun j => nth 0 (nth [::] (rows (ddom s)) j) 0 in
  let hi := fun j => nth 0 (nth [::] (rows (ddom s)) j) 1 in
  (forall j, (j < n_params s)%N -> lo j <= hi j) ->
  let g := fun j => ((1 + 2%:R * p) ^+ k - 1) / 2%:R * (hi j - lo j) in
  let js := iota 0 (n_params s) in
  default_initial uniform s = Ok (uniform [seq lo j | j <- js] [seq hi j - lo j | j <- js]) /\
  default_initial uniform (run draw s (nseq k (OPlot D KW BW false p a b c d))) =
    Ok (uniform [seq lo j - g j | j <- js] [seq (1 + 2%:R * p) ^+ k * (hi j - lo j) | j <- js]).
Proof.
move=> wf sh ni p0 lo hi le g js.
have row0 j : (j < n_params s)%N -> nth [::] (rows (ddom s)) j = [:: lo j; hi j].
  move=> hj; have n2 : ndim (ddom s) = 2%N by rewrite /ndim sh.
  have := all_size_rows wf n2; move=> /(all_nthP [::]) /(_ j).
  rewrite size_rows /dim sh => /(_ hj) /=.
  by rewrite /lo /hi; case: (nth [::] _ j) => [|x [|y [|]]].
have g0 j : (j < n_params s)%N -> 0 <= g j.
  move=> hj; rewrite /g mulr_ge0 ?divr_ge0 ?ler0n ?subr_ge0 ?le //.
  by apply: exprn_ege1; rewrite ler_addl mulr_ge0 ?ler0n.
split; first apply: default_rows => //.
- apply: (@eq_from_nth _ [::]); first by rewrite size_rows size_map size_iota /dim sh.
  move=> j; rewrite size_rows {1}/dim sh /= => hj.
  by rewrite (nth_map 0%N) ?size_iota // nth_iota // row0.
- by rewrite /dim sh.
have [dshape drows] := @C44_repeated_plots R D KW BW pdf nokw nobw uniform norm01 kde kde_pdf trunc draw s p a b c d k wf sh ni.
rewrite (@default_rows _ (fun j => lo j - g j) (fun j => hi j + g j) (n_params s)).
- congr (Ok (uniform _ _)); apply: eq_map => j; rewrite /g; by field.
- apply: (@eq_from_nth _ [::]); first by rewrite size_rows size_map size_iota /dim dshape.
  move=> j; rewrite size_rows {1}/dim dshape /= => hj.
  by rewrite (nth_map 0%N) ?size_iota // nth_iota // drows.
- by rewrite /dim dshape.
- move=> j hj; apply: le_trans (_ : lo j <= _); first by rewrite ler_subl_addr ler_addl g0.
  by apply: le_trans (le _ hj) _; rewrite ler_addl g0.
Qed.

(** ** C82: a given predicted distribution with several observables *)
(** The values are the entries of the joint table, not their products. *)
Theorem C82_given_predicted_not_joint s (a : pargs) d n m (tab : seq (seq xnum)) :
  pa_dist a = Some d -> pa_w a = None ->
  pdf d (pa_kw a) (dy s) = Ok (P2 tab) -> size tab = n -> all (fun r => size r == m) tab ->
  exists s', [/\ set_predicted s a = (s', Ok tt), d_pr s' = Some (flatten tab),
                 size (flatten tab) = (n * m)%N & d_up s' = None].
Proof.
move=> ed ew ep sn sm; rewrite /set_predicted ew /predicted_values /= ed ep /=.
eexists; split=> //; rewrite size_flatten /seq.shape -sn.
by elim: tab sm {ep sn} => //= r l ih /andP [/eqP -> /ih ->]; rewrite mulSn.
Qed.

(** So with two or more samples and two or more observables the fit fails. *)
Theorem C82_several_observables_fail s (a : pargs) d n m (tab : seq (seq xnum)) ob iv b :
  pa_dist a = Some d -> pa_w a = None ->
  pdf d (pa_kw a) (dy s) = Ok (P2 tab) -> size tab = n -> all (fun r => size r == m) tab ->
  d_ob s = Some ob -> d_in s = Some iv -> size ob = n -> (1 < n)%N -> (1 < m)%N ->
  let s' := (set_predicted s a).1 in
  (fit s' b).2 = Err ValueError /\ (mud_point s').2 = Err ValueError
  /\ (expected_ratio s').2 = Err ValueError.
Proof.
move=> ed ew ep sn sm eo ei so n1 m1 s'.
have [s1 [e1 e2 e3 e4]] := C82_given_predicted_not_joint ed ew ep sn sm.
have -> : s' = s1 by rewrite /s' e1.
have eo1 : d_ob s1 = Some ob.
  by move: e1; rewrite /set_predicted ew /predicted_values /= ed ep => -[<-].
have ei1 : d_in s1 = Some iv.
  by move: e1; rewrite /set_predicted ew /predicted_values /= ed ep => -[<-].
have ef : xvbop (@xdiv R) ob (flatten tab) = Err ValueError.
  rewrite /xvbop so e3 ifN; last by rewrite -{1}[n]muln1 eqn_pmul2l ?(ltn_trans _ n1) // ltn_eqF.
  rewrite gtn_eqF // gtn_eqF //; apply: (leq_trans n1); rewrite leq_pmulr // ltnW //.
rewrite (fit_ready b ei1 e2 eo1) ef; split=> //.
by rewrite (mud_ready e4 ei1 e2 eo1) (ratio_ready e4 ei1 e2 eo1) ef.
Qed.

(** ** C83: an X of one dimension is one sample *)
Theorem C83_one_sample s s' x : dim (dX s) 0 = 1%N -> mud_point s = (s', Ok x) ->
  x = nth [::] (rows (dX s')) 0 /\ dX s' = dX s.
Proof.
move=> d1; have [eX _ _ _] := mud_base pdf nokw nobw uniform norm01 kde kde_pdf s.
rewrite /mud_point; have := eX; rewrite /mud_point.
case: (ensure_up s) => s1 [y|] //=; case: (argmax _) => [m|] //= e1; rewrite /row_at e1 d1.
by case: ifP => //; rewrite ltnS leqn0 => /eqP -> [<- <-]; rewrite -e1.
Qed.

(** With several outputs it fails as soon as the largest value is not the first. *)
Theorem C83_one_sample_many_outputs s u m : dim (dX s) 0 = 1%N -> d_up s = Some u ->
  argmax u = Ok m ->
  (mud_point s).2 = if m == 0%N then Ok (nth [::] (rows (dX s)) 0) else Err IndexError.
Proof.
move=> d1 eu em; rewrite /mud_point /ensure_up eu /= eu /= em /= /row_at d1 ltnS leqn0.
by case: ifP => // /eqP ->.
Qed.

(** ** C85: the scale of the densities *)
Lemma xdiv_scale_num c (x y : xnum) : 0 < c -> xdiv (xmul (Fin c) x) y = xmul (Fin c) (xdiv x y).
Proof.
move=> c0; have pp := scalePInf c0; have nn := scaleNInf c0.
have xi a : xinf (c * a) = xmul (Fin c) (xinf a).
  rewrite /xinf pmulr_rgt0 // pmulr_rlt0 //.
  by case: ifP => _; [rewrite pp | case: ifP => _; rewrite ?nn].
case: x y => [a| | |] [b| | |]; rewrite ?pp ?nn //=; rewrite ?mulr0 //;
  by case: ifP => _; rewrite ?xi ?pp ?nn //= mulrA.
Qed.
Lemma xdiv_scale_den c (x y : xnum) : 0 < c -> xdiv x (xmul (Fin c) y) = xmul (Fin c^-1) (xdiv x y).
Proof.
move=> c0; have c1 : 0 < c^-1 by rewrite invr_gt0.
have pp := scalePInf c0; have nn := scaleNInf c0.
have pp1 := scalePInf c1; have nn1 := scaleNInf c1.
have cn : c != 0 by rewrite gt_eqF.
have xi a : xmul (Fin c^-1) (xinf a) = xinf a.
  by rewrite /xinf; case: ifP => _; [rewrite pp1 | case: ifP => _; rewrite ?nn1].
case: x y => [a| | |] [b| | |]; rewrite ?pp ?nn //=; rewrite ?mulr0 //.
- rewrite mulf_eq0 (negbTE cn) /=; case: eqP => e; first exact: (esym (xi a)).
  by rewrite /= invfM mulrCA.
- by rewrite pmulr_rlt0 //; case: ifP => _; rewrite ?pp1 ?nn1.
- by rewrite pmulr_rlt0 //; case: ifP => _; rewrite ?pp1 ?nn1.
Qed.

Lemma xvbop_div_num c (u v : seq xnum) : 0 < c ->
  xvbop (@xdiv R) (scale_all c u) v = rmap (scale_all c) (xvbop (@xdiv R) u v).
Proof.
move=> c0; rewrite /xvbop /scale_all size_map; case: ifP => [e|_].
  rewrite /= -map_comp; congr Ok; elim: u v e => [|x u ih] [|y v] //= e.
  by rewrite xdiv_scale_num // ih.
case: ifP => [e|_].
  rewrite /= -map_comp; congr Ok; apply: eq_map => y /=.
  by case: u e => [|x [|]] //= _; rewrite xdiv_scale_num.
by case: ifP => // e; rewrite /= -!map_comp; congr Ok; apply: eq_map => x /=; rewrite xdiv_scale_num.
Qed.
Lemma xvbop_div_den c (u v : seq xnum) : 0 < c ->
  xvbop (@xdiv R) u (scale_all c v) = rmap (scale_all c^-1) (xvbop (@xdiv R) u v).
Proof.
move=> c0; rewrite /xvbop /scale_all size_map; case: ifP => [e|_].
  rewrite /= -map_comp; congr Ok; elim: u v e => [|x u ih] [|y v] //= e.
  by rewrite xdiv_scale_den // ih.
case: ifP => _; first by rewrite /= -!map_comp; congr Ok; apply: eq_map => y /=; rewrite xdiv_scale_den.
case: ifP => // e; rewrite /= -map_comp; congr Ok; apply: eq_map => x /=.
by case: v e => [|y [|]] //= _; rewrite xdiv_scale_den.
Qed.

(** Un-normalised initial, observed and predicted densities give the same estimate; the
    expected ratio is multiplied by (observed factor) / (predicted factor). *)
Theorem C85_density_scales (a b c : R) s s' iv ob pr : 0 < a -> 0 < b -> 0 < c ->
  dX s' = dX s -> d_w s' = d_w s -> d_up s = None -> d_up s' = None ->
  d_in s = Some iv -> d_ob s = Some ob -> d_pr s = Some pr ->
  d_in s' = Some (scale_all a iv) -> d_ob s' = Some (scale_all b ob) ->
  d_pr s' = Some (scale_all c pr) ->
  (mud_point s').2 = (mud_point s).2.
Proof.
move=> a0 b0 c0 eX ew u1 u2 e1 e2 e3 f1 f2 f3.
have c1 : 0 < c^-1 by rewrite invr_gt0.
rewrite (mud_ready u1 e1 e3 e2) (mud_ready u2 f1 f3 f2) ew eX.
rewrite xvbop_div_num // xvbop_div_den //; case: (xvbop _ ob pr) => [r|] //=.
rewrite xvbop_scale_l //; case: (xvbop _ iv _) => [iw|] //=.
rewrite xvbop_scale_l // !xvbop_scale_r //; case: (xvbop _ iw r) => [u|] //=.
by rewrite !argmax_scale.
Qed.

(** ** C86: set_initial and set_weights discard a predicted distribution that was given *)
Theorem C86_predicted_is_discarded s (a : pargs) :
  (forall w n, is_ok (set_weights s w n).2 ->
    [/\ d_pr (set_weights s w n).1 = None, d_pr_dist (set_weights s w n).1 = None,
        d_in (set_weights s w n).1 = d_in s & d_ob (set_weights s w n).1 = d_ob s]) /\
  (forall d, is_ok (set_initial s d).2 ->
    [/\ d_pr (set_initial s d).1 = None, d_pr_dist (set_initial s d).1 = None
      & d_ob (set_initial s d).1 = d_ob s]).
Proof.
split; first by move=> w n ok; rewrite weights_put.
by move=> d ok; have [d' [v [_ _ ->]]] := set_initial_okE ok.
Qed.

(** The next computation then takes a kernel density estimate of y. *)
Theorem C86_kde_instead s s' x : d_up s = None -> d_pr s = None -> mud_point s = (s', Ok x) ->
  exists k v, [/\ kde (dy s) nobw (d_w s) = Ok k, kde_pdf k (dy s) = Ok v & d_pr s' = Some v].
Proof.
move=> eu ep; rewrite /mud_point /ensure_up eu /fit /fill_defaults.
set m1 := (match d_in s with Some _ => _ | None => _ end).
have h1 : is_ok m1.2 -> [/\ dy m1.1 = dy s, d_w m1.1 = d_w s & d_pr m1.1 = None].
  rewrite /m1; case E: (d_in s) => [iv|] //.
  by move=> ok; have [d' [v [_ _ ->]]] := set_initial_okE ok.
case: m1 h1 => s1 [[]|e] //= /(_ isT) [ey ew ->].
rewrite /set_predicted /= /predicted_values /= ey ew.
case Ek: (kde _ _ _) => [k|] //=; case Ev: (kde_pdf k _) => [v|] //=.
set s2 := DP _ _ _ _ _ _ _ _ _ _ _ _ _.
case Eo: (d_ob s1) => [ob|] /=.
  rewrite /lift; case: (xvbop _ _ _) => [r|] //=; case: (rbind _ _) => [u|] //= [<- _].
  by exists k, v.
case E2: (set_observed s2 None) => [s3 [[]|]] //=.
have [v2 _] := @set_observed_okE _ _ _ pdf nokw norm01 s2 None ltac:(by rewrite E2).
rewrite E2 /= => ->.
rewrite /lift; case: (xvbop _ _ _) => [r|] //=; case: (rbind _ _) => [u|] //= [<- _].
by exists k, v.
Qed.

(** ** Plots of the observable space never change the object. *)
Theorem C87_plot_obs_pure (draw : nat -> dprob -> res unit) (s : dprob) (yr : option nat) :
  (plot_obs_space draw s yr).1 = s /\
  (forall k, yr = Some k -> k <> n_features s -> (plot_obs_space draw s yr).2 = Err ValueError) /\
  (yr = Some (n_features s) -> d_ob_dist s = None ->
     (plot_obs_space draw s yr).2 = Err AssertionError).
Proof.
split=> //; split=> [k -> ne|-> e]; rewrite /plot_obs_space /lift /= /guard.
  by case: eqP.
by rewrite eqxx e.
Qed.

(** Parameter plots before set_initial fail, but the domain has already been widened. *)
Theorem C87_plot_before_initial draw s p a b c d : nd_wf (ddom s) -> ndim (ddom s) = 2%N ->
  (1 < dim (ddom s) 1)%N -> d_in_dist s = None ->
  (plot draw s true p a b c d) = (s, Err AssertionError) /\
  (plot draw s false p a b c d).2 = Err AssertionError /\
  rows (ddom (plot draw s false p a b c d).1) = [seq pad_row (cast_of trunc (d_int s)) p r | r <- rows (ddom s)].
Proof.
move=> wf n2 d2 en; split; first by rewrite /plot_param_space /lift /= en.
have [_ _ _ _ [h _]] := @C44_default_range_widens R D KW BW pdf nokw nobw uniform norm01 kde kde_pdf trunc draw s p a b c d wf n2 d2.
split=> //; have [B [eB _ _ _]] := fit_domain_boundsE (cast_of trunc (d_int s)) p wf n2 d2.
by rewrite /plot_param_space /fit_domain eB /= en.
Qed.
End DensityProps4.
