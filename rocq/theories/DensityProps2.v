(** Properties C36, C38-C42 and C82-C86 of DensityProblem. *)
Set Warnings "-notation-overridden,-ambiguous-paths".
From mathcomp Require Import all_ssreflect all_algebra.
From Verif Require Import Py Nd Xnum XnumProofs UtilModel DensityModel NdProofs DensityProps.
Set Implicit Arguments. Unset Strict Implicit. Unset Printing Implicit Defensive.
Import Order.Theory GRing.Theory Num.Theory.
Local Open Scope ring_scope.

Section DensityProps2.
Variable R : rcfType.
Notation xnum := (xnum R).
Notation nd := (nd R).
Variables (D KW BW : Type).
Variable pdf : D -> KW -> nd -> res (pdfval xnum).
Variable nokw : KW.
Variable nobw : BW.
Variable uniform : seq R -> seq R -> D.
Variable norm01 : D.
Variable kde : nd -> BW -> seq xnum -> res D.
Variable kde_pdf : D -> nd -> res (seq xnum).
Variable trunc : R -> R.
Notation dprob := (dprob R D).
Notation pargs := (pargs R D KW BW).
Notation dop := (dop R D KW BW).
Notation no_args := (no_args R D nokw nobw).
Notation set_observed := (set_observed pdf nokw norm01).
Notation set_initial := (set_initial pdf nokw uniform).
Notation set_predicted := (set_predicted pdf kde kde_pdf).
Notation fit := (fit pdf nokw uniform norm01 kde kde_pdf).
Notation mud_point := (mud_point pdf nokw nobw uniform norm01 kde kde_pdf).
Notation expected_ratio := (expected_ratio pdf nokw nobw uniform norm01 kde kde_pdf).
Notation init := (density_init D trunc).
Notation run1 draw := (run1 pdf nokw nobw uniform norm01 kde kde_pdf trunc draw).
Notation run draw := (run pdf nokw nobw uniform norm01 kde kde_pdf trunc draw).
Notation all_return draw := (all_return pdf nokw nobw uniform norm01 kde kde_pdf trunc draw).

Notation nthx := (nth (NaN : xnum)).
Notation plot := (plot_param_space pdf nokw nobw uniform norm01 kde kde_pdf trunc).
Notation ensure_up := (ensure_up pdf nokw nobw uniform norm01 kde kde_pdf).

Lemma xmul_nan (x : xnum) : xmul x NaN = NaN.
Proof. by case: x. Qed.
Lemma zero_over_zero : xdiv (Fin (0 : R)) (Fin 0) = NaN.
Proof. by rewrite /xdiv eqxx /xinf ltxx. Qed.

(** ** C36 *)
(** Updated density of sample [i]. *)
Definition up_at (iv w ob pr : seq xnum) (i : nat) : xnum :=
  xmul (xmul (nthx iv i) (nthx w i)) (xdiv (nthx ob i) (nthx pr i)).

Lemma updatedE iv w ob pr (u : seq xnum) n : updated iv w ob pr u ->
  size iv = n -> size w = n -> size ob = n -> size pr = n ->
  size u = n /\ forall i, (i < n)%N -> nthx u i = up_at iv w ob pr i.
Proof.
move=> [r [iw [h1 h2 h3]]] e1 e2 e3 e4.
move: h1 h2; rewrite !xvbop_same ?e1 ?e3 // => -[er] [ew].
have sr : size r = n by rewrite -er size_map size_zip e3 e4 minnn.
have sw : size iw = n by rewrite -ew size_map size_zip e1 e2 minnn.
move: h3; rewrite xvbop_same ?sr // => -[<-].
rewrite size_map size_zip sr sw minnn; split=> // i hi.
by rewrite nth_zipmap ?sr ?sw // -er -ew !nth_zipmap ?e1 ?e3.
Qed.

Section History.
Variables (X y : nd) (xint : bool) (dom : option nd) (domint : bool) (w : option nd)
  (normalize : bool) (pad : R) (draw : nat -> dprob -> res unit) (s0 : dprob) (h : seq dop).
Hypothesis fresh_object : init X y xint dom domint w normalize pad = Ok s0.
Hypothesis plots : all (@no_plot R D KW BW) h.
Hypothesis returned : all_return draw s0 h.
Notation t := (t_step nokw nobw uniform norm01 s0 (track nokw nobw uniform norm01 s0 h) (OMud R D KW BW)).

(** When the densities give one number per sample and no updated value is NaN, the estimate
    is the first sample of maximal updated density. *)
Theorem C36_estimate_is_maximal s' x : mud_point (run draw s0 h) = (s', Ok x) ->
  exists di a dob iv ob pr,
  [/\ [/\ t_in t = Some di, t_pr t = Some a & t_used t = Some dob],
      [/\ density_at pdf nokw di (dX s0) iv, predicted_at pdf kde kde_pdf (dy s0) (t_w t) a pr
        & density_at pdf nokw dob (dy s0) ob]
    & forall n, size iv = n -> size (t_w t) = n -> size ob = n -> size pr = n ->
      (forall i, (i < n)%N -> ~~ isnan (up_at iv (t_w t) ob pr i)) ->
      exists m, [/\ (m < n)%N, x = nth [::] (rows (dX s0)) m,
        forall i, (i < n)%N -> xle (up_at iv (t_w t) ob pr i) (up_at iv (t_w t) ob pr m)
      & forall i, (i < m)%N -> xlt (up_at iv (t_w t) ob pr i) (up_at iv (t_w t) ob pr m)]].
Proof.
move=> hm; have [di [a [dob [iv [ob [pr [u [m [h1 h2 h3 h4 [h5 h6]]]]]]]]]] :=
  C37_estimate_exact fresh_object plots returned hm.
exists di, a, dob, iv, ob, pr; split=> // n e1 e2 e3 e4 nn.
have [su hu] := updatedE h3 e1 e2 e3 e4.
have nnan : has (@isnan R) u = false.
  by apply/(has_nthP NaN) => -[i hi]; rewrite hu -?su // (negbTE (nn _ _)) // -su.
rewrite nnan in h4; case: h4; rewrite su => lm hle hlt.
exists m; split=> // i hi; first by rewrite -!hu //; apply: hle.
by rewrite -!hu ?(ltn_trans hi) //; apply: hlt.
Qed.

(** ** C42: an undefined updated density (0/0) wins *)
Theorem C42_undefined_density_wins s' x : mud_point (run draw s0 h) = (s', Ok x) ->
  exists di a dob iv ob pr,
  [/\ [/\ t_in t = Some di, t_pr t = Some a & t_used t = Some dob],
      [/\ density_at pdf nokw di (dX s0) iv, predicted_at pdf kde kde_pdf (dy s0) (t_w t) a pr
        & density_at pdf nokw dob (dy s0) ob]
    & forall n i, size iv = n -> size (t_w t) = n -> size ob = n -> size pr = n ->
      (i < n)%N -> nthx ob i = Fin 0 -> nthx pr i = Fin 0 ->
      exists m, [/\ (m <= i)%N, x = nth [::] (rows (dX s0)) m,
        isnan (up_at iv (t_w t) ob pr m)
      & forall j, (j < m)%N -> ~~ isnan (up_at iv (t_w t) ob pr j)]].
Proof.
move=> hm; have [di [a [dob [iv [ob [pr [u [m [h1 h2 h3 h4 [h5 h6]]]]]]]]]] :=
  C37_estimate_exact fresh_object plots returned hm.
exists di, a, dob, iv, ob, pr; split=> // n i e1 e2 e3 e4 hi o0 p0.
have [su hu] := updatedE h3 e1 e2 e3 e4.
have ni : isnan (nthx u i).
  by rewrite hu // /up_at o0 p0 zero_over_zero xmul_nan.
have nnan : has (@isnan R) u by apply/(has_nthP NaN); exists i; rewrite ?su.
rewrite nnan in h4; case: h4; rewrite su => lm nm lt.
exists m; split=> //; last 2 first.
- by rewrite -hu.
- by move=> j jm; rewrite -hu ?(ltn_trans jm) //; apply: lt.
- by rewrite leqNgt; apply/negP => im; have := lt _ im; rewrite ni.
Qed.

(** ** C41: the expected ratio is a weighted mean *)
Theorem C41_expected_ratio_between s' v ws : expected_ratio (run draw s0 h) = (s', Ok v) ->
  t_w t = [seq Fin x | x <- ws] -> all (fun x => 0 <= x) ws -> has (fun x => 0 < x) ws ->
  exists a dob ob pr r,
  [/\ t_pr t = Some a /\ t_used t = Some dob,
      predicted_at pdf kde kde_pdf (dy s0) (t_w t) a pr /\ density_at pdf nokw dob (dy s0) ob,
      xvbop (@xdiv R) ob pr = Ok r
    & forall rs lo hi, r = [seq Fin x | x <- rs] -> all (fun x => lo <= x <= hi) rs ->
      exists2 z, v = Fin z & lo <= z <= hi].
Proof.
move=> /(C37_expected_ratio_exact fresh_object plots returned) [a [dob [ob [pr [r [h1 h2 h3 h4]]]]]].
move=> ew w0 wp; exists a, dob, ob, pr, r; split=> // rs lo hi er hr.
move: h4; rewrite ew er /np_average !size_map; case: eqP => //= es.
have -> : xsum [seq Fin x | x <- ws] = Fin (\sum_(x <- ws) x).
  by rewrite /xsum; elim: (ws) => [|x l ih] /=; rewrite ?big_nil // ih big_cons.
have -> : xsum [seq xmul p.1 p.2 | p <- zip [seq Fin x | x <- rs] [seq Fin x | x <- ws]]
   = Fin (\sum_(p <- zip rs ws) p.1 * p.2).
  rewrite /xsum; elim: (rs) (ws) => [|x l ih] [|z l'] /=; rewrite ?big_nil //.
  by rewrite ih big_cons.
have sp : 0 < \sum_(x <- ws) x.
  elim: (ws) w0 wp => [//|x l ih] /= /andP [x0 l0]; rewrite big_cons => /orP [xp|lp].
    by apply: ltr_paddr => //; rewrite big_seq; apply: sumr_ge0 => z /(allP l0).
  by apply: ltr_paddl => //; apply: ih.
rewrite (gt_eqF sp) /= (gt_eqF sp) => -[<-]; eexists; first by [].
rewrite ler_pdivl_mulr // ler_pdivr_mulr // !mulr_sumr.
elim: (rs) (ws) es hr w0 => [|x l ih] [|z l'] //=; first by rewrite !big_nil lexx.
move=> [es] /andP [/andP [xl xh] hl] /andP [z0 l0]; rewrite !big_cons /=.
have /andP [ih1 ih2] := ih _ es hl l0.
by rewrite !ler_add // ler_wpmul2r.
Qed.

(** Equal observed and predicted densities give exactly one. *)
Theorem C41_ratio_one s' v ws : expected_ratio (run draw s0 h) = (s', Ok v) ->
  t_w t = [seq Fin x | x <- ws] -> all (fun x => 0 <= x) ws -> has (fun x => 0 < x) ws ->
  exists a dob ob pr,
  [/\ t_pr t = Some a /\ t_used t = Some dob,
      predicted_at pdf kde kde_pdf (dy s0) (t_w t) a pr /\ density_at pdf nokw dob (dy s0) ob
    & forall zs, pr = [seq Fin x | x <- zs] -> all (fun x => x != 0) zs -> ob = pr -> v = Fin 1].
Proof.
move=> hv ew w0 wp.
have [a [dob [ob [pr [r [h1 h2 h3 h4]]]]]] := C41_expected_ratio_between hv ew w0 wp.
exists a, dob, ob, pr; split=> // zs ez z0 eo.
have er : r = [seq Fin x | x <- nseq (size zs) (1 : R)].
  move: h3; rewrite eo xvbop_same // ez => -[<-] {hv h4 ez eo}.
  elim: zs z0 => //= z l ih /andP [nz l0]; rewrite ih // (negbTE nz) divff //.
have [|z -> /andP [l1 l2]] := h4 _ 1 1 er; first by rewrite all_nseq lexx orbT.
by congr Fin; apply/le_anti; rewrite l1 l2.
Qed.
End History.

(** ** C37: replacing the observed distribution once an updated density is stored changes
    neither the estimate nor the expected ratio. *)
Theorem C37_observed_is_ignored s u d : d_up s = Some u ->
  (mud_point (set_observed s d).1).2 = (mud_point s).2 /\
  (expected_ratio (set_observed s d).1).2 = (expected_ratio s).2.
Proof.
move=> e; rewrite /mud_point /expected_ratio /ensure_up /set_observed.
by case: (rbind _ _) => [v|x] /=; rewrite e /= e.
Qed.

(** Every other setter makes the next estimate start afresh. *)
Theorem C37_setters_discard s :
  (forall w n, is_ok (set_weights s w n).2 -> d_up (set_weights s w n).1 = None) /\
  (forall d, is_ok (set_initial s d).2 -> d_up (set_initial s d).1 = None) /\
  (forall a, is_ok (set_predicted s a).2 -> d_up (set_predicted s a).1 = None).
Proof.
split; first by move=> w n ok; rewrite weights_put.
split; first by move=> d ok; have [d' [v [_ _ ->]]] := set_initial_okE ok.
move=> a; rewrite /set_predicted; case: (match pa_w a with Some _ => _ | None => _ end).
by move=> s2 [x|] //=; case: (predicted_values _ _ _ _ _) => [[]|].
Qed.

(** ** C38: cache invariant over all histories, also with failing calls *)
Definition cache_ok (s : dprob) : Prop :=
  [/\ (d_up s <> None -> [/\ d_in s <> None, d_pr s <> None, d_ob s <> None & d_r s <> None]),
      (d_in s <> None <-> d_in_dist s <> None),
      (d_pr s <> None <-> d_pr_dist s <> None)
    & (d_ob s <> None -> d_ob_dist s <> None)].

Lemma cache_weights s w n : cache_ok s -> cache_ok (set_weights s w n).1.
Proof.
move=> [h1 h2 h3 h4]; case E: (is_ok (set_weights s w n).2); first by rewrite weights_put //; split.
suff -> : (set_weights s w n).1 = s by split.
by move: E; rewrite /set_weights; case: w => [w|] //=; case: ifP => //; case: ifP.
Qed.
Lemma cache_observed s d : cache_ok s -> cache_ok (set_observed s d).1.
Proof.
move=> [h1 h2 h3 h4]; rewrite /set_observed; case: (rbind _ _) => [v|e] /=; split=> //=.
by move=> /h1 [].
Qed.
Lemma cache_initial s d : cache_ok s -> cache_ok (set_initial s d).1.
Proof.
move=> [h1 h2 h3 h4]; rewrite /set_initial; case: (rbind _ _) => [[d' v]|e] /=; last by split.
by split.
Qed.
Lemma cache_predicted s a : cache_ok s -> cache_ok (set_predicted s a).1.
Proof.
move=> h; rewrite /set_predicted.
have : cache_ok (match pa_w a with Some w => set_weights s (Some w) false | None => (s, Ok tt) end).1.
  by case: (pa_w a) => [w|] //; apply: cache_weights.
case: (match pa_w a with Some _ => _ | None => _ end) => s1 [x|e] //= [h1 h2 h3 h4].
by case: (predicted_values _ _ _ _ _) => [[d v]|e] /=; split.
Qed.
Lemma cache_fill s a : cache_ok s ->
  cache_ok (fill_defaults pdf nokw uniform norm01 kde kde_pdf s a).1 /\
  (is_ok (fill_defaults pdf nokw uniform norm01 kde kde_pdf s a).2 ->
   [/\ d_in (fill_defaults pdf nokw uniform norm01 kde kde_pdf s a).1 <> None,
       d_pr (fill_defaults pdf nokw uniform norm01 kde kde_pdf s a).1 <> None
     & d_ob (fill_defaults pdf nokw uniform norm01 kde kde_pdf s a).1 <> None]).
Proof.
move=> c; rewrite /fill_defaults.
set m1 := (match d_in s with Some _ => _ | None => _ end).
have h1 : cache_ok m1.1 /\ (is_ok m1.2 -> d_in m1.1 <> None).
  rewrite /m1; case E: (d_in s) => [iv|]; first by rewrite /= E.
  split; first exact: cache_initial.
  by move=> ok; have [d' [v [_ _ ->]]] := set_initial_okE ok.
case: m1 h1 => s1 [[]|e] [c1 /= i1] //; move/(_ isT): i1 => i1.
set m2 := (match d_pr s1 with Some _ => _ | None => _ end).
have h2 : cache_ok m2.1 /\ (is_ok m2.2 -> d_pr m2.1 <> None /\ d_in m2.1 = d_in s1).
  rewrite /m2; case E: (d_pr s1) => [pv|]; first by rewrite /= E.
  split; first exact: cache_predicted.
  move=> ok; move: ok; rewrite /set_predicted.
  case E1: (match pa_w a with Some _ => _ | None => _ end) => [s2 [x|]] //=.
  case: (predicted_values _ _ _ _ _) => [[dd vv]|] //= _; split=> //.
  move: E1; case: (pa_w a) => [w|] E1; last by case: E1 => <-.
  have -> : s2 = (set_weights s1 (Some w) false).1 by rewrite E1.
  by rewrite weights_put ?E1.
case: m2 h2 => s2 [[]|e] [c2 /= i2] //; have [p2 e2] := i2 isT.
case E: (d_ob s2) => [ov|] /=; first by rewrite E e2.
split; first exact: cache_observed.
by move=> ok; have [v _ ->] := set_observed_okE ok; rewrite /= e2.
Qed.
Lemma cache_fit s a : cache_ok s -> cache_ok (fit s a).1.
Proof.
move=> c; rewrite /fit; have := cache_fill a c.
case: (fill_defaults _ _ _ _ _ _ _ _) => s1 [[]|e] [c1 /= i1] //.
have [i p o] := i1 isT; rewrite /lift /=.
case: (xvbop _ _ _) => [r|e] //=.
by case: c1 => h1 h2 h3 h4; case: (rbind _ _) => [u|e] /=; split=> //= /h1 [].
Qed.
Lemma cache_ensure s : cache_ok s -> cache_ok (ensure_up s).1.
Proof. by move=> c; rewrite /ensure_up; case: (d_up s) => //; apply: cache_fit. Qed.
Lemma cache_mud s : cache_ok s -> cache_ok (mud_point s).1.
Proof. by move=> /cache_ensure; rewrite /mud_point; case: (ensure_up s) => s1 []. Qed.
Lemma cache_ratio s : cache_ok s -> cache_ok (expected_ratio s).1.
Proof. by move=> /cache_ensure; rewrite /expected_ratio; case: (ensure_up s) => s1 []. Qed.
Lemma cache_plot draw s xr p a b c d : cache_ok s -> cache_ok (plot draw s xr p a b c d).1.
Proof.
move=> h; rewrite /plot_param_space.
set m := (if xr then _ else _).
have : cache_ok m.1 by rewrite /m; case: (xr) => //; case: (fit_domain _ _ _ _).
case: m => s1 [x|e] //= c1; case: (guard _ _) => //= _.
case: (if a then _ else _) => //= _; case: (if b then _ else _) => //= _.
case: (if c then _ else _) => //= _; case: d => //=; have := cache_mud c1.
by rewrite /estimate; case: (mud_point s1) => s2 [x'|e'] //= c2; case: (draw 3%N s2).
Qed.

Theorem C38_cache_invariant X y xi dm di w n p s0 draw h :
  init X y xi dm di w n p = Ok s0 -> cache_ok (run draw s0 h).
Proof.
move=> e; have c0 : cache_ok s0.
  move: e; rewrite /density_init; case: (set_shape _ X) => [X2|] //=; case: (set_shape _ y) => [y2|] //=.
  case: (match dm with Some _ => _ | None => _ end) => [[d2 i2]|] //=.
  case E: (set_weights _ w n) => [s r]; case: r E => [[]|] //= E [<-].
  rewrite -[s]/((s, Ok tt).1) -E; apply: cache_weights; by split.
elim: h s0 c0 {e} => [//|o h ih] s c /=; apply: ih.
case: o => [w' n'|d|d|a|a| | |xr q a b c' d|k] /=.
- exact: cache_weights.
- exact: cache_observed.
- exact: cache_initial.
- exact: cache_predicted.
- exact: cache_fit.
- exact: cache_mud.
- exact: cache_ratio.
- exact: cache_plot.
- by [].
Qed.

(** Asking again gives the same answer and changes nothing. *)
Theorem C38_mud_point_idempotent s s1 x : mud_point s = (s1, Ok x) -> mud_point s1 = (s1, Ok x).
Proof.
have fup s2 a s3 u : fit s2 a = (s3, Ok u) -> d_up s3 <> None.
  rewrite /fit; case: (fill_defaults _ _ _ _ _ _ _ _) => s4 [[]|e] //=; rewrite /lift.
  case: (xvbop _ _ _) => [r|e] //=.
  by case: (rbind _ _) => [u'|e] //= [<-].
rewrite /mud_point /ensure_up.
case E: (d_up s) => [u|] /=; first by move=> [<- e]; rewrite E /= e.
case Ef: (fit s no_args) => [s2 [x'|e]] //= [e1 e2]; rewrite -e1.
by have := fup _ _ _ _ Ef; case E2: (d_up s2) e2 => [u|] //= e2 _; rewrite E2 /= e2.
Qed.

(** ** C84: what a failing call leaves behind *)
Theorem C84_failing_calls s :
  (forall w n e, (set_weights s w n).2 = Err e -> (set_weights s w n).1 = s) /\
  (forall d e, (set_initial s d).2 = Err e -> (set_initial s d).1 = s) /\
  (forall d e, (set_observed s d).2 = Err e ->
     d_ob_dist (set_observed s d).1 = Some (odflt norm01 d) /\
     d_ob (set_observed s d).1 = d_ob s /\ d_up (set_observed s d).1 = d_up s).
Proof.
split; first by move=> w n e; rewrite /set_weights; case: w => [w|] //=; case: ifP => //; case: ifP.
split; first by move=> d e; rewrite /set_initial; case: (rbind _ _) => [[]|].
move=> d e; rewrite /set_observed; case: (rbind _ _) => [v|x] //=.
Qed.
End DensityProps2.
