(** Properties C139 and C140: what DensityProblem.plot_obs_space and the plotting methods of
    BayesProblem draw. *)
Set Warnings "-notation-overridden,-ambiguous-paths".
From Coq Require Import String ZArith.
From mathcomp Require Import all_ssreflect all_algebra.
From Verif Require Import Py Nd Xnum UtilModel DensityModel BayesModel UtilModel2 PlotModel PlotProps PlotProps2 NdProofs UtilProps BayesProps BayesProps2
  StModel PoisModel StExModel PoisExModel SimpleModel CompModel.
Set Implicit Arguments. Unset Strict Implicit. Unset Printing Implicit Defensive.
Import Order.Theory GRing.Theory Num.Theory.
Local Open Scope ring_scope.

Section Props.
Variable R : rcfType.
Notation xnum := (xnum R).
Notation nd := (nd R).
Notation mark := (mark R).
Variables (D BW : Type) (nobw : BW).
Variable gpdf : D -> seq (seq R) -> res (seq (seq R)).
Variable geval : D -> seq (seq R) -> res (seq R).
Variable frozen : D -> bool.
Variable kde : nd -> BW -> seq xnum -> res D.
Notation dprob := (dprob R D).
Notation bprob := (bprob R D).
Notation dist_curve := (dist_curve gpdf geval).
Notation draw_dist := (draw_dist gpdf geval).
Notation obs_plot := (obs_plot nobw gpdf geval frozen kde).
Implicit Types (dom yr : seq (R * R)) (f : seq R -> R).

(** ** Specification *)
(** The density of a distribution object over points with n coordinates: the product of the entries
    of [d.pdf] at a point (source pdf), or the value of the object itself (source kde). *)
Definition density (n : nat) (src : string) (d : D) (f : seq R -> R) : Prop :=
  forall pts, pts != [::] -> all (fun p => size p == n) pts ->
  if (src =? "pdf")%string then
    exists V, gpdf d pts = Ok V /\ [seq \prod_(x <- r) x | r <- V] = [seq f p | p <- pts]
  else geval d pts = Ok [seq f p | p <- pts].
(** The curve drawn for the density f, against the ticks of coordinate k: the sums of f over the
    grid points whose coordinate number c is the i-th tick, scaled to Riemann sum one. *)
Definition scaled_curve dom (aff : nat) f (k c : nat) : seq R * seq R :=
  let iv := nth (0, 0) dom k in
  let S i := slice_sum dom aff f c i in
  ([seq tick iv.1 iv.2 aff i | i <- iota 0 aff.-1],
   [seq S i / (\sum_(j <- iota 0 aff.-1) S j * (`|iv.2 - iv.1| / aff.-1%:R)) | i <- iota 0 aff.-1]).
Definition line_of (lbl : string) (c : seq R * seq R) : mark := DensityCurve lbl c.1 c.2.

Lemma curve_idx src o dom idx k aff : py_index (size dom) idx = Ok k ->
  dist_curve src o dom idx aff = dist_curve src o dom (Posz k) aff.
Proof.
move=> e; rewrite /CompModel.dist_curve /plot_dist e.
have -> : py_index (size dom) (Posz k) = Ok k; last by [].
by case: idx e => j /=; case: ltnP => // lt [<-]; rewrite ?lt // ltn_subrL /= (leq_ltn_trans _ lt).
Qed.

Lemma index_lt n idx k : py_index n idx = Ok k -> (k < n)%N.
Proof. by case: idx => j /=; case: ltnP => // lt [<-] //; rewrite ltn_subrL /= (leq_ltn_trans _ lt). Qed.

Lemma grid_points_ok dom (aff : nat) : dom != [::] -> (1 < aff)%N ->
  grid_columns dom aff != [::] /\ all (fun p => size p == size dom) (grid_columns dom aff).
Proof.
move=> d0 ha; split.
  rewrite -size_eq0 size_map size_tuples /prodn -lt0n.
  by elim: (size dom) => [//|n ih] /=; rewrite muln_gt0 ih andbT; case: (aff) ha => [|[]].
by apply/allP => p /mapP[t _ ->]; rewrite size_map size_iota.
Qed.

Lemma draw_distE lbl src d f dom idx k (aff : nat) : py_index (size dom) idx = Ok k -> (2 < aff)%N ->
  src = "pdf"%string \/ src = "kde"%string -> density (size dom) src d f ->
  draw_dist lbl src (Some d) dom idx aff = Ok [:: line_of lbl (scaled_curve dom aff f k (drawn src (size dom) k))].
Proof.
move=> ek ha hs hd; rewrite /CompModel.draw_dist (curve_idx _ _ _ ek) /CompModel.dist_curve.
have lt := index_lt ek; have d0 : dom != [::] by case: (dom) lt.
have [g0 gs] := grid_points_ok d0 (ltnW ha).
pose pdf' pts := if pts == grid_columns dom aff then gpdf d pts else Ok [seq [:: f p] | p <- pts].
pose kde' pts := if pts == grid_columns dom aff then geval d pts else Ok [seq f p | p <- pts].
have hf : has_density pdf' kde' src f.
  have := hd _ g0 gs; case: hs => -> /= h; [left | right]; split=> // pts; last by rewrite /kde'; case: eqP => // ->.
  rewrite /pdf'; case: eqP => [->|_]; first exact: h.
  by eexists; split; [reflexivity|rewrite -map_comp; apply/eq_map => p /=; rewrite big_seq1].
have := C66_plot_dist lt ha hf; rewrite /plot_dist.
have [mesh [grid [h1 h2 h3 h4 h5]]] := buildE aff d0; rewrite h1; cbn [rbind snd]; rewrite h5 /pdf' /kde' eqxx; cbn [of_opt rbind].
by move=> ->.
Qed.

(** The weights of the push-forward: update ratio times sample weight; equal weights when there
    is no update ratio. *)
Definition push_weights (s : dprob) (w : seq xnum) : Prop :=
  match d_r s with
  | Some r => [/\ size r = size (d_w s), size w = size r &
               forall i, (i < size r)%N -> nth NaN w i = xmul (nth NaN (d_w s) i) (nth NaN r i)]
  | None => w = nseq (dim (dy s) 0) (Fin 1)
  end.

Lemma pushedE (s : dprob) w k : push_weights s w -> kde (dy s) nobw w = Ok k -> pushed_kde nobw kde s = Ok k.
Proof.
rewrite /push_weights /pushed_kde; case: (d_r s) => [r [s1 s2 h]|->] //.
rewrite /xvbop s1 eqxx; cbn [rbind].
rewrite (_ : [seq xmul p.1 p.2 | p <- zip (d_w s) r] = w) //.
apply: (@eq_from_nth _ NaN); first by rewrite size_map size_zip s1 s2 minnn.
move=> i; rewrite size_map size_zip s1 minnn => hi.
by rewrite (nth_map (NaN, NaN)) ?size_zip ?s1 ?minnn // nth_zip ?s1 // h // s1.
Qed.

(** C139: the curves drawn, for the options that are not None or empty: observed, predicted,
    push-forward.  The observed density is drawn from its pdf, the predicted one from its pdf
    if it is one of scipy's frozen distributions. *)
Theorem C139_curves (s : dprob) idx k yr (aff : nat) ob pr pf d fo p fp w e fe :
  let n := size yr in
  py_index n idx = Ok k -> (2 < aff)%N -> n = dim (dy s) 1 ->
  d_ob_dist s = Some d -> density n "pdf" d fo ->
  let src := (if frozen p then "pdf" else "kde")%string in
  d_pr_dist s = Some p -> density n src p fp ->
  push_weights s w -> kde (dy s) nobw w = Ok e -> density n "kde" e fe ->
  obs_plot s idx (Some yr) aff ob pr pf =
  Ok ((if ob is OSet l then [:: line_of (odflt "$\pi_\mathrm{obs}$"%string l) (scaled_curve yr aff fo k (drawn "pdf" n k))] else [::]) ++
      (if pr is OSet l then [:: line_of (odflt "$\pi_\mathrm{pred}$"%string l) (scaled_curve yr aff fp k (drawn src n k))] else [::]) ++
      (if pf is OSet l then [:: line_of (odflt "$\pi_\mathrm{pf-pr}$"%string l) (scaled_curve yr aff fe k (drawn "kde" n k))] else [::])).
Proof.
move=> n ek ha sz ed ho src ep hp hw ew he.
have hsrc : src = "pdf"%string \/ src = "kde"%string by rewrite /src; case: (frozen p); [left|right].
rewrite /CompModel.obs_plot; cbn [rbind]; rewrite /n_features (_ : (size yr == dim (dy s) 1) = true); last (by apply/eqP; exact: sz); cbn [guard rbind].
rewrite ed ep; cbn [of_opt rbind]; rewrite (pushedE hw ew) -/src.
rewrite !(draw_distE _ ek ha (or_introl erefl) ho) !(draw_distE _ ek ha hsrc hp); cbn [rbind].
rewrite !(draw_distE _ ek ha (or_intror erefl) he); cbn [rbind].
by case: ob => [||[?|]]; case: pr => [||[?|]]; case: pf => [||[?|]].
Qed.

Lemma slice_one lo hi (aff : nat) f i : (i < aff.-1)%N -> slice_sum [:: (lo, hi)] aff f 0 i = f [:: tick lo hi aff i].
Proof.
move=> hi'; rewrite /slice_sum [tuples _]/= big_flatten big_map /=.
rewrite (eq_bigr (fun j => if j == i then f [:: tick lo hi aff j] else 0)); last first.
  by move=> j _; rewrite big_cons big_nil /= addr0.
rewrite -big_mkcond -big_filter (_ : filter _ _ = [:: i]) ?big_seq1 //.
by rewrite (@eq_filter _ _ (pred1 i)) // filter_pred1_uniq ?iota_uniq // mem_iota.
Qed.

(** C139: with one observable each curve shows the density itself at the aff - 1 ticks, scaled to
    Riemann sum one. *)
Theorem C139_one_observable lo hi (aff : nat) f src :
  scaled_curve [:: (lo, hi)] aff f 0 (drawn src 1 0) =
  let T i := tick lo hi aff i in
  ([seq T i | i <- iota 0 aff.-1],
   [seq f [:: T i] / (\sum_(j <- iota 0 aff.-1) f [:: T j] * (`|hi - lo| / aff.-1%:R)) | i <- iota 0 aff.-1]).
Proof.
have e : drawn src 1 0 = 0%N by rewrite /drawn /other; case: ifP.
have S := @slice_one lo hi aff f.
rewrite e /scaled_curve /=; congr (_, _).
have E : \sum_(j <- iota 0 aff.-1) slice_sum [:: (lo, hi)] aff f 0 j * (`|hi - lo| / aff.-1%:R) =
         \sum_(j <- iota 0 aff.-1) f [:: tick lo hi aff j] * (`|hi - lo| / aff.-1%:R).
  by apply: eq_big_seq => j; rewrite mem_iota add0n => /andP[_ hj]; rewrite S.
by apply/eq_in_map => i; rewrite mem_iota add0n => /andP[_ hj]; rewrite E S.
Qed.

(** C139: with two observables, asked for observable k, the curves drawn from a pdf (observed, and
    predicted if frozen) are marginals of the other observable, those drawn from an estimate of
    observable k. *)
Theorem C139_two_observables (s : dprob) k yr (aff : nat) lo lp lf d fo p fp w e fe :
  size yr = 2%N -> dim (dy s) 1 = 2%N -> (k < 2)%N -> (2 < aff)%N ->
  d_ob_dist s = Some d -> density 2 "pdf" d fo -> d_pr_dist s = Some p ->
  density 2 (if frozen p then "pdf" else "kde")%string p fp ->
  push_weights s w -> kde (dy s) nobw w = Ok e -> density 2 "kde" e fe ->
  obs_plot s (Posz k) (Some yr) aff (OSet (Some lo)) (OSet (Some lp)) (OSet (Some lf)) =
  Ok [:: line_of lo (scaled_curve yr aff fo k (1 - k));
         line_of lp (scaled_curve yr aff fp k (if frozen p then 1 - k else k)%N);
         line_of lf (scaled_curve yr aff fe k k)].
Proof.
move=> sy sd hk ha ed hd ep hp hw ew he.
have ek : py_index (size yr) (Posz k) = Ok k by rewrite /= sy hk.
rewrite -sy in hd hp he; rewrite (C139_curves _ _ _ ek ha _ ed hd ep hp hw ew he) ?sy ?sd //.
have [e1 e2] : drawn "pdf" 2 k = (1 - k)%N /\ drawn "kde" 2 k = k by case: (k) hk => [|[]].
by rewrite e1 e2; case: (frozen p); rewrite ?e1 ?e2.
Qed.

(** C139: the area below a curve is one, unless the density sums to zero on the grid. *)
Theorem C139_area dom (aff : nat) f k c : let iv := nth (0, 0) dom k in
  let dx := `|iv.2 - iv.1| / aff.-1%:R in
  \sum_(j <- iota 0 aff.-1) slice_sum dom aff f c j * dx != 0 ->
  \sum_(y <- (scaled_curve dom aff f k c).2) y * dx = 1.
Proof.
move=> iv dx nz; rewrite /scaled_curve /= -/iv -/dx big_map.
rewrite (eq_bigr (fun i => (slice_sum dom aff f c i * dx) / (\sum_(j <- iota 0 aff.-1) slice_sum dom aff f c j * dx))).
  by rewrite -[X in X = _]mulr_suml divff.
by move=> i _; rewrite mulrAC.
Qed.

(** C139: without y_range: from the least to the greatest value of each observable, made longer by
    a tenth of the difference on both sides. *)
Theorem C139_default_range (s : dprob) idx aff ob pr pf : ndim (dy s) = 2%N -> (0 < dim (dy s) 0)%N ->
  exists yr, [/\ size yr = dim (dy s) 1,
    forall j, (j < dim (dy s) 1)%N -> exists lo hi, [/\
      forall i, (i < dim (dy s) 0)%N -> lo <= nth 0 (nth [::] (rows (dy s)) i) j <= hi,
      exists2 i, (i < dim (dy s) 0)%N & nth 0 (nth [::] (rows (dy s)) i) j = lo,
      exists2 i, (i < dim (dy s) 0)%N & nth 0 (nth [::] (rows (dy s)) i) j = hi &
      nth (0, 0) yr j = (lo - (hi - lo) / 10%:R, hi + (hi - lo) / 10%:R)] &
    obs_plot s idx None aff ob pr pf = obs_plot s idx (Some yr) aff ob pr pf].
Proof.
move=> n2 y0; have [B [eB sB rB]] := C49_float_rows (10%:R^-1) n2 y0.
have sz : size (intervals B) = dim (dy s) 1 by rewrite size_map size_rows /dim sB.
exists (intervals B); split=> //.
  move=> j hj; have [lo [hi [[h1 h2 h3] h4 _]]] := rB j hj; exists lo, hi.
  have C x : x \in column (dy s) j -> exists2 i, (i < dim (dy s) 0)%N & nth 0 (nth [::] (rows (dy s)) i) j = x.
    move=> /(nthP 0)[i]; rewrite size_map size_rows => hi' <-; exists i => //.
    by rewrite (nth_map [::]) // size_rows.
  split; [|exact: C|exact: C|].
    move=> i hi'; apply: h3; apply/(nthP 0); exists i; rewrite ?size_map ?size_rows //.
    by rewrite (nth_map [::]) // size_rows.
  rewrite /intervals (nth_map [::]) ?h4 /=; last by rewrite -(size_map (fun r : seq R => (nth 0 r 0, nth 0 r 1))) -/(intervals B) sz.
  by rewrite ![10%:R^-1 * _]mulrC.
by rewrite /CompModel.obs_plot eB.
Qed.

(** C139: the exceptions. *)
Theorem C139_errors (s : dprob) idx yr (aff : nat) ob pr pf :
  [/\ size yr <> dim (dy s) 1 -> obs_plot s idx (Some yr) aff ob pr pf = Err ValueError,
      size yr = dim (dy s) 1 -> d_ob_dist s = None -> obs_plot s idx (Some yr) aff ob pr pf = Err AssertionError &
      forall d f l k, size yr = dim (dy s) 1 -> py_index (size yr) idx = Ok k -> (2 < aff)%N ->
        d_ob_dist s = Some d -> density (size yr) "pdf" d f -> d_pr_dist s = None ->
        obs_plot s idx (Some yr) aff ob (OSet l) pf = Err TypeError].
Proof.
split.
- by move=> /eqP ne; rewrite /CompModel.obs_plot; cbn [rbind]; rewrite /n_features (negbTE ne).
- by move=> sz en; rewrite /CompModel.obs_plot; cbn [rbind]; rewrite /n_features sz eqxx en.
move=> d f l k sz ek ha ed hd ep.
rewrite /CompModel.obs_plot; cbn [rbind]; rewrite /n_features sz eqxx; cbn [guard rbind].
rewrite ed ep; cbn [of_opt rbind]; rewrite (draw_distE _ ek ha (or_introl erefl) hd).
have d0 : yr != [::] by case: (yr) (index_lt ek).
have E : draw_dist (label (OSet l) "$\pi_\mathrm{pred}$") "kde" None yr idx aff = Err TypeError.
  have [mesh [grid [h1 h2 h3 h4 h5]]] := buildE aff d0.
  rewrite /CompModel.draw_dist (curve_idx _ _ _ ek) /CompModel.dist_curve /plot_dist h1; cbn [rbind].
  by rewrite /py_index (index_lt ek); cbn [rbind]; rewrite ticksE.
by rewrite [truthy (OSet l)]/= E; case: (truthy ob).
Qed.

(** C139: the call is one of the calls of the histories of C37, C38 and C42: it leaves the problem
    as it is, whatever is drawn. *)
Theorem C139_refines (s : dprob) idx (yr : option (seq (R * R))) aff ob pr pf : exists draw,
  DensityModel.plot_obs_space draw s (omap size yr) = (s, rmap (fun _ => tt) (obs_plot s idx yr aff ob pr pf)).
Proof.
exists (fun _ _ => rmap (fun _ => tt) (obs_plot s idx yr aff ob pr pf)).
rewrite /DensityModel.plot_obs_space /DensityModel.lift; congr (_, _).
rewrite /CompModel.obs_plot; case: yr => [yr|]; cbn [omap obind oapp rbind rmap].
  by case: (_ == _) => //; cbn [guard rbind]; case: (d_ob_dist s).
case: (fit_domain _ _ _ _) => [B|//]; cbn [rmap rbind].
have -> : size (intervals B) = dim B 0 by rewrite size_map size_rows.
by case: (_ == _) => //; cbn [guard rbind]; case: (d_ob_dist s).
Qed.

(** ** BayesProblem *)
Variables (spdf : D -> nd -> res (pdfval xnum)) (uniform : seq R -> seq R -> D) (ln : R -> R).
Notation bmap := (map_point spdf uniform ln).
Notation bparam_plot := (bparam_plot nobw gpdf geval kde spdf uniform ln).
Notation bobs_plot := (bobs_plot nobw gpdf geval kde).

Definition vline (o : popts) (default : string) (x : R) : seq mark :=
  match o with ONone => [::] | OEmpty => [:: VLine default x] | OSet l => [:: VLine (odflt default l) x] end.
Definition dline (o : popts) (default : string) (c : seq R * seq R) : seq mark :=
  match o with ONone => [::] | OEmpty => [:: line_of default c] | OSet l => [:: line_of (odflt default l) c] end.

(** C140: plot_param_space of a problem whose prior is set and whose estimate is x: the prior from
    its pdf, the posterior as the kernel density estimate of the samples weighted with the posterior
    values, the MAP point, the true value if given; over the domain as it is. *)
Theorem C140_param_curves (s s1 : bprob) idx k (aff : nat) pr ps mp tr tv x_range x d f ws e fe :
  let xr := odflt (intervals (bdom s)) x_range in
  py_index (size xr) idx = Ok k -> (2 < aff)%N ->
  b_pr_dist s = Some d -> density (size xr) "pdf" d f ->
  bmap s = (s1, Ok x) -> size x = size xr -> (if tv is Some t then size t = size xr else True) ->
  b_ps s1 = Some ws -> kde (bX s) nobw ws = Ok e -> density (size xr) "kde" e fe ->
  bparam_plot s idx x_range aff pr ps mp tr tv =
  (if not_none ps || not_none mp then s1 else s,
   Ok (dline pr "Prior" (scaled_curve xr aff f k (drawn "pdf" (size xr) k)) ++
       dline ps "Posterior" (scaled_curve xr aff fe k (drawn "kde" (size xr) k)) ++
       vline mp "$\lambda^\mathrm{MAP}$" (nth 0 x k) ++
       (if tv is Some t then if tr is OSet l then [:: VLine (odflt "$\lambda^{\dagger}$"%string l) (nth 0 t k)] else [::] else [::]))).
Proof.
move=> xr ek ha ed hd eM sx st es ew he.
have M1 : bmap s1 = (s1, Ok x) := C90_map_point_idempotent eM.
have k1 : bX s1 = bX s.
  have [h _ _] := @C90_data_never_change R D spdf (fun _ _ => Err TypeError) uniform ln (fun _ _ => Ok tt) s [:: BMap D].
  by move: h; rewrite /brun /= eM.
rewrite /CompModel.bparam_plot -/(odflt (intervals (bdom s)) x_range) -/xr ed.
have A : forall v : seq R, size v = size xr -> at_idx v idx = Ok (nth 0 v k).
  by move=> v sv; rewrite /at_idx sv ek.
have Epr : (if not_none pr then draw_dist (label pr "Prior") "pdf" (Some d) xr idx aff else Ok [::]) =
   Ok (dline pr "Prior" (scaled_curve xr aff f k (drawn "pdf" (size xr) k))).
  by case: (pr) => [||[?|]] //; apply: (draw_distE _ ek ha (or_introl erefl) hd).
rewrite Epr; cbn [DensityModel.lift sbind].
have P2 : posterior_kde nobw kde (bX s1) s1 = Ok e by rewrite /posterior_kde es k1.
have V o dflt v : size v = size xr ->
  (x <- at_idx v idx ;; Ok [:: @VLine R (label o dflt) x]) = Ok [:: VLine (label o dflt) (nth 0 v k)].
  by move=> sv; rewrite A.
have EP o : draw_dist (label o "Posterior") "kde" (Some e) xr idx aff =
   Ok [:: line_of (label o "Posterior") (scaled_curve xr aff fe k (drawn "kde" (size xr) k))].
  exact: (draw_distE _ ek ha (or_intror erefl) he).
have ET : (if tv is Some t then if truthy tr then x <- at_idx t idx ;; Ok [:: @VLine R (label tr "$\lambda^{\dagger}$") x] else Ok [::] else Ok [::]) =
  Ok (if tv is Some t then if tr is OSet l then [:: VLine (odflt "$\lambda^{\dagger}$"%string l) (nth 0 t k)] else [::] else [::]).
  by case: (tv) st => [t st|] //; rewrite V //; case: (tr) => [||[]].
case: ps => [||lp]; cbn [not_none orb]; rewrite ?eM; cbn [sbind]; rewrite ?P2; cbn [rbind DensityModel.lift]; rewrite ?EP; cbn [sbind rbind];
case: mp => [||lm]; cbn [not_none]; rewrite ?eM ?M1; cbn [sbind DensityModel.lift]; rewrite ?V //; cbn [sbind DensityModel.lift]; rewrite ET; cbn [rbind];
rewrite ?M1; cbn [sbind DensityModel.lift]; rewrite ?V //; cbn [sbind DensityModel.lift];
try (by []); try (by case: lp); try (by case: lm); try (by case: lp; case: lm).
Qed.

(** C140: the prior is drawn before the estimate is computed: without a prior (neither set nor
    computed by fit or estimate) plot_param_space raises, and computes nothing. *)
Theorem C140_prior_first (s : bprob) idx k (aff : nat) pr ps mp tr tv x_range :
  let xr := odflt (intervals (bdom s)) x_range in
  py_index (size xr) idx = Ok k -> b_pr_dist s = None -> pr <> ONone ->
  bparam_plot s idx x_range aff pr ps mp tr tv = (s, Err AttributeError).
Proof.
move=> xr ek en np; rewrite /CompModel.bparam_plot -/(odflt (intervals (bdom s)) x_range) -/xr en.
have d0 : xr != [::] by case: (xr) (index_lt ek).
have E l : draw_dist l "pdf" None xr idx aff = Err AttributeError.
  have [mesh [grid [h1 h2 h3 h4 h5]]] := buildE aff d0.
  rewrite /CompModel.draw_dist (curve_idx _ _ _ ek) /CompModel.dist_curve /plot_dist h1; cbn [rbind].
  by rewrite /py_index (index_lt ek); cbn [rbind]; rewrite ticksE.
by case: pr np => [//||l] _; cbn [not_none]; rewrite E.
Qed.

(** C140: plot_param_space changes the problem as in the histories of C45 and C48. *)
Theorem C140_param_refines (s : bprob) idx aff pr ps mp tr tv x_range : exists draw,
  let r := bparam_plot s idx x_range aff pr ps mp tr tv in
  bplot_param spdf uniform ln draw s (not_none pr) (not_none ps) (not_none mp) = (r.1, rmap (fun _ => tt) r.2).
Proof.
set xr := if x_range is Some r then r else intervals (bdom s).
pose void A (r : res A) : res unit := rmap (fun _ => tt) r.
exists (fun i s => match i with
  | 0%N => void _ (draw_dist (label pr "Prior") "pdf" (b_pr_dist s) xr idx aff)
  | 1%N => void _ (k <- posterior_kde nobw kde (bX s) s ;; draw_dist (label ps "Posterior") "kde" (Some k) xr idx aff)
  | 2%N => void _ (m <- (bmap s).2 ;; at_idx m idx)
  | _ => void _ (if tv is Some t then if truthy tr then x <- at_idx t idx ;; Ok [:: VLine (label tr "$\lambda^{\dagger}$") x] else Ok [::] else Ok [::])
  end).
rewrite /bplot_param /CompModel.bparam_plot -/xr /DensityModel.lift.
set T := (if tv is Some t then _ else _).
have E1 : exists o : res (seq mark), (if not_none pr then draw_dist (label pr "Prior") "pdf" (b_pr_dist s) xr idx aff else Ok [::]) = o /\
  (if not_none pr then void _ (draw_dist (label pr "Prior") "pdf" (b_pr_dist s) xr idx aff) else Ok tt) = void _ o.
  by eexists; split; [reflexivity|case: (not_none pr)].
case: E1 => [[m1|e] [-> ->]] //; rewrite /void; cbn [rmap sbind].
have F (s0 : bprob) (m2 : seq mark) :
  sbind (if not_none mp then sbind (bmap s0) (fun s2 _ => (s2, rmap (fun _ => tt) (m <- (bmap s2).2 ;; at_idx m idx))) else (s0, Ok tt))
    (fun s3 _ => (s3, rmap (fun _ => tt) T)) =
  (let r := sbind (if not_none mp then sbind (bmap s0) (fun s2 m => (s2, x <- at_idx m idx ;; Ok [:: @VLine R (label mp "$\lambda^\mathrm{MAP}$") x])) else (s0, Ok [::]))
    (fun s3 m3 => (s3, m4 <- T ;; Ok (m1 ++ m2 ++ m3 ++ m4))) in (r.1, rmap (fun _ => tt) r.2)).
  case: (not_none mp); last by cbn [sbind]; case: T.
  case eM : (bmap s0) => [s2 [m|e]] //; cbn [sbind].
  rewrite (C90_map_point_idempotent eM); cbn [snd rbind].
  by case: (at_idx m idx) => [x|e] //; cbn [rbind rmap sbind]; case: T.
case: (not_none ps); last by cbn [sbind]; apply: F.
case: (bmap s) => [s2 [m|e]] //; cbn [sbind].
by case: (rbind _ _) => [m2|e] //; cbn [rmap sbind]; apply: F.
Qed.

(** ** plot_obs_space *)
(** The value of a density at the i-th tick of coordinate k: its sum over the grid points whose
    coordinate number c is the i-th tick, not scaled. *)
Definition raw_curve dom (aff : nat) f (k c : nat) : seq R * seq R :=
  let iv := nth (0, 0) dom k in
  ([seq tick iv.1 iv.2 aff i | i <- iota 0 aff.-1], [seq slice_sum dom aff f c i | i <- iota 0 aff.-1]).

Lemma bobs_prelude yr idx k (aff : nat) : py_index (size yr) idx = Ok k ->
  exists mesh grid, [/\ build_nd_mesh_grid yr aff = Ok (mesh, grid),
     Nd.shape (nth (nd1 [::]) mesh 0) = nseq (size yr) aff.-1, points grid = grid_columns yr aff,
     size grid = size yr & size (head [::] grid) = size (grid_columns yr aff)].
Proof.
move=> ek; have lt := index_lt ek; have d0 : yr != [::] by case: (yr) lt.
have [mesh [grid [h1 h2 h3 h4 h5]]] := buildE aff d0; exists mesh, grid; split=> //.
- by rewrite h3 // (leq_ltn_trans _ lt).
- by case: h4.
- by rewrite -h5 /points size_map size_iota.
Qed.

Lemma grid_sizes yr (aff : nat) mesh grid r : build_nd_mesh_grid yr aff = Ok (mesh, grid) -> r \in grid ->
  size r = size (grid_columns yr aff).
Proof.
rewrite /build_nd_mesh_grid all_ticks; cbn [rbind]; rewrite meshE; set m := [seq Nd _ _ | k <- _] => h hr.
have {h hr} : r \in [seq data a | a <- m].
  by move: h hr; rewrite /m; case: (map _ _) => // a m' [_ <-].
rewrite /m -map_comp => /mapP[k _ ->]; by rewrite /= !size_map.
Qed.

Lemma reshape_grid yr (aff : nat) f :
  reshape1 [seq f p | p <- grid_columns yr aff] (nseq (size yr) aff.-1) =
  Ok (Nd (nseq (size yr) aff.-1) [seq f p | p <- grid_columns yr aff]).
Proof. by rewrite /reshape1 !size_map size_tuples eqxx. Qed.

(** C140: the likelihood is drawn for a distribution whose pdf acts entry by entry (density g of
    one number), as the product over the observables; the push-forward of the posterior is the kernel
    density estimate of the outputs with the posterior values as weights (equal weights if there are
    none: plot_obs_space does not compute them).  Both are sums over slices of the grid, not scaled,
    for the observables 0 and 1 exchanged when there are two or more. *)
Theorem C140_obs_curves (s : bprob) idx k (aff : nat) y_range ll pf lv d g e fe :
  let yr := odflt (nseq (dim (by_ s) 1) (-1, 1)) y_range in
  py_index (size yr) idx = Ok k -> (1 < aff)%N ->
  b_ll s = Some lv -> b_ll_dist s = Some d ->
  (forall rs m, rs != [::] -> (0 < m)%N -> all (fun r => size r == m) rs -> gpdf d rs = Ok [seq [seq g x | x <- r] | r <- rs]) ->
  kde (by_ s) nobw (odflt (nseq (dim (by_ s) 0) (Fin 1)) (b_ps s)) = Ok e -> density (size yr) "kde" e fe ->
  bobs_plot s idx y_range aff ll pf =
  Ok (dline ll "Data-Likelihood" (raw_curve yr aff (fun p => \prod_(x <- p) g x) k (other (size yr) k)) ++
      dline pf "PF of Posterior" (raw_curve yr aff fe k (other (size yr) k))).
Proof.
move=> yr ek ha el ed hg ee he; rewrite /CompModel.bobs_plot -/(odflt (nseq (dim (by_ s) 1) (-1, 1)) y_range) -/yr.
have [mesh [grid [h1 h2 h3 h4 h5]]] := bobs_prelude aff ek; rewrite h1; cbn [rbind fst snd]; rewrite ek; cbn [rbind].
rewrite ticksE; cbn [rbind]; rewrite h2 h3 el ed; cbn [isSome guard of_opt rbind].
have d0 : yr != [::] by case: (yr) (index_lt ek).
have [g0 gs] := grid_points_ok d0 ha.
rewrite (hg _ (size (grid_columns yr aff))); first 1 last.
- by rewrite -size_eq0 h4 size_eq0.
- by rewrite lt0n size_eq0.
- by apply/allP => r /(grid_sizes h1) ->.
cbn [rbind].
have -> : col_prods [seq [seq g x | x <- r] | r <- grid] = [seq \prod_(x <- p) g x | p <- grid_columns yr aff].
  rewrite -h3 /points -map_comp /col_prods.
  have -> : size (head [::] [seq [seq g x | x <- r] | r <- grid]) = size (head [::] grid).
    by case: (grid) => //= r gr; rewrite size_map.
  apply/eq_in_map => q; rewrite mem_iota add0n => /andP[_ hq] /=; rewrite !big_map.
  apply: eq_big_seq => r hr; rewrite (nth_map 0) // (grid_sizes h1 hr) -h5 //.
rewrite reshape_grid; cbn [rbind]; rewrite !margin_grid ?(index_lt ek) //.
have -> : posterior_kde nobw kde (by_ s) s = Ok e by rewrite /posterior_kde -ee; case: (b_ps s).
cbn [rbind]; rewrite (he _ g0 gs); cbn [rbind]; rewrite reshape_grid; cbn [rbind]; rewrite margin_grid ?(index_lt ek) //.
by case: ll => [||[?|]]; case: pf => [||[?|]].
Qed.

(** C140: with one observable the curve of a density f is f at the ticks (not scaled). *)
Theorem C140_one_observable lo hi (aff : nat) f :
  raw_curve [:: (lo, hi)] aff f 0 (other 1 0) =
  ([seq tick lo hi aff i | i <- iota 0 aff.-1], [seq f [:: tick lo hi aff i] | i <- iota 0 aff.-1]).
Proof.
rewrite /raw_curve /=; congr (_, _); apply/eq_in_map => i; rewrite mem_iota add0n => /andP[_ hj].
exact: slice_one.
Qed.

(** C140: exceptions of plot_obs_space: no such observable; no likelihood. *)
Theorem C140_obs_errors (s : bprob) idx (aff : nat) y_range ll pf :
  let yr := odflt (nseq (dim (by_ s) 1) (-1, 1)) y_range in
  [/\ yr = [::] -> bobs_plot s idx y_range aff ll pf = Err ValueError,
      yr <> [::] -> py_index (size yr) idx = Err IndexError -> bobs_plot s idx y_range aff ll pf = Err IndexError &
      forall k, py_index (size yr) idx = Ok k -> b_ll s = None -> ll <> ONone ->
        bobs_plot s idx y_range aff ll pf = Err ValueError].
Proof.
move=> yr; rewrite /CompModel.bobs_plot -/(odflt (nseq (dim (by_ s) 1) (-1, 1)) y_range) -/yr; split.
- by move=> y0; rewrite C66_grid_errors; last by left.
- move=> /eqP y0 ei; have [mesh [grid [h1 _ _ _ _]]] := buildE aff y0.
  by rewrite h1; cbn [rbind]; rewrite ei.
move=> k ek el nl; have [mesh [grid [h1 h2 h3 h4 h5]]] := bobs_prelude aff ek; rewrite h1; cbn [rbind fst snd]; rewrite ek; cbn [rbind].
by rewrite ticksE; cbn [rbind]; rewrite el; case: ll nl.
Qed.

(** C140: plot_obs_space leaves the problem as it is, as in the histories of C45 and C48. *)
Theorem C140_obs_refines (s : bprob) idx aff ll pf y_range : exists draw,
  bplot_obs draw s (not_none ll) (not_none pf) = (s, rmap (fun _ => tt) (bobs_plot s idx y_range aff ll pf)).
Proof.
pose void A (r : res A) : res unit := rmap (fun _ => tt) r.
exists (fun i s => void _ match i with 4%N => bobs_plot s idx y_range aff ONone ONone
  | 5%N => bobs_plot s idx y_range aff ll ONone | _ => bobs_plot s idx y_range aff ONone pf end).
rewrite /bplot_obs /CompModel.bobs_plot /DensityModel.lift; congr (_, _).
set yr := if y_range is Some r then r else _.
case: (build_nd_mesh_grid yr aff) => [mg|//]; cbn [rbind].
case: (py_index (size yr) idx) => [k|//]; cbn [rbind].
case: (ticks _ _ _) => [t|//]; cbn [rbind not_none void rmap].
case: (not_none ll) => /=; last first.
  by case: (not_none pf).
case: (b_ll s) => [v|//]; cbn [isSome guard rbind]; case: (b_ll_dist s) => [d|//]; cbn [of_opt rbind].
case: (gpdf d _) => [V|//]; cbn [rbind]; case: (reshape1 _ _) => [a|//]; cbn [rbind rmap].
by case: (not_none pf) => //; case: (posterior_kde _ _ _ _) => [e|//]; cbn [rbind]; case: (geval e _) => [W|//]; cbn [rbind]; case: (reshape1 _ _).
Qed.
End Props.
