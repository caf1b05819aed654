(** Property C161: the units in which parameters and observables are given do not matter to a DensityProblem. *)
Set Warnings "-notation-overridden,-ambiguous-paths".
From mathcomp Require Import all_ssreflect all_algebra.
From mathcomp.algebra_tactics Require Import ring.
From Verif Require Import Py Nd Xnum XnumProofs UtilModel DensityModel NdProofs DensityProps2 DensityProps3 DensityProps4 OrderProps.
Set Implicit Arguments. Unset Strict Implicit. Unset Printing Implicit Defensive.
Import Order.Theory GRing.Theory Num.Theory.
Local Open Scope ring_scope.

(** ** Specification *)
Section Spec.
Variable R : rcfType.
Notation xnum := (xnum R).
Notation nd := (nd R).
(** Units: for each coordinate a factor and an offset. *)
Definition units := seq (R * R).
Definition to_unit (u : R * R) (x : R) : R := u.1 * x + u.2.
(** A point, and a list of lengths, in other units. *)
Definition point_in (u : units) (r : seq R) : seq R := [seq to_unit p.1 p.2 | p <- zip u r].
Definition lengths_in (u : units) (r : seq R) : seq R := [seq p.1.1 * p.2 | p <- zip u r].
(** An array of points (one per row), and a domain (one row of bounds per coordinate), in other units. *)
Definition points_in (u : units) (A : nd) : nd := Nd (shape A) (flatten [seq point_in u r | r <- rows A]).
Definition domain_in (u : units) (A : nd) : nd := Nd (shape A) (flatten [seq map (to_unit p.1) p.2 | p <- zip u (rows A)]).
Definition positive (u : units) : bool := all (fun p => 0 < p.1) u.
(** Densities that are [c] times as large, once multiplied over the coordinates. *)
Definition times (c : R) (s : seq xnum) : seq xnum := [seq xmul (Fin c) x | x <- s].
Definition densities_times (c : R) (v v' : res (pdfval xnum)) : Prop :=
  match v, v' with
  | Ok (P2 s), Ok (P2 s') => [seq xprod r | r <- s'] = times c [seq xprod r | r <- s]
  | Ok (P1 s), Ok (P1 s') => s' = times c s
  | Err e, Err e' => e = e'
  | _, _ => False
  end.
End Spec.

Section Units.
Variable R : rcfType.
Notation xnum := (xnum R).
Notation nd := (nd R).
Variables (D KW BW : Type) (pdf : D -> KW -> nd -> res (pdfval xnum)) (nokw : KW) (nobw : BW)
  (uniform : seq R -> seq R -> D) (norm01 : D) (kde : nd -> BW -> seq xnum -> res D)
  (kde_pdf : D -> nd -> res (seq xnum)) (trunc : R -> R).
Notation dprob := (dprob R D).
Notation pargs := (pargs R D KW BW).
Notation dop := (dop R D KW BW).
Notation no_args := (no_args R D nokw nobw).
Notation set_observed := (set_observed pdf nokw norm01).
Notation set_initial := (set_initial pdf nokw uniform).
Notation set_predicted := (set_predicted pdf kde kde_pdf).
Notation fill_defaults := (fill_defaults pdf nokw uniform norm01 kde kde_pdf).
Notation fit := (fit pdf nokw uniform norm01 kde kde_pdf).
Notation ensure_up := (ensure_up pdf nokw nobw uniform norm01 kde kde_pdf).
Notation mud_point := (mud_point pdf nokw nobw uniform norm01 kde kde_pdf).
Notation expected_ratio := (expected_ratio pdf nokw nobw uniform norm01 kde kde_pdf).
Notation init := (density_init D trunc).
Notation run1 draw := (run1 pdf nokw nobw uniform norm01 kde kde_pdf trunc draw).
Notation run draw := (run pdf nokw nobw uniform norm01 kde kde_pdf trunc draw).

Variables (n p q : nat) (ux uy : units R) (jx jy : R) (fx fy : D -> D).
(** [fx], [fy]: the distribution of the same quantity in the other units; [jx], [jy]: what densities
    are multiplied by (one over the product of the factors).  pdf follows (for the number of values
    see psized), and so do the uniform distribution and the kernel density estimate. *)
Definition change_of_units : Prop :=
  [/\ [/\ size ux = p, size uy = q, positive ux, 0 < jx & 0 < jy],
      forall d (A : nd), n_rows n A -> dim A 1 = p -> densities_times jx (pdf d nokw A) (pdf (fx d) nokw (points_in ux A)),
      (forall d kw (A : nd), n_rows n A -> dim A 1 = q -> densities_times jy (pdf d kw A) (pdf (fy d) kw (points_in uy A))) /\
      (forall d kw (A : nd) v, n_rows n A -> pdf d kw A = Ok v -> psized n (dim A 1) v),
      forall mn rg, size mn = p -> size rg = p -> fx (uniform mn rg) = uniform (point_in ux mn) (lengths_in ux rg) &
      (forall (A : nd) bw w, n_rows n A -> dim A 1 = q -> kde (points_in uy A) bw w = rmap fy (kde A bw w)) /\
      (forall k (A : nd), n_rows n A -> dim A 1 = q -> kde_pdf (fy k) (points_in uy A) = rmap (times jy) (kde_pdf k A))].
(** The problem in the other units. *)
Definition converted (s : dprob) : dprob :=
  DP (points_in ux (dX s)) (points_in uy (dy s)) (domain_in ux (ddom s)) (d_int s) (d_w s) (d_r s) (omap (times jx) (d_up s))
     (omap (times jx) (d_in s)) (omap (times jy) (d_pr s)) (omap (times jy) (d_ob s)) (omap fx (d_in_dist s)) (omap fy (d_pr_dist s)) (omap fy (d_ob_dist s)).
Definition converted_args (a : pargs) : pargs := PA (omap fy (pa_dist a)) (pa_bw a) (pa_w a) (pa_kw a).
Definition converted_call (o : dop) : dop :=
  match o with
  | OObserved d => OObserved R KW BW (omap fy d)
  | OInitial d => OInitial R KW BW (omap fx d)
  | OPredicted a => OPredicted (converted_args a)
  | OFit a => OFit (converted_args a)
  | o => o
  end.
(** n samples of p parameters with a float domain, and q observables.  The default observed distribution (a
    standard normal one) has no units: it is used only if it is the same in the other units, as when only
    the parameters change theirs. *)
Definition sampled (s : dprob) : Prop :=
  [/\ n_rows n (dX s) /\ dim (dX s) 1 = p, n_rows n (dy s) /\ dim (dy s) 1 = q, n_rows p (ddom s) & d_int s = false].
Definition measured (s : dprob) : Prop := sampled s /\ (fy norm01 = norm01 \/ d_ob s <> None).
Definition call_in_units (o : dop) : Prop :=
  match o with
  | OObserved None => fy norm01 = norm01
  | OPredicted a | OFit a => pa_dist a <> None -> q = 1%N
  | _ => True
  end.

Hypothesis H : change_of_units.
Notation cv := converted.
Notation good := measured.
Lemma sux : size ux = p. Proof. by case: H => -[]. Qed.
Lemma suy : size uy = q. Proof. by case: H => -[]. Qed.
Lemma pos : positive ux. Proof. by case: H => -[]. Qed.
Lemma jx0 : 0 < jx. Proof. by case: H => -[]. Qed.
Lemma jy0 : 0 < jy. Proof. by case: H => -[]. Qed.
Local Hint Resolve jx0 jy0 : core.

(** ** Arrays *)
Lemma size_point (u : units R) (r : seq R) : size u = size r -> size (point_in u r) = size r.
Proof. by move=> e; rewrite size_map size_zip e minnn. Qed.
Lemma nth_point (u : units R) (r : seq R) j : (j < size u)%N -> (j < size r)%N -> nth 0 (point_in u r) j = to_unit (nth (0, 0) u j) (nth 0 r j).
Proof. by move=> h1 h2; rewrite (nth_map ((0, 0), 0)) ?size_zip ?leq_min ?h1 // nth_zip_cond size_zip leq_min h1 h2. Qed.
Lemma rows_points (u : units R) (A : nd) k : n_rows n A -> dim A 1 = k -> size u = k -> rows (points_in u A) = [seq point_in u r | r <- rows A].
Proof.
move=> [wf n2 d0] d1 su; rewrite {1}/rows /points_in /dim /= -/(dim A 0) -/(dim A 1).
have <- : size [seq point_in u r | r <- rows A] = dim A 0 by rewrite size_map size_rows.
apply: rows_flatten; rewrite all_map; have := all_size_rows wf n2; apply: sub_all => r /eqP e /=.
by rewrite size_point ?e // su d1.
Qed.
Lemma rows_domain (A : nd) : n_rows p A -> rows (domain_in ux A) = [seq map (to_unit t.1) t.2 | t <- zip ux (rows A)].
Proof.
move=> [wf n2 d0]; rewrite {1}/rows /domain_in /dim /= -/(dim A 0) -/(dim A 1).
have <- : size [seq map (to_unit t.1) t.2 | t <- zip ux (rows A)] = dim A 0 by rewrite size_map size_zip size_rows sux d0 minnn.
apply: rows_flatten; have := all_size_rows wf n2; elim: (rows A) {+}ux => [|r rs ih] [|u us] //= /andP[/eqP e h].
by rewrite size_map e eqxx ih.
Qed.
Lemma n_rows_flatten k (A : nd) (rs : seq (seq R)) : n_rows k A -> size rs = k -> all (fun r => size r == dim A 1) rs ->
  n_rows k (Nd (shape A) (flatten rs)).
Proof.
move=> [wf n2 d0] sr a; split=> //; rewrite /nd_wf /= size_flatten /seq.shape.
have -> : [seq size i | i <- rs] = nseq k (dim A 1).
  by rewrite -sr; elim: rs a {sr} => //= r l ih /andP [/eqP -> /ih <-].
move: n2 d0; rewrite /ndim /dim; case: (shape A) => [|m [|t [|]]] //= _ ->.
by rewrite sumn_nseq mulnC /prodn /= muln1.
Qed.
Lemma points_rows (u : units R) (A : nd) : n_rows n A -> size u = dim A 1 -> n_rows n (points_in u A).
Proof.
move=> h su; have [wf n2 d0] := h; apply: n_rows_flatten => //; first by rewrite size_map size_rows.
rewrite all_map; have := all_size_rows wf n2; apply: sub_all => r /eqP e /=.
by rewrite size_point ?e // su.
Qed.
Lemma domain_rows (A : nd) : n_rows p A -> n_rows p (domain_in ux A).
Proof.
move=> h; have [wf n2 d0] := h; apply: n_rows_flatten => //; first by rewrite size_map size_zip size_rows sux d0 minnn.
have := all_size_rows wf n2; elim: (rows A) {+}ux => [|r rs ih] [|u us] //= /andP[/eqP e h'].
by rewrite size_map e eqxx ih.
Qed.

(** ** Minima and maxima *)
Lemma np_min_unit (u : R * R) s : 0 < u.1 -> (0 < size s)%N -> np_min (map (to_unit u) s) = to_unit u (np_min s).
Proof.
move=> u0 s0; apply: np_min_uniq; first by apply: map_f; exact: np_min_in.
by move=> x /mapP[y hy ->]; rewrite /to_unit ler_add2r ler_pmul2l // np_min_le.
Qed.
Lemma np_max_unit (u : R * R) s : 0 < u.1 -> (0 < size s)%N -> np_max (map (to_unit u) s) = to_unit u (np_max s).
Proof.
move=> u0 s0; apply: np_max_uniq; first by apply: map_f; exact: np_max_in.
by move=> x /mapP[y hy ->]; rewrite /to_unit ler_add2r ler_pmul2l // np_max_ge.
Qed.

(** ** Domains *)
Lemma pad_unit ratio (u : R * R) row : pad_row id ratio (map (to_unit u) row) = map (to_unit u) (pad_row id ratio row).
Proof. by case: row => [|lo [|hi rest]] //=; rewrite /to_unit; congr [:: _, _ & _]; ring. Qed.
Lemma widen_units ratio (B : nd) : n_rows p B ->
  fit_domain_bounds id ratio (domain_in ux B) = rmap (domain_in ux) (fit_domain_bounds id ratio B) /\
  forall B', fit_domain_bounds id ratio B = Ok B' -> n_rows p B'.
Proof.
move=> h; have [wf n2 d0] := h.
have a : all (fun r => size r == dim B 1) [seq pad_row id ratio r | r <- rows B].
  rewrite all_map; have := all_size_rows wf n2; apply: sub_all => r /eqP e /=.
  by rewrite -e; case: r {e} => [|lo [|hi r]] /=.
have s : size [seq pad_row id ratio r | r <- rows B] = dim B 0 by rewrite size_map size_rows.
have rB : rows (Nd (shape B) (flatten [seq pad_row id ratio r | r <- rows B])) = [seq pad_row id ratio r | r <- rows B].
  by rewrite {1}/rows /dim /= -/(dim B 0) -/(dim B 1) -s; exact: rows_flatten.
rewrite /fit_domain_bounds rows_domain //.
have -> : (ndim (domain_in ux B) < 2)%N || (dim (domain_in ux B) 1 < 2)%N = (ndim B < 2)%N || (dim B 1 < 2)%N by [].
case: ifP => // _; split; last by move=> B' [<-]; apply: n_rows_flatten => //; rewrite s.
rewrite /= /domain_in rB /=; congr (Ok (Nd _ (flatten _))).
by elim: (rows B) {+}ux => [|r rs ih] [|u us] //=; rewrite pad_unit ih.
Qed.
Lemma bounds_units (A : nd) : n_rows n A -> dim A 1 = p ->
  bounds_of (points_in ux A) = rmap (domain_in ux) (bounds_of A) /\ forall B, bounds_of A = Ok B -> n_rows p B.
Proof.
move=> h d1; have [wf n2 d0] := h; rewrite /bounds_of.
have -> : dim (points_in ux A) 0 = dim A 0 by []. have -> : dim (points_in ux A) 1 = dim A 1 by [].
case: ifP => // hn; rewrite d1.
set bs := [seq [:: np_min (column A j); np_max (column A j)] | j <- iota 0 p].
have sb : size bs = p by rewrite size_map size_iota.
have ab : all (fun r => size r == 2%N) bs by rewrite all_map; apply/allP.
have rb : rows (nd2 2 bs) = bs by rewrite /rows /dim /=; exact: rows_flatten.
have wb : n_rows p (nd2 2 bs).
  split=> //.
  rewrite /nd_wf /= size_flatten /seq.shape.
  have -> : [seq size i | i <- bs] = nseq (size bs) 2%N by clearbody bs; elim: bs ab {sb rb} => //= r l ih /andP [/eqP -> /ih <-].
  by rewrite sumn_nseq mulnC /prodn /= muln1.
split; last by move=> B [<-].
rewrite /= /domain_in rb /nd2 /= size_map size_iota sb; congr (Ok (Nd _ (flatten _))).
apply: (@eq_from_nth _ [::]); first by rewrite !size_map size_iota size_zip sux sb minnn.
move=> j; rewrite size_map size_iota => hj.
have hz : (j < size (zip ux bs))%N by rewrite size_zip sux sb minnn.
rewrite (nth_map 0%N) ?size_iota // nth_iota // add0n (nth_map ((0, 0), [::])) // nth_zip_cond hz /=.
rewrite /bs (nth_map 0%N) ?size_iota // nth_iota // add0n /=.
have u0 : 0 < (nth (0, 0) ux j).1 by apply: (allP pos); rewrite mem_nth ?sux.
have n0 : (0 < size (column A j))%N.
  rewrite size_map size_rows lt0n; apply/negP => z; move: hn; rewrite z d1 /=; case: (p) hj => //.
have -> : column (points_in ux A) j = map (to_unit (nth (0, 0) ux j)) (column A j).
  rewrite /column (rows_points h d1) ?sux // -!map_comp; apply/eq_in_map => r hr /=.
  have := allP (all_size_rows wf n2) r hr; rewrite d1 => /eqP e.
  by rewrite nth_point ?sux ?e.
by rewrite np_min_unit // np_max_unit.
Qed.
Lemma fit_units pad (A : nd) : n_rows n A -> dim A 1 = p ->
  fit_domain id (Some (points_in ux A)) None pad = rmap (domain_in ux) (fit_domain id (Some A) None pad) /\
  forall B, fit_domain id (Some A) None pad = Ok B -> n_rows p B.
Proof.
move=> h d1; have [e hb] := bounds_units h d1; rewrite /fit_domain e.
case: (bounds_of A) hb => [B|//] hb /=; exact: widen_units (hb _ erefl).
Qed.

(** ** Calls *)
Definition sim A (m' m : dprob * res A) : Prop := m' = (cv m.1, m.2) /\ good m.1.
Lemma sim_bind A B (m' m : dprob * res A) (f g : dprob -> A -> dprob * res B) : sim m' m ->
  (forall s a, good s -> sim (f (cv s) a) (g s a)) -> sim (sbind m' f) (sbind m g).
Proof. by case: m => s [a|e] [-> gs] h /=; [apply: h | split]. Qed.
Lemma sim_ret A s (r : res A) : good s -> sim (cv s, r) (s, r).
Proof. by split. Qed.
Lemma timesE c s : times c s = scale_all c s :> seq xnum. Proof. by []. Qed.
Lemma odflt_times c (o : option (seq xnum)) : odflt [::] (omap (times c) o) = times c (odflt [::] o).
Proof. by case: o. Qed.

Lemma weights_cv s w b : set_weights (cv s) w b = (cv (set_weights s w b).1, (set_weights s w b).2).
Proof.
rewrite /set_weights; case: w => [w|] //; case: ifP => // _.
by have -> : n_samples (cv s) = n_samples s by []; case: ifP.
Qed.
Lemma weights_sim s w b : good s -> sim (set_weights (cv s) w b) (set_weights s w b).
Proof.
move=> g; split; first exact: weights_cv.
by rewrite /set_weights; case: w => [w|] //; do 2?case: ifP.
Qed.

Lemma prod_times c (v v' : res (pdfval xnum)) : densities_times c v v' -> (a <- v' ;; prod_axis1 a) = rmap (times c) (a <- v ;; prod_axis1 a).
Proof. by case: v v' => [[s|s]|e] [[s'|s']|e'] //= => [-> | ->]. Qed.

Lemma observed_cv s d : sampled s -> (d = None -> fy norm01 = norm01) ->
  set_observed (cv s) (omap fy d) = (cv (set_observed s d).1, (set_observed s d).2) /\ sampled (set_observed s d).1.
Proof.
move=> [gX gy gd gi] hd; rewrite /DensityModel.set_observed.
have -> : odflt norm01 (omap fy d) = fy (odflt norm01 d) by case: d hd => //= ->.
have [_ _ [h _] _ _] := H; have := h (odflt norm01 d) nokw _ gy.1 gy.2 => /prod_times.
by rewrite [dy (cv s)]/=; move=> ->; case: (rbind _ _) => [v|e].
Qed.
Lemma observed_sim s d : good s -> (d = None -> fy norm01 = norm01) -> sim (set_observed (cv s) (omap fy d)) (set_observed s d).
Proof.
move=> [g go] hd; have [e g1] := observed_cv g hd; split=> //; split=> //.
by move: go; rewrite /DensityModel.set_observed; case: (rbind _ _) => [v|e'] //= _; right.
Qed.

Lemma default_units s : good s -> default_initial uniform (cv s) = rmap fx (default_initial uniform s).
Proof.
move=> [[gX gy gd gi] go]; have [wf n2 d0] := gd; have [_ _ _ hu _] := H; rewrite /default_initial.
have -> : dim (ddom (cv s)) 1 = dim (ddom s) 1 by [].
case: ifP => // /negbT ne; rewrite rows_domain // [rmap _ _]/=.
rewrite hu ?size_map ?size_rows ?d0 //; last by rewrite size_zip !size_map !size_rows d0 minnn.
have a : all (fun r => (0 < size r)%N) (rows (ddom s)).
  by have := all_size_rows wf n2; apply: sub_all => r /eqP ->; rewrite lt0n.
congr (Ok (uniform _ _)).
  rewrite /point_in; elim: (rows (ddom s)) {+}ux {+}pos a => [|r rs ih] [|u us] //= /andP[u0 us0] /andP[r0 rs0].
  by rewrite np_min_unit // ih.
rewrite /lengths_in; elim: (rows (ddom s)) {+}ux {+}pos a => [|r rs ih] [|u us] //= /andP[u0 us0] /andP[r0 rs0].
by rewrite np_min_unit // np_max_unit // ih // /to_unit; congr (_ :: _); ring.
Qed.

Lemma initial_sim s d : good s -> sim (set_initial (cv s) (omap fx d)) (set_initial s d).
Proof.
move=> g; have [[gX gy gd gi] go] := g; rewrite /DensityModel.set_initial default_units //.
have -> : (match omap fx d with Some d' => Ok d' | None => rmap fx (default_initial uniform s) end) =
  rmap fx (match d with Some d' => Ok d' | None => default_initial uniform s end) by case: d.
case: (match d with Some _ => _ | None => _ end) => [d'|e]; last exact: sim_ret.
have [_ h _ _ _] := H; have /prod_times := h d' _ gX.1 gX.2; cbn [rmap rbind].
have -> : dX (cv s) = points_in ux (dX s) by [].
case: (pdf d' nokw (dX s)) => [a|e]; case: (pdf _ nokw _) => [a'|e'] //=.
- by move=> ->; case: (prod_axis1 a) => [v|e]; [split | exact: sim_ret].
- by case: (prod_axis1 a) => [v|e] //= [->]; exact: sim_ret.
- by move=> ->; exact: sim_ret.
- by move=> [->]; exact: sim_ret.
Qed.

Lemma single_flat (s : seq (seq xnum)) : all (fun r => size r == 1%N) s -> flatten s = [seq xprod r | r <- s].
Proof.
elim: s => [//|[|x []] // s ih] /= /ih ->; congr (_ :: _).
by case: x => [a| | |] /=; rewrite ?mulr1 // /xinf ?oppr_gt0 ?oppr_lt0 ?ltr10 ?ltr01 //.
Qed.
Lemma values_units s a : good s -> (pa_dist a <> None -> q = 1%N) ->
  predicted_values pdf kde kde_pdf (cv s) (converted_args a) = rmap (fun r => (fy r.1, times jy r.2)) (predicted_values pdf kde kde_pdf s a).
Proof.
move=> [[gX [gy eq] gd gi] go] ha; have [_ _ [h hs] _ [hk hp]] := H; rewrite /predicted_values.
have -> : dy (cv s) = points_in uy (dy s) by []. have -> : d_w (cv s) = d_w s by [].
rewrite [pa_dist _]/= [pa_bw _]/= [pa_kw _]/=; case: (pa_dist a) ha => [d|] ha; cbn [omap obind oapp].
  have q1 := ha (fun h => ltac:(discriminate h)).
  have := h d (pa_kw a) _ gy eq; have := hs d (pa_kw a) (dy s) _ gy.
  have gy' : n_rows n (points_in uy (dy s)) by apply: points_rows; rewrite ?suy ?eq.
  have := hs (fy d) (pa_kw a) (points_in uy (dy s)) _ gy'.
  have -> : dim (points_in uy (dy s)) 1 = dim (dy s) 1 by [].
  rewrite eq q1; case: (pdf d _ _) => [v|e]; case: (pdf (fy d) _ _) => [v'|e'] //=; [| by case: v => ? _ _ | by move=> _ _ ->].
  move=> s1 s2; have {s2} := s2 v erefl; have {s1} := s1 v' erefl.
  case: v => [v|v]; case: v' => [v'|v'] //= s1 s2; first by move=> ->.
  by rewrite (single_flat s1.2) (single_flat s2.2) => ->.
rewrite hk //; case: (kde _ _ _) => [k|e] //=; rewrite hp //.
by case: (kde_pdf _ _).
Qed.

Lemma predicted_sim s a : good s -> (pa_dist a <> None -> q = 1%N) ->
  sim (set_predicted (cv s) (converted_args a)) (set_predicted s a).
Proof.
move=> g ha; rewrite /DensityModel.set_predicted; apply: sim_bind.
  cbn [converted_args pa_w]; case: (pa_w a) => [w|]; last exact: sim_ret.
  exact: weights_sim.
move=> s1 _ g1; rewrite values_units //; have [[gX gy gd gi] go] := g1.
by case: (predicted_values _ _ _ s1 a) => [[d v]|e] /=; [split | exact: sim_ret].
Qed.
Lemma fill_sim s a : good s -> (pa_dist a <> None -> q = 1%N) -> sim (fill_defaults (cv s) (converted_args a)) (fill_defaults s a).
Proof.
move=> g ha; rewrite /DensityModel.fill_defaults; apply: sim_bind.
  by rewrite {1}/converted; cbn [d_in]; case: (d_in s) => [v|]; [exact: sim_ret | exact: (initial_sim None)].
move=> s1 _ g1; apply: sim_bind.
  by rewrite {1}/converted; cbn [d_pr]; case: (d_pr s1) => [v|]; [exact: sim_ret | exact: predicted_sim].
move=> s2 _ g2; rewrite {1}/converted; cbn [d_ob]; case e: (d_ob s2) => [v|]; first exact: sim_ret.
apply: (observed_sim (d := None) g2) => _; case: g2 => _ []; [by [] | by rewrite e].
Qed.
Lemma times_inv c (s : seq xnum) : 0 < c -> times c (times c^-1 s) = s.
Proof.
move=> c0; have c1 : 0 < c^-1 by rewrite invr_gt0.
have pp := scalePInf c0; have nn := scaleNInf c0; have pp1 := scalePInf c1; have nn1 := scaleNInf c1.
rewrite /times -map_comp -[RHS]map_id; apply: eq_map => x.
by rewrite /comp; case: x => [a| | |]; rewrite ?pp1 ?nn1 ?pp ?nn //= mulrA divff ?mul1r // gt_eqF.
Qed.
Lemma fit_sim s a : good s -> (pa_dist a <> None -> q = 1%N) -> sim (fit (cv s) (converted_args a)) (fit s a).
Proof.
move=> g ha; rewrite /DensityModel.fit; apply: sim_bind; first exact: fill_sim.
move=> s1 _ g1; apply: sim_bind.
  rewrite /lift {2 3}/converted; cbn [d_ob d_pr]; rewrite !odflt_times !timesE (xvbop_div_num _ _ jy0) (xvbop_div_den _ _ jy0).
  case: (xvbop _ _ _) => [r|e]; last exact: sim_ret.
  have -> : rmap (scale_all jy) (rmap (scale_all jy^-1) (Ok r)) = Ok r by congr Ok; exact: times_inv.
  exact: sim_ret.
move=> s2 r g2; have -> : put_r (cv s2) r = cv (put_r s2 r) by [].
have g3 : good (put_r s2 r) by case: g2.
move: (put_r s2 r) g3 => s3 g3; rewrite /lift {2 3}/converted; cbn [d_in d_w]; rewrite !odflt_times !timesE xvbop_scale_l //.
case: (xvbop (@xmul R) (odflt [::] (d_in s3)) (d_w s3)) => [iw|e] /=; last exact: sim_ret.
rewrite xvbop_scale_l //; case: (xvbop _ iw r) => [u|e] /=; last exact: sim_ret.
by split=> //; case: g3.
Qed.
Lemma ensure_sim s : good s -> sim (ensure_up (cv s)) (ensure_up s).
Proof.
move=> g; rewrite /DensityModel.ensure_up {1}/converted; cbn [d_up].
by case: (d_up s) => [u|]; [exact: sim_ret | exact: (@fit_sim s no_args)].
Qed.
(** C161: the estimate of the converted problem is the estimate, in the other units. *)
Theorem C161_estimate s : good s ->
  mud_point (cv s) = (cv (mud_point s).1, rmap (point_in ux) (mud_point s).2) /\ good (mud_point s).1.
Proof.
move=> g; rewrite /DensityModel.mud_point; have := ensure_sim g; case: (ensure_up s) => s1 [[]|e] [E g1]; rewrite E //=.
split=> //; congr (_, _); rewrite odflt_times argmax_scale //; case: (argmax _) => [m|e] //=.
rewrite /row_at; have -> : dim (points_in ux (dX s1)) 0 = dim (dX s1) 0 by []; case: ifP => // hm.
have [[[gX d1] _ _ _] _] := g1; rewrite (rows_points gX d1) ?sux //=; congr Ok.
by rewrite (nth_map [::]) // size_rows.
Qed.
Lemma ratio_sim s : good s -> sim (expected_ratio (cv s)) (expected_ratio s).
Proof.
by move=> g; rewrite /DensityModel.expected_ratio; apply: sim_bind; [exact: ensure_sim | move=> s1 _ g1; exact: sim_ret].
Qed.

(** C161: the expected ratio is the same. *)
Theorem C161_ratio s : good s -> expected_ratio (cv s) = (cv (expected_ratio s).1, (expected_ratio s).2).
Proof. by move=> g; have [-> _] := ratio_sim g. Qed.

Variable draw : nat -> dprob -> res unit.
Hypothesis drawn : forall k s, good s -> draw k (cv s) = draw k s.
Lemma plot_sim s xr pd a b c d : good s ->
  sim (plot_param_space pdf nokw nobw uniform norm01 kde kde_pdf trunc draw (cv s) xr pd a b c d)
      (plot_param_space pdf nokw nobw uniform norm01 kde kde_pdf trunc draw s xr pd a b c d).
Proof.
move=> g; rewrite /plot_param_space /DensityModel.lift; apply: sim_bind.
  case: xr; first exact: sim_ret.
  have -> : ddom (cv s) = domain_in ux (ddom s) by []. have -> : d_int (cv s) = d_int s by [].
  have [[gX gy gd gi] go] := g; rewrite gi /=; have [-> hB] := widen_units pd gd.
  by case: (fit_domain_bounds _ _ _) hB => [B|e] hB; [split=> //; split=> //; split=> //; exact: (hB _ erefl) | exact: sim_ret].
move=> s1 _ g1; have -> : isSome (d_in_dist (cv s1)) = isSome (d_in_dist s1) by rewrite /=; case: (d_in_dist s1).
apply: sim_bind; first exact: sim_ret.
move=> s2 _ g2; apply: sim_bind; first by rewrite drawn //; exact: sim_ret.
move=> s3 _ g3; apply: sim_bind; first by rewrite drawn //; exact: sim_ret.
move=> s4 _ g4; apply: sim_bind; first by rewrite drawn //; exact: sim_ret.
move=> s5 _ g5; apply: sim_bind; last by move=> s6 _ g6; rewrite drawn //; exact: sim_ret.
case: d; last exact: sim_ret.
rewrite /DensityModel.estimate; have [-> g6] := C161_estimate g5; move: g6; case: (mud_point s5) => s6 [x|e] /= g6.
  by rewrite drawn //; exact: sim_ret.
exact: sim_ret.
Qed.
Lemma obs_sim s k : good s -> sim (plot_obs_space draw (cv s) k) (plot_obs_space draw s k).
Proof.
move=> g; have [[gX [gy eq] gd gi] go] := g; rewrite /plot_obs_space /DensityModel.lift drawn //.
rewrite (_ : (match k with Some _ => _ | None => rmap _ (fit_domain id (Some (dy (cv s))) None _) end) =
  (match k with Some k => Ok k | None => rmap (fun B : nd => dim B 0) (fit_domain id (Some (dy s)) None (10%:R^-1)) end)).
  have -> : n_features (cv s) = n_features s by [].
  have -> : isSome (d_ob_dist (cv s)) = isSome (d_ob_dist s) by rewrite /=; case: (d_ob_dist s).
  exact: sim_ret.
case: k => [//|]; rewrite /fit_domain /bounds_of.
have -> : dim (dy (cv s)) 0 = dim (dy s) 0 by []. have -> : dim (dy (cv s)) 1 = dim (dy s) 1 by [].
case: ifP => // _; cbn [rbind]; by rewrite /fit_domain_bounds /ndim /dim /= ?size_map.
Qed.
Lemma call_sim s o : good s -> call_in_units o -> sim (run1 draw (cv s) (converted_call o)) (run1 draw s o).
Proof.
move=> g; case: o => [w b|d|d|a|a| | |xr pd a b c d|k] /= ho.
- exact: weights_sim.
- by apply: observed_sim => // e; move: ho; rewrite e.
- exact: initial_sim.
- exact: predicted_sim.
- exact: fit_sim.
- by rewrite /void; have [-> g1] := C161_estimate g; split=> //=; congr (_, _); case: (mud_point s).2.
- by have [e g1] := ratio_sim g; rewrite /void e; split.
- exact: plot_sim.
- exact: obs_sim.
Qed.

(** C161: whatever calls are made on the converted problem (with distributions in the other units),
    each returns or raises as on the problem, which stays the same up to the units. *)
Theorem C161_history s h : good s -> List.Forall call_in_units h ->
  [/\ run draw (cv s) (map converted_call h) = cv (run draw s h),
      all_return pdf nokw nobw uniform norm01 kde kde_pdf trunc draw (cv s) (map converted_call h) =
      all_return pdf nokw nobw uniform norm01 kde kde_pdf trunc draw s h & good (run draw s h)].
Proof.
elim: h s => [//|o h ih] s g hh; inversion hh as [|x t h1 h2]; subst.
have [e g1] := call_sim g h1; have [i1 i2 i3] := ih _ g1 h2.
by cbn [map DensityModel.run foldl DensityModel.all_return]; rewrite e; cbn [fst snd]; split; rewrite ?i1 ?i2.
Qed.

(** C161: the constructor (with the domain given, in the other units, or not); the problem it returns
    can be used as it is if the default observed distribution is the same in the other units, and after
    a successful set_observed otherwise. *)
Theorem C161_constructor (X y : nd) dom w b pad : n_rows n X -> dim X 1 = p -> n_rows n y -> dim y 1 = q ->
  (if dom is Some d then n_rows p d else True) ->
  init (points_in ux X) (points_in uy y) false (omap (domain_in ux) dom) false w b pad = rmap cv (init X y false dom false w b pad) /\
  forall s, init X y false dom false w b pad = Ok s ->
    (fy norm01 = norm01 -> good s) /\
    forall d s1, set_observed s (Some d) = (s1, Ok tt) -> set_observed (cv s) (Some (fy d)) = (cv s1, Ok tt) /\ good s1.
Proof.
move=> hX dX1 hy dy1 hd; have [wX n2X d0X] := hX; have [wy n2y d0y] := hy; rewrite /density_init.
have s2 (sp : seq (option nat)) (A : nd) : ndim A = 2%N -> set_shape sp A = Ok A by move=> e; rewrite /set_shape e.
rewrite !s2 //; cbn [rbind]; have -> : dim (points_in ux X) 1 = dim X 1 by [].
have fin (B : nd) (t := DP X y B false [::] None None None None None (None : option D) None None) : n_rows p B ->
  (let (s, r) := set_weights (cv t) w b in _ <- r ;; Ok s) = rmap cv (let (s, r) := set_weights t w b in _ <- r ;; Ok s) /\
  forall s, (let (s, r) := set_weights t w b in _ <- r ;; Ok s) = Ok s -> sampled s.
  move=> hB; rewrite weights_cv; have : sampled (set_weights t w b).1.
    by rewrite /set_weights; case: w => [v|] //; do 2?case: ifP.
  by case: (set_weights t w b) => s [[]|e] //= g; split=> // s' [<-].
have use s : sampled s -> (fy norm01 = norm01 -> good s) /\
    forall d s1, set_observed s (Some d) = (s1, Ok tt) -> set_observed (cv s) (Some (fy d)) = (cv s1, Ok tt) /\ good s1.
  move=> g; split=> [e|d s1 e]; first by split=> //; left.
  have [|e1 g1] := @observed_cv s (Some d) g; first by [].
  rewrite -[Some (fy d)]/(omap fy (Some d)) e1 e; split=> //; split; first by move: g1; rewrite e.
  by right; move: e; rewrite /DensityModel.set_observed; case: (rbind _ _) => // v [<-].
case: dom hd => [d|] hd; cbn [omap obind oapp].
  have [wd n2d d0d] := hd; rewrite !s2 //; cbn [rbind].
  have -> : dim (domain_in ux d) 0 = dim d 0 by [].
  case: (guard _ _) => [[]|e] //; cbn [rbind fst snd]; have [e1 e2] := fin _ hd.
  by split; [exact: e1 | move=> s /e2; exact: use].
have [-> hB] := fit_units (10%:R^-1) hX dX1; rewrite /cast_of.
case: (fit_domain _ _ _ _) hB => [B|e] // /(_ _ erefl) hB; cbn [rmap rbind fst snd]; have [e1 e2] := fin _ hB.
by split; [exact: e1 | move=> s /e2; exact: use].
Qed.
End Units.
