(** Property C131: run_2d_poisson_trials. *)
Set Warnings "-notation-overridden,-ambiguous-paths".
From Coq Require Import String.
From mathcomp Require Import all_ssreflect all_algebra.
From mathcomp Require Import zify.
From mathcomp.algebra_tactics Require Import ring.
From Verif Require Import Py Nd Xnum XnumProofs UtilModel DensityModel NdProofs DensityProps3 UtilModel2 UtilProps
  StModel StProps StProps2 StProps3 StProps5 DrawModel PoisModel StExModel StExProps PoisExModel.
Set Implicit Arguments. Unset Strict Implicit. Unset Printing Implicit Defensive.
Import Order.Theory GRing.Theory Num.Theory.
Local Open Scope ring_scope.

Section PoisExProps.
Variable R : rcfType.
Notation xnum := (xnum R).
Notation nd := (nd R).
Variables (D KW BW : Type) (pdf : D -> KW -> nd -> res (pdfval xnum)) (nokw : KW) (nobw : BW)
  (uniform : seq R -> seq R -> D) (norm01 : D) (kde : nd -> BW -> seq xnum -> res D)
  (kde_pdf : D -> nd -> res (seq xnum)) (trunc : R -> R).
Variables (pca_components : nd -> int -> res nd) (svd_v : nd -> res nd).
Variables (G : Type) (reseed : int -> res G) (randn : nat -> G -> seq R * G).
Variables (H : Type) (pyseed : int -> H) (pysample : nat -> H -> seq nat * H).
Variable curve : string -> D -> seq (R * R) -> int -> res (seq R * seq R).
Variable closest : R * R.
Notation dprob := (dprob R D).
Notation mark := (mark R).
Notation pfig := (pfig R).
Notation estimate := (estimate pdf nokw nobw uniform norm01 kde kde_pdf).
Notation mud_point := (mud_point pdf nokw nobw uniform norm01 kde kde_pdf).
Notation expected_ratio := (expected_ratio pdf nokw nobw uniform norm01 kde kde_pdf).
Notation mud_problem := (st_mud_problem D trunc pca_components svd_v).
Notation param_plot := (param_plot pdf nokw nobw uniform norm01 kde kde_pdf trunc curve).
Notation trial_axes := (trial_axes pdf nokw nobw uniform norm01 kde kde_pdf trunc curve closest).
Notation trial := (trial pdf nokw nobw uniform norm01 kde kde_pdf trunc pca_components svd_v curve closest).
Notation trials := (trials pdf nokw nobw uniform norm01 kde kde_pdf trunc pca_components svd_v curve closest).
Notation run_trials := (run_2d_poisson_trials pdf nokw nobw uniform norm01 kde kde_pdf trunc pca_components svd_v
  reseed randn pyseed pysample curve closest).
Notation poisson := (load_poisson_prob reseed randn).
Notation order_of := (sensor_order pysample).

(** ** Specification *)
(** Every interval of the second array sticks out of the first by [q] times its length, on both sides. *)
Definition widened (q : R) (B B' : nd) : Prop :=
  [/\ nd_wf B', Nd.shape B' = Nd.shape B &
  forall j, (j < dim B 0)%N ->
    let lo := nth 0 (nth [::] (rows B) j) 0 in let hi := nth 0 (nth [::] (rows B) j) 1 in
    nth [::] (rows B') j = [:: lo - q * (hi - lo); hi + q * (hi - lo)]].
(** What the axes of parameter [k] show. *)
Definition trial_marks (k : nat) (N : int) (cin cup : seq R * seq R) (m : seq R) (loc : option (R * R * R)) (e : xnum) : seq mark :=
  [:: DensityCurve "in"%string cin.1 cin.2; DensityCurve "up"%string cup.1 cup.2;
      VLine "mud"%string (nth 0 m k); VLine "true"%string (nth 0 [:: closest.1; closest.2] k)]
  ++ (if loc is Some (x, y1, y2) then [:: TextN N x y1; TextRatio e x y2] else [::]).
(** The problem has the other's samples, values, weights and densities. *)
Definition same_but_domain (P P' : dprob) : Prop := P' = put_dom P (ddom P').

(** ** The problem after estimate *)
Lemma fresh s me dw sw kc sm tm xm P : mud_problem s me dw sw kc sm tm xm = Ok P ->
  [/\ d_up P = None, d_in P = None, d_pr P = None, d_ob P = None & d_int P = false].
Proof.
rewrite /st_mud_problem; case: (sample_data _ _ _ _) => [o|//]; cbn [rbind].
case: (residuals _ _) => [r|//]; cbn [rbind]; case: (apply_weights _ _ _) => [r'|//]; cbn [rbind].
case: (qoi_map _ _ _ _ _ _) => [q|//]; cbn [rbind]; rewrite /density_init.
case: (set_shape _ (sd_lam o)) => [X|//]; cbn [rbind]; case: (set_shape _ q) => [y|//]; cbn [rbind].
set dm := (match s_dom s with Some _ => _ | None => _ end).
have : forall x, dm = Ok x -> x.2 = false.
  rewrite /dm; case: (s_dom s) => [d|] x.
    by case: (set_shape _ d) => [d'|//]; cbn [rbind]; case: (guard _ _) => [u|//]; cbn [rbind] => -[<-].
  by case: (fit_domain _ _ _ _) => [d'|//]; cbn [rbind] => -[<-].
case: dm => [x|//] /(_ _ erefl) ex; cbn [rbind].
set s0 := DP _ _ _ _ _ _ _ _ _ _ _ _ _.
suff : forall P, set_weights s0 sw false = (P, Ok tt) ->
   [/\ d_up P = None, d_in P = None, d_pr P = None, d_ob P = None & d_int P = false].
  by case: (set_weights s0 sw false) => P1 [[]|//] h; cbn [rbind] => -[<-]; apply: h.
move=> P1; rewrite /set_weights; case: sw => [w|]; last by move=> [<-]; split.
by rewrite /put_weights; case: ifP => // _; case: ifP => // _; move=> [<-]; split.
Qed.

Lemma estimate_fresh P P1 m : d_up P = None -> d_in P = None -> d_pr P = None -> d_ob P = None ->
  estimate P = (P1, Ok m) ->
  [/\ exists2 d, default_initial uniform P = Ok d & d_in_dist P1 = Some d,
      d_up P1 <> None, d_r P1 <> None,
      [/\ dX P1 = dX P, dy P1 = dy P, ddom P1 = ddom P & d_int P1 = d_int P] &
      estimate P1 = (P1, Ok m)].
Proof.
move=> eu ei ep eo e.
have [bX bY bD bI] := @mud_base R D KW BW pdf nokw nobw uniform norm01 kde kde_pdf P; move: bX bY bD bI e.
rewrite /DensityModel.estimate; set mp := mud_point P => bX bY bD bI e.
have e' := e; move: e'; rewrite /mp /DensityModel.mud_point /ensure_up eu /fit /fill_defaults ei.
rewrite /set_initial; case ed : (default_initial uniform P) => [d|//]; cbn [rbind].
case: (pdf _ _ _) => [a|//]; cbn [rbind]; case: (prod_axis1 _) => [v|//]; cbn [rbind sbind d_pr d_in d_ob].
set P2 := DP _ _ _ _ _ _ _ _ _ _ _ _ _.
rewrite /set_predicted /no_args; cbn [pa_w sbind]; rewrite /predicted_values; cbn [pa_dist pa_bw].
case: (kde _ _ _) => [k|//]; cbn [rbind]; case: (kde_pdf _ _) => [u|//]; cbn [rbind sbind].
rewrite {1}/P2; cbn [d_ob]; rewrite eo /set_observed; case: (pdf _ _ _) => [b|//]; cbn [rbind].
case: (prod_axis1 _) => [ob|//]; cbn [sbind].
rewrite /DensityModel.lift; case: (xvbop _ _ _) => [r|//]; cbn [sbind].
case: (xvbop _ _ _) => [iw|//]; cbn [rbind]; case: (xvbop _ _ _) => [up|//]; cbn [rbind sbind].
case em: (argmax _) => [q|//]; cbn [rbind]; case er: (row_at _ _) => [x|//] [eP1 ex].
rewrite e /= in bX bY bD bI.
rewrite -eP1; split=> //=; first by exists d.
by rewrite -ex; cbn [d_up sbind]; rewrite em /= er.
Qed.

(** ** One plot *)
Definition curves_ok (P : dprob) (xr : seq (R * R)) (idx : int) (cin cup : seq R * seq R) : Prop :=
  exists d r w k, [/\ d_in_dist P = Some d, d_r P = Some r, xvbop (@xmul R) r (d_w P) = Ok w,
    kde (dX P) nobw w = Ok k & curve "pdf" d xr idx = Ok cin /\ curve "kde" k xr idx = Ok cup].

Lemma curvesE P xr idx cin cup : curves_ok P xr idx cin cup ->
  param_plot P idx (pp_curves xr) = (P, Ok [:: DensityCurve "in" cin.1 cin.2; DensityCurve "up" cup.1 cup.2]).
Proof.
move=> [d [r [w [k [ed er ew ek [c1 c2]]]]]].
rewrite /PoisExModel.param_plot /pp_curves /DensityModel.lift; cbn [pp_range pp_in pp_up pp_win pp_mud pp_true pp_true_on sbind].
rewrite ed; cbn [of_opt sbind]; rewrite c1; cbn [rbind sbind].
by rewrite /updated_kde er ew; cbn [rbind]; rewrite ek; cbn [rbind]; rewrite c2; cbn [rbind sbind].
Qed.

Lemma put_dom2 (P : dprob) B B' : put_dom (put_dom P B) B' = put_dom P B'. Proof. by []. Qed.
Lemma put_dom_id (P : dprob) : put_dom P (ddom P) = P. Proof. by case: P. Qed.

Lemma estimate_up P m B : d_up P <> None -> estimate P = (P, Ok m) -> estimate (put_dom P B) = (put_dom P B, Ok m).
Proof.
rewrite /DensityModel.estimate /DensityModel.mud_point /ensure_up; cbn [put_dom d_up].
case: (d_up P) => [u|//] _; cbn [sbind put_dom d_up dX]; rewrite /DensityModel.lift.
by case: (rbind _ _) => [x|//] [->].
Qed.
Lemma ratio_up P e B : d_up P <> None -> (expected_ratio P).2 = Ok e -> expected_ratio (put_dom P B) = (put_dom P B, Ok e).
Proof.
rewrite /DensityModel.expected_ratio /ensure_up; cbn [put_dom d_up].
case: (d_up P) => [u|//] _; cbn [sbind put_dom d_r d_w]; rewrite /DensityModel.lift.
by case: (np_average _ _) => [x|//] [->].
Qed.
Lemma curves_ok_put P B xr idx cin cup : curves_ok P xr idx cin cup -> curves_ok (put_dom P B) xr idx cin cup.
Proof. by []. Qed.

Lemma fitE (P : dprob) (q : R) : nd_wf (ddom P) -> ndim (ddom P) = 2%N -> dim (ddom P) 1 = 2%N -> d_int P = false ->
  exists B, [/\ fit_domain (cast_of trunc (d_int P)) None (Some (ddom P)) q = Ok B & widened q (ddom P) B].
Proof.
move=> wf n2 d2 ei; have d2' : (1 < dim (ddom P) 1)%N by rewrite d2.
have [B [eB wB sB rB]] := fit_domain_boundsE (cast_of trunc (d_int P)) q wf n2 d2'.
exists B; split; first exact: eB.
split=> // j hj; rewrite rB (nth_map [::]) ?size_rows // ei.
have := all_size_rows wf n2; move=> /(all_nthP [::]) /(_ j); rewrite size_rows => /(_ hj).
rewrite d2; case: (nth [::] _ j) => [|x [|y [|]]] //= _.
Qed.

Lemma linesE P m (idx : nat) d : nd_wf (ddom P) -> ndim (ddom P) = 2%N -> dim (ddom P) 1 = 2%N -> d_int P = false ->
  d_in_dist P = Some d -> d_up P <> None -> estimate P = (P, Ok m) -> size m = 2%N -> (idx < 2)%N ->
  exists2 B, param_plot P idx (pp_lines closest) =
    (put_dom P B, Ok [:: VLine "mud" (nth 0 m idx); VLine "true" (nth 0 [:: closest.1; closest.2] idx)]) &
    widened (5%:R / 100%:R) (ddom P) B.
Proof.
move=> wf n2 d2 ei ed eu em sm hi; have [B [eB wB]] := fitE (5%:R / 100%:R) wf n2 d2 ei.
exists B => //; rewrite /PoisExModel.param_plot /pp_lines /DensityModel.lift.
cbn [pp_range pp_in pp_up pp_win pp_mud pp_true pp_true_on pp_pad sbind]; rewrite eB; cbn [sbind put_dom d_in_dist].
rewrite ed; cbn [of_opt sbind]; rewrite -/(put_dom P B) (estimate_up _ eu em); cbn [sbind].
by rewrite /at_idx /py_index sm /closest_pt /= hi.
Qed.

Lemma widened_twice q B B1 B2 : widened q B B1 -> widened q B1 B2 ->
  widened (q + q * (1 + q + q)) B B2.
Proof.
move=> [w1 s1 h1] [w2 s2 h2]; split; [by [] | by rewrite s2|] => j hj lo hi.
have hj1 : (j < dim B1 0)%N by rewrite /dim s1.
rewrite (h2 j hj1) (h1 j hj) -/lo -/hi /=; congr [:: _; _]; ring.
Qed.
Lemma widened_shape q B B' : widened q B B' -> [/\ nd_wf B', ndim B' = ndim B & dim B' 1 = dim B 1].
Proof. by move=> [w s _]; rewrite /ndim /dim s. Qed.

Lemma axesE P m (idx : nat) xr N loc e cin cup : nd_wf (ddom P) -> ndim (ddom P) = 2%N -> dim (ddom P) 1 = 2%N ->
  d_int P = false -> d_up P <> None -> estimate P = (P, Ok m) -> size m = 2%N -> (idx < 2)%N ->
  (expected_ratio P).2 = Ok e -> curves_ok P xr idx cin cup ->
  exists2 B, trial_axes P idx xr N loc = (put_dom P B, Ok (trial_marks idx N cin cup m loc e)) &
    widened (5%:R / 100%:R) (ddom P) B.
Proof.
move=> wf n2 d2 ei eu em sm hi ee co; have [d [r [w [k [ed _ _ _ _]]]]] := co.
have [B eB wB] := linesE wf n2 d2 ei ed eu em sm hi.
exists B => //; rewrite /PoisExModel.trial_axes (curvesE co); cbn [sbind]; rewrite eB; cbn [sbind].
rewrite /annotate /trial_marks; case: loc => [[[x y1] y2]|] //.
by rewrite (ratio_up _ eu ee).
Qed.

(** ** A trial *)
(** The sensors of a trial: the first N in the order chosen (all when there are not as many; a
    negative N leaves out the last). *)
Definition sensors_of (idx_o : seq nat) (N : int) : seq nat :=
  match N with Posz n => take n idx_o | Negz n => take (size idx_o - n.+1) idx_o end.
Lemma sensors_ofE idx_o N : take (slice_len (size idx_o) (Some N)) idx_o = sensors_of idx_o N.
Proof.
case: N => n //=; rewrite /minn; case: ltnP => // h.
by rewrite take_size take_oversize.
Qed.

(** C131: a trial is mud_problem on the first N sensors followed by estimate; its two axes show,
    over the range given, the initial density (uniform over the domain) and the updated one, then
    the MUD point and the closest spline, N and E(r).  The problem returned has a domain wider by
    10.5% on each side, and otherwise the state estimate left. *)
Theorem C131_trial s idx_o xr loc1 loc2 N P P1 m e r w d0 k (cin cup : nat -> seq R * seq R) :
  mud_problem s "pca" None None 2 None None (Some (MInts (map Posz (sensors_of idx_o N)))) = Ok P ->
  nd_wf (ddom P) -> Nd.shape (ddom P) = [:: 2%N; 2%N] -> size m = 2%N ->
  estimate P = (P1, Ok m) -> (expected_ratio P1).2 = Ok e ->
  default_initial uniform P = Ok d0 -> d_r P1 = Some r -> xvbop (@xmul R) r (d_w P1) = Ok w ->
  kde (dX P) nobw w = Ok k ->
  (forall i, (i < 2)%N -> curve "pdf" d0 xr i = Ok (cin i) /\ curve "kde" k xr i = Ok (cup i)) ->
  exists P', [/\ trial s idx_o xr loc1 loc2 N =
      Ok (P', [:: trial_marks 0 N (cin 0%N) (cup 0%N) m loc1 e; trial_marks 1 N (cin 1%N) (cup 1%N) m loc2 e]),
    same_but_domain P1 P', widened (105%:R / 1000%:R) (ddom P) (ddom P'),
    estimate P' = (P', Ok m) & expected_ratio P' = (P', Ok e)].
Proof.
move=> eP wf sh sm em ee ed er ew ek hc.
have [f1 f2 f3 f4 f5] := fresh eP.
have [[d ed' di] eu _ [bX bY bD bI] em1] := estimate_fresh f1 f2 f3 f4 em.
move: ed'; rewrite ed => -[ed']; rewrite -ed' in di => {ed' d}.
rewrite /PoisExModel.trial sensors_ofE /positions eP; cbn [rbind]; rewrite em; cbn [sbind].
have co i : (i < 2)%N -> curves_ok P1 xr i (cin i) (cup i).
  by move=> hi; exists d0, r, w, k; rewrite bX; split=> //; apply: hc.
have wf1 : nd_wf (ddom P1) by rewrite bD.
have n1 : ndim (ddom P1) = 2%N by rewrite bD /ndim sh.
have m1 : dim (ddom P1) 1 = 2%N by rewrite bD /dim sh.
have i1 : d_int P1 = false by rewrite bI.
have [B1 eB1 wB1] := @axesE P1 m 0 xr N loc1 e _ _ wf1 n1 m1 i1 eu em1 sm isT ee (co 0%N isT).
have [wf2 n2 m2] := widened_shape wB1; rewrite n1 in n2; rewrite m1 in m2.
rewrite eB1; cbn [sbind].
have em2 := estimate_up B1 eu em1; have ee2 := ratio_up B1 eu ee.
have [B2 eB2 wB2] := @axesE (put_dom P1 B1) m 1 xr N loc2 e _ _ wf2 n2 m2 i1 eu em2 sm isT (congr1 snd ee2) (curves_ok_put B1 (co 1%N isT)).
rewrite eB2; cbn [sbind snd fst rbind]; exists (put_dom P1 B2); split=> //.
- have := widened_twice wB1 wB2; rewrite bD.
  by congr widened; field.
- exact: estimate_up.
- exact: ratio_up.
Qed.
End PoisExProps.
