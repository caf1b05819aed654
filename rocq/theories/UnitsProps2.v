(** Property C162: the units of parameters and observables and the MAP point of a BayesProblem. *)
Set Warnings "-notation-overridden,-ambiguous-paths".
From mathcomp Require Import all_ssreflect all_algebra.
From mathcomp.algebra_tactics Require Import ring.
From Verif Require Import Py Nd Xnum XnumProofs UtilModel DensityModel NdProofs DensityProps2 DensityProps3 DensityProps4 BayesModel BayesProps2
  OrderProps UnitsProps.
Set Implicit Arguments. Unset Strict Implicit. Unset Printing Implicit Defensive.
Import Order.Theory GRing.Theory Num.Theory.
Local Open Scope ring_scope.

Section Units.
Variable R : rcfType.
Notation xnum := (xnum R).
Notation nd := (nd R).
Variable D : Type.
Variables (pdf logpdf : D -> nd -> res (pdfval xnum)) (uniform : seq R -> seq R -> D) (ln trunc : R -> R).
Notation bprob := (bprob R D).
Notation binit := (bayes_init D trunc).
Notation set_likelihood := (set_likelihood pdf logpdf).
Notation set_prior := (set_prior pdf uniform).
Notation bfit := (bfit pdf uniform ln).
Notation map_point := (map_point pdf uniform ln).
Notation brun1 draw := (brun1 pdf logpdf uniform ln draw).
Notation brun draw := (brun pdf logpdf uniform ln draw).
Notation returns draw := (returns pdf logpdf uniform ln draw).

(** ** Specification *)
Variables (n m p q : nat) (ux uy : units R) (jx jy : R) (fx fy : D -> D).
(** As in C161: the distributions follow the change of units. *)
Definition bchange_of_units : Prop :=
  [/\ [/\ size ux = p, size uy = q, positive ux, 0 < jx & 0 < jy],
      forall d (A : nd), n_rows n A -> dim A 1 = p -> densities_times jx (pdf d A) (pdf (fx d) (points_in ux A)),
      forall d (A : nd), n_rows m A -> dim A 1 = q -> densities_times jy (pdf d A) (pdf (fy d) (points_in uy A)) &
      forall mn rg, size mn = p -> size rg = p -> fx (uniform mn rg) = uniform (point_in ux mn) (lengths_in ux rg)].
(** The problem in the other units. *)
Definition bconverted (s : bprob) : bprob :=
  BP (points_in ux (bX s)) (points_in uy (by_ s)) (domain_in ux (bdom s)) (omap (fun v => times jx (times jy v)) (b_ps s))
     (omap (times jx) (b_pr s)) (omap (times jy) (b_ll s)) (b_log s) (omap fy (b_ll_dist s)) (omap fx (b_pr_dist s)).
Definition bconverted_call (o : bop D) : bop D :=
  match o with
  | BLik d lg => BLik (fy d) lg
  | BPrior d => BPrior (omap fx d)
  | o => o
  end.
(** n samples of p parameters, m rows of q data, and likelihoods that are not logarithms. *)
Definition bmeasured (s : bprob) : Prop :=
  [/\ n_rows n (bX s) /\ dim (bX s) 1 = p, n_rows m (by_ s) /\ dim (by_ s) 1 = q, n_rows p (bdom s) & b_log s = false].
Definition plain_call (o : bop D) : Prop := match o with BLik _ lg => lg = false | _ => True end.

Hypothesis H : bchange_of_units.
Notation cv := bconverted.
Notation good := bmeasured.
Lemma bjx0 : 0 < jx. Proof. by case: H => -[]. Qed.
Lemma bjy0 : 0 < jy. Proof. by case: H => -[]. Qed.
Local Hint Resolve bjx0 bjy0 : core.
(** The lemmas of C161 on arrays and domains, for distributions that always fail. *)
Lemma arrays : change_of_units (D := unit) (fun _ (_ : unit) (_ : nd) => Err ValueError) tt (fun _ _ => tt)
  (fun (_ : nd) (_ : unit) _ => Err ValueError) (fun _ _ => Err ValueError) n p q ux uy 1 1 id id.
Proof. by have [[e1 e2 e3 e4 e5] _ _ _] := H; split=> //; split=> //; exact: ltr01. Qed.

Definition bsim A (c' c : bprob * res A) : Prop := c' = (cv c.1, c.2) /\ good c.1.
Lemma bsim_bind A B (c' c : bprob * res A) (f g : bprob -> A -> bprob * res B) : bsim c' c ->
  (forall s a, good s -> bsim (f (cv s) a) (g s a)) -> bsim (sbind c' f) (sbind c g).
Proof. by case: c => s [a|e] [-> gs] h /=; [apply: h | split]. Qed.
Lemma bsim_ret A s (r : res A) : good s -> bsim (cv s, r) (s, r).
Proof. by split. Qed.

Lemma likelihood_sim s d : good s -> bsim (set_likelihood (cv s) (fy d) false) (set_likelihood s d false).
Proof.
move=> [gX gy gd gl]; rewrite /BayesModel.set_likelihood /lik_values; have [_ _ h _] := H.
have -> := prod_times (h d (by_ s) gy.1 gy.2).
by case: (rbind _ _) => [v|e].
Qed.

Lemma default_prior_units (A : nd) : n_rows p A -> default_prior uniform (domain_in ux A) = rmap fx (default_prior uniform A).
Proof.
move=> gd; have [wf n2 d0] := gd; have [[sux suy pos _ _] _ _ hu] := H; rewrite /default_prior.
have -> : dim (domain_in ux A) 1 = dim A 1 by [].
case: ifP => // /negbT ne; rewrite (rows_domain arrays) // [rmap _ _]/=.
rewrite hu ?size_map ?size_rows ?d0 //; last by rewrite size_zip !size_map !size_rows d0 minnn.
have a : all (fun r => (0 < size r)%N) (rows A).
  by have := all_size_rows wf n2; apply: sub_all => r /eqP ->; rewrite lt0n.
congr (Ok (uniform _ _)).
  rewrite /point_in; elim: (rows A) {+}ux {+}pos a => [|r rs ih] [|u us] //= /andP[u0 us0] /andP[r0 rs0].
  by rewrite np_min_unit // ih.
rewrite /lengths_in; elim: (rows A) {+}ux {+}pos a => [|r rs ih] [|u us] //= /andP[u0 us0] /andP[r0 rs0].
by rewrite np_min_unit // np_max_unit // ih // /to_unit; congr (_ :: _); ring.
Qed.
Lemma prior_sim s d : good s -> bsim (set_prior (cv s) (omap fx d)) (set_prior s d).
Proof.
move=> g; have [gX gy gd gl] := g; rewrite /BayesModel.set_prior.
have -> : (match omap fx d with Some d' => Ok d' | None => default_prior uniform (bdom (cv s)) end) =
  rmap fx (match d with Some d' => Ok d' | None => default_prior uniform (bdom s) end).
  by case: d => //=; rewrite default_prior_units.
case: (match d with Some _ => _ | None => _ end) => [d'|e]; last exact: bsim_ret.
have [_ h _ _] := H; cbn [rmap]; have -> : bX (cv s) = points_in ux (bX s) by [].
by have -> := prod_times (h d' _ gX.1 gX.2); case: (rbind _ _) => [v|e].
Qed.
Lemma bfit_sim s : good s -> bsim (bfit (cv s)) (bfit s).
Proof.
move=> g; rewrite /BayesModel.bfit; apply: bsim_bind.
  by rewrite {1}/bconverted; cbn [b_pr]; case: (b_pr s) => [v|]; [exact: bsim_ret | exact: (prior_sim None)].
move=> s1 _ g1; have [gX gy gd gl] := g1.
have -> : b_ll (cv s1) = omap (times jy) (b_ll s1) by []. have -> : b_log (cv s1) = b_log s1 by [].
have -> : b_pr (cv s1) = omap (times jx) (b_pr s1) by []. have -> : dim (bX (cv s1)) 0 = dim (bX s1) 0 by [].
case: (b_ll s1) => [ll|]; cbn [omap obind oapp]; last exact: bsim_ret.
rewrite odflt_times gl /combine !timesE xvbop_scale_l // xvbop_scale_r //.
case: (xvbop _ _ _) => [ps|e]; cbn [rmap rbind]; last exact: bsim_ret.
rewrite /scale_all !size_map -!/(scale_all _ _); case: (guard _ _) => [[]|e]; cbn [rbind]; last exact: bsim_ret.
rewrite !xsum_scale // !xzero_scale //; case: (guard _ _) => [[]|e]; cbn [rbind]; last exact: bsim_ret.
by split.
Qed.
(** C162: the estimate of the converted problem is the estimate, in the other units. *)
Theorem C162_estimate s : good s ->
  map_point (cv s) = (cv (map_point s).1, rmap (point_in ux) (map_point s).2) /\ good (map_point s).1.
Proof.
move=> g; rewrite /BayesModel.map_point.
have : bsim (if b_ps (cv s) is None then bfit (cv s) else (cv s, Ok tt)) (if b_ps s is None then bfit s else (s, Ok tt)).
  by rewrite {1}/bconverted; cbn [b_ps]; case: (b_ps s) => [v|]; [exact: bsim_ret | exact: bfit_sim].
case: (if b_ps s is None then _ else _) => s1 [[]|e] [-> g1] //=.
split=> //; congr (_, _).
have -> : odflt [::] (omap (fun v => times jx (times jy v)) (b_ps s1)) = times jx (times jy (odflt [::] (b_ps s1))) by case: (b_ps s1).
rewrite !argmax_scale //; case: (argmax _) => [i|e] //=.
rewrite /row_at; have -> : dim (points_in ux (bX s1)) 0 = dim (bX s1) 0 by []; case: ifP => // hm.
have [[gX d1] _ _ _] := g1; have [[sux _ _ _ _] _ _ _] := H; rewrite (rows_points gX d1) ?sux //=; congr Ok.
by rewrite (nth_map [::]) // size_rows.
Qed.

Variable draw : nat -> bprob -> res unit.
Hypothesis drawn : forall k s, good s -> draw k (cv s) = draw k s.
Lemma map_sim k s : good s -> bsim (sbind (map_point (cv s)) (fun s _ => lift s (draw k s))) (sbind (map_point s) (fun s _ => lift s (draw k s))).
Proof.
move=> g; have [-> g1] := C162_estimate g; move: g1; case: (map_point s) => s1 [x|e] /= g1; last exact: bsim_ret.
by rewrite /lift drawn //; exact: bsim_ret.
Qed.
Lemma bcall_sim s o : good s -> plain_call o -> bsim (brun1 draw (cv s) (bconverted_call o)) (brun1 draw s o).
Proof.
move=> g; case: o => [d lg|d| | |a b c|a b] /= ho.
- by rewrite ho; exact: likelihood_sim.
- exact: prior_sim.
- exact: bfit_sim.
- by rewrite /bvoid; have [-> g1] := C162_estimate g; split=> //=; congr (_, _); case: (map_point s).2.
- rewrite /bplot_param /lift; apply: bsim_bind; first by rewrite drawn //; exact: bsim_ret.
  move=> s1 _ g1; apply: bsim_bind; first by case: b; [exact: map_sim | exact: bsim_ret].
  move=> s2 _ g2; apply: bsim_bind; first by case: c; [exact: map_sim | exact: bsim_ret].
  by move=> s3 _ g3; rewrite drawn //; exact: bsim_ret.
- rewrite /bplot_obs /lift !drawn //.
  have -> : isSome (b_ll (cv s)) = isSome (b_ll s) by rewrite /=; case: (b_ll s).
  exact: bsim_ret.
Qed.
(** C162: every history of calls without logarithms has the same outcomes. *)
Theorem C162_history s h : good s -> List.Forall plain_call h ->
  [/\ brun draw (cv s) (map bconverted_call h) = cv (brun draw s h),
      returns draw (cv s) (map bconverted_call h) = returns draw s h & good (brun draw s h)].
Proof.
elim: h s => [//|o h ih] s g hh; inversion hh as [|x t h1 h2]; subst.
have [e g1] := bcall_sim g h1; have [i1 i2 i3] := ih _ g1 h2.
by cbn [map BayesModel.brun foldl BayesModel.returns]; rewrite e; cbn [fst snd]; split; rewrite ?i1 ?i2.
Qed.
(** C162: the constructor. *)
Theorem C162_constructor (X y : nd) dom : n_rows n X -> dim X 1 = p -> n_rows m y -> dim y 1 = q ->
  (if dom is Some d then n_rows p d else True) ->
  binit (points_in ux X) (points_in uy y) false (omap (domain_in ux) dom) = rmap cv (binit X y false dom) /\
  forall s, binit X y false dom = Ok s -> good s.
Proof.
move=> hX dX1 hy dy1 hd; have [wX n2X d0X] := hX; have [wy n2y d0y] := hy; rewrite /bayes_init.
have s2 (sp : seq (option nat)) (A : nd) : ndim A = 2%N -> set_shape sp A = Ok A by move=> e; rewrite /set_shape e.
rewrite !s2 //; cbn [rbind]; have -> : dim (points_in ux X) 1 = dim X 1 by [].
case: dom hd => [d|] hd; cbn [omap obind oapp].
  have [wd n2d d0d] := hd; rewrite !s2 //; cbn [rbind].
  have -> : dim (domain_in ux d) 0 = dim d 0 by [].
  by case: (guard _ _) => [[]|e] //; cbn [rbind rmap]; split=> // s [<-].
have [-> hB] := fit_units arrays (10%:R^-1) hX dX1; rewrite /cast_of.
case: (fit_domain _ _ _ _) hB => [B|e] // /(_ _ erefl) hB; cbn [rmap rbind].
by split=> // s [<-].
Qed.
End Units.

(** ** With logarithms the units do matter *)
Section Log.
Variable R : rcfType.
Notation xnum := (xnum R).
Notation nd := (nd R).
Variables (ln trunc : R -> R).
(** Distributions of constant density, with log-density zero for the data. *)
Definition cst_pdf (d : R) (A : nd) : res (pdfval xnum) := Ok (P2 [seq [:: Fin d] | _ <- rows A]).
Definition cst_logpdf (_ : R) (A : nd) : res (pdfval xnum) := Ok (P2 [seq [:: Fin 0] | _ <- rows A]).
Definition cst_uniform (mn rg : seq R) : R := 0.
Definition one_X (x : R) : nd := nd2 1 [:: [:: x]].
Definition log_history (d : R) (x : R) : res (seq R) :=
  s <- bayes_init R trunc (one_X x) (one_X 0) false None ;;
  (map_point cst_pdf cst_uniform ln (set_likelihood cst_pdf cst_logpdf (set_prior cst_pdf cst_uniform s (Some d)).1 0 true).1).2.

(** C162 fails for set_likelihood(log=True): with lengths half as large the densities are twice as
    large, and fit raises where it did not, because the logarithms sum to zero. *)
Theorem C162_log_refuted : ln 1 = 0 -> ln (2%:R^-1) != 0 ->
  log_history (2%:R^-1) 4%:R = Ok [:: 4%:R] /\ log_history 1 2%:R = Err ValueError.
Proof.
move=> l1 l2; have h0 : (2%:R : R)^-1 == 0 = false by rewrite invr_eq0 pnatr_eq0.
have h1 : (0 : R) < 2%:R^-1 by rewrite invr_gt0 ltr0n.
rewrite /log_history /BayesModel.map_point /BayesModel.bfit /=; split.
  by rewrite mulr1 h0 h1 /= !addr0 (negbTE l2).
by rewrite mulr1 oner_eq0 ltr01 /= l1 !addr0 eqxx.
Qed.
End Log.
