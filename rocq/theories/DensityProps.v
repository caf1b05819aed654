(** Properties C36-C38: the estimate of DensityProblem after any history of calls. *)
Set Warnings "-notation-overridden,-ambiguous-paths".
From mathcomp Require Import all_ssreflect all_algebra.
From Verif Require Import Py Nd Xnum XnumProofs UtilModel DensityModel.
Set Implicit Arguments. Unset Strict Implicit. Unset Printing Implicit Defensive.
Import Order.Theory GRing.Theory Num.Theory.
Local Open Scope ring_scope.

Section DensityProps.
Variable R : rcfType.
Notation xnum := (xnum R).
Notation nd := (nd R).
Variables (D KW BW : Type).
Variable pdf : D -> KW -> nd -> res (pdfval xnum).
Variable nokw : KW.
Variable nobw : BW.
Variable uniform : seq R -> seq R -> D.
Variable norm01 : D.
Variable kde : nd -> BW -> seq xnum -> res D.
Variable kde_pdf : D -> nd -> res (seq xnum).
Variable trunc : R -> R.
Notation dprob := (dprob R D).
Notation pargs := (pargs R D KW BW).
Notation dop := (dop R D KW BW).
Notation no_args := (no_args R D nokw nobw).
Notation set_observed := (set_observed pdf nokw norm01).
Notation set_initial := (set_initial pdf nokw uniform).
Notation set_predicted := (set_predicted pdf kde kde_pdf).
Notation fit := (fit pdf nokw uniform norm01 kde kde_pdf).
Notation mud_point := (mud_point pdf nokw nobw uniform norm01 kde kde_pdf).
Notation expected_ratio := (expected_ratio pdf nokw nobw uniform norm01 kde kde_pdf).
Notation init := (density_init D trunc).
Notation run1 draw := (run1 pdf nokw nobw uniform norm01 kde kde_pdf trunc draw).
Notation run draw := (run pdf nokw nobw uniform norm01 kde kde_pdf trunc draw).
Notation all_return draw := (all_return pdf nokw nobw uniform norm01 kde kde_pdf trunc draw).

(** ** Specification: what the calls mean, without any stored density values. *)

(** Joint density of the rows of [a] under independent components. *)
Definition density_at (d : D) (a : nd) (v : seq xnum) : Prop :=
  exists m, pdf d nokw a = Ok (P2 m) /\ v = [seq xprod r | r <- m].

(** Predicted density values for given arguments and weights. *)
Definition predicted_at (y : nd) (w : seq xnum) (a : pargs) (v : seq xnum) : Prop :=
  match pa_dist a with
  | Some d => exists m, pdf d (pa_kw a) y = Ok m /\ v = pravel m
  | None => exists2 k, kde y (pa_bw a) w = Ok k & kde_pdf k y = Ok v
  end.

(** What is in force: weights, initial distribution, arguments of the predicted density,
    observed distribution, and the observed distribution of the last computation (none if
    the updated density has been discarded since). *)
Record setting := St { t_w : seq xnum; t_in : option D; t_pr : option pargs;
                       t_ob : option D; t_used : option D }.

Definition t_weights (s : dprob) (t : setting) (w : option nd) (n : bool) : setting :=
  St (d_w (set_weights s w n).1) (t_in t) None (t_ob t) None.

(** The uniform distribution over the domain of [s]. *)
Definition dflt_in (s : dprob) : option D :=
  if default_initial uniform s is Ok d then Some d else None.

Definition t_predicted (s : dprob) (t : setting) (a : pargs) : setting :=
  let w := if pa_w a is Some _ then d_w (set_weights s (pa_w a) false).1 else t_w t in
  St w (t_in t) (Some a) (t_ob t) None.

(** A computation fills in the defaults: initial first, then predicted, then observed. *)
Definition t_fit (s : dprob) (t : setting) (a : pargs) : setting :=
  let t1 := if t_in t is None then St (t_w t) (dflt_in s) None (t_ob t) None else t in
  let t2 := if t_pr t1 is None then t_predicted s t1 a else t1 in
  let ob := odflt norm01 (t_ob t2) in
  St (t_w t2) (t_in t2) (t_pr t2) (Some ob) (Some ob).

(** [s0] is the object the history starts from; only its sample arrays and domain are used. *)
Definition t_step (s0 : dprob) (t : setting) (o : dop) : setting :=
  match o with
  | OWeights w n => t_weights s0 t w n
  | OObserved d => St (t_w t) (t_in t) (t_pr t) (Some (odflt norm01 d)) (t_used t)
  | OInitial d => St (t_w t) (if d is Some d then Some d else dflt_in s0) None (t_ob t) None
  | OPredicted a => t_predicted s0 t a
  | OFit a => t_fit s0 t a
  | OMud | ORatio => if t_used t is None then t_fit s0 t no_args else t
  | OPlot _ _ _ _ _ _ | OPlotObs _ => t
  end.
Definition t_init (s0 : dprob) : setting := St (d_w s0) None None None None.
Definition track (s0 : dprob) (h : seq dop) : setting := foldl (t_step s0) (t_init s0) h.
(** The observed distribution was replaced after the last computation, and nothing has
    discarded its result: (an updated density is there, it is out of date). *)
Definition stale_step (cs : bool * bool) (o : dop) : bool * bool :=
  match o with
  | OWeights _ _ | OInitial _ | OPredicted _ => (false, false)
  | OObserved _ => (cs.1, cs.1)
  | OFit _ => (true, false)
  | OMud | ORatio => if cs.1 then cs else (true, false)
  | OPlot _ _ _ _ _ _ | OPlotObs _ => cs
  end.
Definition stale (h : seq dop) : bool := (foldl stale_step (false, false) h).2.

(** [u] are the updated densities: initial * weight * observed / predicted, sample by
    sample. *)
Definition updated (iv w ob pr u : seq xnum) : Prop :=
  exists r iw, [/\ xvbop (@xdiv R) ob pr = Ok r, xvbop (@xmul R) iv w = Ok iw
                 & xvbop (@xmul R) iw r = Ok u].

(** ** Basic facts *)
Definition base_eq (s s' : dprob) := [/\ dX s = dX s', dy s = dy s', ddom s = ddom s' & d_int s = d_int s'].

Lemma base_refl s : base_eq s s. Proof. by []. Qed.
Lemma base_trans s1 s2 s3 : base_eq s1 s2 -> base_eq s2 s3 -> base_eq s1 s3.
Proof. by case=> a b c d; case=> a' b' c' d'; split; congruence. Qed.

Lemma weights_base (s : dprob) w n : base_eq (set_weights s w n).1 s.
Proof. by rewrite /set_weights; case: w => [w|] //; case: ifP => //; case: ifP. Qed.

Lemma weights_ext (s s' : dprob) w n : base_eq s s' ->
  is_ok (set_weights s w n).2 = is_ok (set_weights s' w n).2 /\
  (is_ok (set_weights s w n).2 -> d_w (set_weights s w n).1 = d_w (set_weights s' w n).1).
Proof.
rewrite /set_weights /n_samples => -[-> -> _ _]; case: w => [w|] //=.
by case: ifP => //; case: ifP.
Qed.

Lemma weights_put (s : dprob) w n : is_ok (set_weights s w n).2 ->
  (set_weights s w n).1 = put_weights s (d_w (set_weights s w n).1).
Proof. by rewrite /set_weights; case: w => [w|] //=; case: ifP => //; case: ifP. Qed.

Lemma density_atE d a v :
  (m <- pdf d nokw a ;; prod_axis1 m) = Ok v <-> density_at d a v.
Proof.
rewrite /density_at; case: (pdf d nokw a) => [[m|m]|e] /=; split => //.
- by case=> m' [].
- by move=> [<-]; exists m.
- by case=> m' [[->] ->].
- by case=> m' [].
Qed.

Lemma predicted_atE (s : dprob) a d v :
  predicted_values pdf kde kde_pdf s a = Ok (d, v) -> predicted_at (dy s) (d_w s) a v.
Proof.
rewrite /predicted_values /predicted_at; case: (pa_dist a) => [d0|].
  by case E: (pdf _ _ _) => [m|] //= [_ <-]; exists m.
by case: (kde _ _ _) => [k|] //=; case E: (kde_pdf _ _) => [m|] //= [_ <-]; exists k.
Qed.

(** The object agrees with the setting. *)
Record agrees (s0 s : dprob) (t : setting) : Prop := Agrees {
  ag_base : base_eq s s0;
  ag_w : d_w s = t_w t;
  ag_in : match d_in s, t_in t with
          | None, None => True | Some v, Some d => density_at d (dX s0) v | _, _ => False end;
  ag_pr : match d_pr s, t_pr t with
          | None, None => True | Some v, Some a => predicted_at (dy s0) (t_w t) a v
          | _, _ => False end;
  ag_ob : match d_ob s, t_ob t with
          | None, None => True | Some v, Some d => density_at d (dy s0) v | _, _ => False end;
  ag_up : match d_up s, t_used t with
          | None, None => True
          | Some u, Some d => exists iv pr ob, [/\ d_in s = Some iv, d_pr s = Some pr,
              density_at d (dy s0) ob, xvbop (@xdiv R) ob pr = Ok (odflt [::] (d_r s)) &
              updated iv (t_w t) ob pr u]
          | _, _ => False end }.

Lemma ag_set_weights s0 s t w n : agrees s0 s t -> is_ok (set_weights s w n).2 ->
  agrees s0 (set_weights s w n).1 (t_weights s0 t w n).
Proof.
move=> [[bX bY bD bI] aw ai ap ao au] ok.
have [_ e] := @weights_ext s s0 w n (And4 bX bY bD bI).
rewrite (weights_put ok); constructor=> //=.
by rewrite (e ok).
Qed.

Lemma set_initial_okE s d : is_ok (set_initial s d).2 ->
  exists d' v, [/\ (if d is Some d then Some d else dflt_in s) = Some d',
    density_at d' (dX s) v &
    (set_initial s d).1 = DP (dX s) (dy s) (ddom s) (d_int s) (d_w s) (d_r s) None (Some v) None
                     (d_ob s) (Some d') None (d_ob_dist s)].
Proof.
rewrite /set_initial /dflt_in; case E0: (if d is Some d then _ else _) => [d'|] //=.
case E: (pdf d' nokw (dX s)) => [m|] //=; case E2: (prod_axis1 m) => [v|] //= _.
exists d', v; split=> //; last by apply/density_atE; rewrite E /= E2.
by case: d E0 => [d [->]|->].
Qed.

Lemma ag_set_initial s0 s t d : agrees s0 s t -> is_ok (set_initial s d).2 ->
  agrees s0 (set_initial s d).1 (t_step s0 t (OInitial R KW BW d)).
Proof.
move=> [[bX bY bD bI] aw ai ap ao au] /set_initial_okE [d' [v [e hv ->]]].
constructor=> //=.
have ed : dflt_in s = dflt_in s0 by rewrite /dflt_in /default_initial bD.
by rewrite -ed; case: d e => [d [->]|->]; rewrite -bX.
Qed.

Lemma set_observed_okE s d : is_ok (set_observed s d).2 ->
  exists2 v, density_at (odflt norm01 d) (dy s) v &
    (set_observed s d).1 = DP (dX s) (dy s) (ddom s) (d_int s) (d_w s) (d_r s) (d_up s)
       (d_in s) (d_pr s) (Some v) (d_in_dist s) (d_pr_dist s) (Some (odflt norm01 d)).
Proof.
rewrite /set_observed; case E: (rbind _ _) => [v|] //= _; exists v => //.
exact/density_atE.
Qed.

Lemma ag_set_observed s0 s t d : agrees s0 s t -> is_ok (set_observed s d).2 ->
  agrees s0 (set_observed s d).1 (t_step s0 t (OObserved R KW BW d)).
Proof.
move=> [[bX bY bD bI] aw ai ap ao au] /set_observed_okE [v hv ->].
by constructor=> //=; rewrite -bY.
Qed.

Lemma ag_set_predicted s0 s t a : agrees s0 s t -> is_ok (set_predicted s a).2 ->
  agrees s0 (set_predicted s a).1 (t_predicted s0 t a).
Proof.
rewrite /set_predicted.
set m := (if pa_w a is Some w then _ else _).
move=> ag; have : is_ok m.2 -> exists2 t1, agrees s0 m.1 t1 & t_predicted s0 t a
  = St (t_w t1) (t_in t1) (Some a) (t_ob t1) None.
  rewrite /m /t_predicted; case: (pa_w a) => [w|] ok; last by exists t.
  by exists (t_weights s0 t (Some w) false) => //; apply: ag_set_weights.
case: m => s1 [[]|e] //= /(_ isT) [t1 [[bX bY bD bI] aw ai ap ao au] ->].
case E: (predicted_values _ _ _ _ _) => [[d v]|] //= _.
constructor=> //=; rewrite -aw -bY; exact: predicted_atE E.
Qed.

Lemma ag_none_in s0 s t : agrees s0 s t -> d_in s = None -> t_in t = None.
Proof. by move=> ag e; have := ag_in ag; rewrite e; case: (t_in t). Qed.
Lemma ag_none_pr s0 s t : agrees s0 s t -> d_pr s = None -> t_pr t = None.
Proof. by move=> ag e; have := ag_pr ag; rewrite e; case: (t_pr t). Qed.
Lemma ag_none_ob s0 s t : agrees s0 s t -> d_ob s = None -> t_ob t = None.
Proof. by move=> ag e; have := ag_ob ag; rewrite e; case: (t_ob t). Qed.

Lemma ag_fit s0 s t a : agrees s0 s t -> is_ok (fit s a).2 ->
  agrees s0 (fit s a).1 (t_fit s0 t a) /\ d_up (fit s a).1 <> None.
Proof.
rewrite /fit /fill_defaults => ag.
(* initial *)
set m1 := (if d_in s is None then _ else _).
pose t1 := if t_in t is None then St (t_w t) (dflt_in s0) None (t_ob t) None else t.
have h1 : is_ok m1.2 -> agrees s0 m1.1 t1 /\ d_in m1.1 <> None.
  rewrite /m1 /t1; case E: (d_in s) => [iv|] /=.
    by have := ag_in ag; rewrite E; case: (t_in t).
  rewrite (ag_none_in ag E) => ok; have := ag_set_initial ag ok; rewrite /= => ag1; split=> //.
  by have [d' [v [_ _ ->]]] := set_initial_okE ok.
case: m1 h1 => s1 [[]|e] //= /(_ isT) [ag1 in1].
(* predicted *)
set m2 := (if d_pr s1 is None then _ else _).
pose t2 := if t_pr t1 is None then t_predicted s0 t1 a else t1.
have h2 : is_ok m2.2 -> [/\ agrees s0 m2.1 t2, d_pr m2.1 <> None & d_in m2.1 = d_in s1].
  rewrite /m2 /t2; case E: (d_pr s1) => [pv|] /=.
    by have := ag_pr ag1; rewrite E; case: (t_pr t1).
  rewrite (ag_none_pr ag1 E) => ok; split; first exact: ag_set_predicted.
    move: ok; rewrite /set_predicted; case: (match pa_w a with Some _ => _ | None => _ end).
    by move=> s2 [u|] //=; case: (predicted_values _ _ _ _ _) => [[]|].
  move: ok; rewrite /set_predicted; case E1: (match pa_w a with Some _ => _ | None => _ end) => [s2 [u|]] //=.
  case: (predicted_values _ _ _ _ _) => [[]|] //= _ _ _.
  move: E1; case: (pa_w a) => [w|] E1; last by case: E1 => <-.
  have -> : s2 = (set_weights s1 (Some w) false).1 by rewrite E1.
  by rewrite weights_put ?E1.
case: m2 h2 => s2 [[]|e] //= /(_ isT) [ag2 pr2 in2].
(* observed *)
set m3 := (if d_ob s2 is None then _ else _).
pose t3 := St (t_w t2) (t_in t2) (t_pr t2) (Some (odflt norm01 (t_ob t2))) (t_used t2).
have h3 : is_ok m3.2 -> [/\ agrees s0 m3.1 t3, d_ob m3.1 <> None, d_pr m3.1 = d_pr s2 & d_in m3.1 = d_in s2].
  rewrite /m3; case E: (d_ob s2) => [ov|] /=.
    move=> _; split; rewrite ?E //; case: ag2 => b2 w2 i2 p2 ag_ob0 u2; constructor=> //=.
    by move: ag_ob0; rewrite E; case: (t_ob t2).
  move=> ok; have [v _ e] := set_observed_okE ok; split; rewrite ?e //.
  rewrite -e; have := ag_set_observed ag2 ok.
  by rewrite /t3 (ag_none_ob ag2 E).
case: m3 h3 => s3 [[]|e] //= /(_ isT) [ag3 ob3 pr3 in3].
move: in1 pr2 ob3; rewrite -pr3 -in2 -in3.
case Ei: (d_in s3) => [iv|] // _; case Ep: (d_pr s3) => [pr|] // _; case Eo: (d_ob s3) => [ob|] // _.
rewrite /lift /=; case Er: (xvbop _ ob pr) => [r|] //=.
rewrite ?Ei; case Ew: (xvbop _ iv (d_w s3)) => [iw|] //=; case Eu: (xvbop _ iw r) => [u|] //= _.
split=> //; case: ag3 => b aw ai ap ao au; constructor=> //=.
rewrite Eo in ao; exists iv, pr, ob; split=> //.
by exists r, iw; rewrite -[t_w t2]/(t_w t3) -aw.
Qed.

Lemma ag_ensure s0 s t : agrees s0 s t ->
  is_ok (ensure_up pdf nokw nobw uniform norm01 kde kde_pdf s).2 ->
  agrees s0 (ensure_up pdf nokw nobw uniform norm01 kde kde_pdf s).1
    (if t_used t is None then t_fit s0 t no_args else t) /\
  d_up (ensure_up pdf nokw nobw uniform norm01 kde kde_pdf s).1 <> None.
Proof.
rewrite /ensure_up => ag; case E: (d_up s) => [u|] /=.
  by have := ag_up ag; rewrite E; case: (t_used t).
have -> : t_used t = None by have := ag_up ag; rewrite E; case: (t_used t).
exact: ag_fit.
Qed.

(** No default-range plotting calls (they change the domain, see C44). *)
Definition no_plot (o : dop) : bool :=
  match o with OPlot _ _ _ _ _ _ => false | _ => true end.

Lemma ag_step draw s0 s t o : no_plot o -> agrees s0 s t -> is_ok (run1 draw s o).2 ->
  agrees s0 (run1 draw s o).1 (t_step s0 t o).
Proof.
case: o => [w n|d|d|a|a| | |xr p a b c d|k] //= _ ag.
- exact: ag_set_weights.
- exact: ag_set_observed.
- exact: ag_set_initial.
- exact: ag_set_predicted.
- by move=> /(ag_fit ag) [].
- rewrite /mud_point; have := ag_ensure ag; case: (ensure_up _ _ _ _ _ _ _ s) => s1 [u|] //=.
  by move=> /(_ isT) [].
- rewrite /expected_ratio; have := ag_ensure ag; case: (ensure_up _ _ _ _ _ _ _ s) => s1 [u|] //=.
  by move=> /(_ isT) [].
Qed.

Lemma init_agrees X y xi dm di w n p s0 : init X y xi dm di w n p = Ok s0 ->
  agrees s0 s0 (t_init s0).
Proof.
rewrite /density_init; case: (set_shape _ X) => [X2|] //=; case: (set_shape _ y) => [y2|] //=.
case: (match dm with Some _ => _ | None => _ end) => [[d2 i2]|] //=.
case E: (set_weights _ w n) => [s r]; case: r E => [[]|] //= E [<-].
have -> : s = (set_weights (DP X2 y2 d2 i2 [::] None None None None None None None None) w n).1.
  by rewrite E.
by rewrite weights_put ?E //; constructor.
Qed.

Lemma run_agrees draw s0 s t h : all no_plot h -> agrees s0 s t -> all_return draw s h ->
  agrees s0 (run draw s h) (foldl (t_step s0) t h).
Proof.
elim: h s t => [//|o h ih] s t /= /andP [no nh] ag /andP [ok oks].
by apply: ih => //; apply: ag_step.
Qed.

(** ** C36, C37 *)
Section History.
Variables (X y : nd) (xint : bool) (dom : option nd) (domint : bool) (w : option nd)
  (normalize : bool) (pad : R) (draw : nat -> dprob -> res unit) (s0 : dprob) (h : seq dop).
Hypothesis fresh_object : init X y xint dom domint w normalize pad = Ok s0.
Hypothesis plots : all no_plot h.
Hypothesis returned : all_return draw s0 h.

(** Exact description of the estimate after any history of returning calls: the row of X
    at the first NaN of the updated densities if there is one, otherwise at the first
    maximum; the updated densities are computed from the initial distribution, weights and
    predicted density in force, and the observed distribution of the last computation. *)
Theorem C37_estimate_exact s' x : mud_point (run draw s0 h) = (s', Ok x) ->
  let t := t_step s0 (track s0 h) (OMud R D KW BW) in
  exists di a dob iv ob pr u m,
  [/\ [/\ t_in t = Some di, t_pr t = Some a & t_used t = Some dob],
      [/\ density_at di (dX s0) iv, predicted_at (dy s0) (t_w t) a pr & density_at dob (dy s0) ob],
      updated iv (t_w t) ob pr u,
      (if has (@isnan R) u then first_nan u m else first_max u m)
    & (m < dim (dX s0) 0)%N /\ x = nth [::] (rows (dX s0)) m].
Proof.
have ag : agrees s0 (run draw s0 h) (track s0 h).
  by apply: run_agrees => //; apply: init_agrees fresh_object.
rewrite /mud_point; have := ag_ensure ag.
case: (ensure_up _ _ _ _ _ _ _ _) => s1 [[]|//] /= /(_ isT) [ag1 up1].
case Eu: (d_up s1) up1 => [u|] // _ [_]; case Em: (argmax u) => [m|] //=.
rewrite /row_at; case: ifP => // hm [ex].
case: ag1 => [[bX _ _ _] _ ai ap ao]; rewrite Eu.
case Et: (t_used _) => [dob|] // [iv [pr [ob [e1 e2 hob _ hup]]]].
rewrite e1 in ai; rewrite e2 in ap.
case Ei: (t_in _) ai => [di|] // hi; case Ea: (t_pr _) ap => [a|] // ha.
exists di, a, dob, iv, ob, pr, u, m; split=> //; first exact: argmaxP.
by rewrite -bX hm ex.
Qed.

(** The expected ratio uses the same values. *)
Theorem C37_expected_ratio_exact s' v : expected_ratio (run draw s0 h) = (s', Ok v) ->
  let t := t_step s0 (track s0 h) (OMud R D KW BW) in
  exists a dob ob pr r,
  [/\ t_pr t = Some a /\ t_used t = Some dob,
      predicted_at (dy s0) (t_w t) a pr /\ density_at dob (dy s0) ob,
      xvbop (@xdiv R) ob pr = Ok r & np_average r (t_w t) = Ok v].
Proof.
have ag : agrees s0 (run draw s0 h) (track s0 h).
  by apply: run_agrees => //; apply: init_agrees fresh_object.
rewrite /expected_ratio; have := ag_ensure ag.
case: (ensure_up _ _ _ _ _ _ _ _) => s1 [[]|//] /= /(_ isT) [ag1 up1].
case Eu: (d_up s1) up1 => [u|] // _ [_ hv].
case: ag1 => [_ aw ai ap ao]; rewrite Eu.
case Et: (t_used _) => [dob|] // [iv [pr [ob [e1 e2 hob hr hup]]]].
rewrite e2 in ap; case Ea: (t_pr _) ap => [a|] // ha.
rewrite aw in hv.
by exists a, dob, ob, pr, (odflt [::] (d_r s1)).
Qed.

End History.

(** Unless the observed distribution was replaced after the last computation, that is the
    observed distribution in force. *)
Lemma stale_track s0 h : let cs := foldl stale_step (false, false) h in
  isSome (t_used (track s0 h)) = cs.1 /\
  (cs.1 -> ~~ cs.2 -> t_used (track s0 h) = t_ob (track s0 h)).
Proof.
elim/last_ind: h => [//|h o /=]; rewrite /track !foldl_rcons.
set t := foldl _ _ h; set cs := foldl _ _ h => -[e1 e2].
case: o => [w n|d|d|a|a| | |xr p a b c d|k] //=.
- by rewrite e1; split=> // ->.
- by case: cs e1 e2 => [[|] st] /=; case E: (t_used t) => [d|] //= _ e2; rewrite E.
- by case: cs e1 e2 => [[|] st] /=; case E: (t_used t) => [d|] //= _ e2; rewrite E.
Qed.

Theorem C37_estimate_is_current s0 h : ~~ stale h ->
  let t := t_step s0 (track s0 h) (OMud R D KW BW) in t_used t = t_ob t.
Proof.
have := stale_track s0 h; rewrite /stale /=.
case: (foldl _ _ h) => [[|] st] /= [e1 e2] ns; by case E: (t_used (track s0 h)) e1 e2 => [d|] //= _ e2; rewrite E; apply: e2.
Qed.
End DensityProps.
