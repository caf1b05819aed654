(** Properties C45-C48 of BayesProblem. *)
Set Warnings "-notation-overridden,-ambiguous-paths".
From mathcomp Require Import all_ssreflect all_algebra.
From Verif Require Import Py Nd Xnum XnumProofs UtilModel DensityModel NdProofs BayesModel.
Set Implicit Arguments. Unset Strict Implicit. Unset Printing Implicit Defensive.
Import Order.Theory GRing.Theory Num.Theory.
Local Open Scope ring_scope.

Section BayesProps.
Variable R : rcfType.
Notation xnum := (xnum R).
Notation nd := (nd R).
Variable D : Type.
Variables pdf logpdf : D -> nd -> res (pdfval xnum).
Variable uniform : seq R -> seq R -> D.
Variable ln : R -> R.
Variable trunc : R -> R.
Notation bprob := (bprob R D).
Notation bop := (bop D).
Notation init := (@bayes_init R D trunc).
Notation set_likelihood := (set_likelihood pdf logpdf).
Notation set_prior := (set_prior pdf uniform).
Notation bfit := (bfit pdf uniform ln).
Notation map_point := (map_point pdf uniform ln).
Notation bplot_param := (bplot_param pdf uniform ln).
Notation brun1 draw := (brun1 pdf logpdf uniform ln draw).
Notation brun draw := (brun pdf logpdf uniform ln draw).
Notation returns draw := (returns pdf logpdf uniform ln draw).
Notation default_prior := (default_prior uniform).
Notation xlog := (xlog ln).
Notation combine := (combine ln).
Notation nthx := (nth (NaN : xnum)).

(** ** Specification *)
(** Joint density of the rows of [a] under independent components. *)
Definition joint_at (d : D) (a : nd) (v : seq xnum) : Prop :=
  exists m, pdf d a = Ok (P2 m) /\ v = [seq xprod r | r <- m].
(** Prior values; no distribution means the uniform one over the domain. *)
Definition prior_at (dom X : nd) (o : option D) (v : seq xnum) : Prop :=
  exists d, (if o is Some d' then d = d' else default_prior dom = Ok d) /\ joint_at d X v.
(** Likelihood values, plain or as a logarithm. *)
Definition lik_at (d : D) (lg : bool) (y : nd) (v : seq xnum) : Prop :=
  if lg then exists m, logpdf d y = Ok (P2 m) /\ v = [seq xsum r | r <- m]
  else joint_at d y v.

(** What is in force: the prior set last, the likelihood set last with its mode, the mode
    used for the next combination, and what the stored posterior was computed from. *)
Record bset := BS { t_pr : option D; t_ll : option (D * bool); t_mode : bool;
                    t_used : option (option D * (D * bool) * bool) }.
Definition t_compute (t : bset) : bset :=
  BS (t_pr t) (t_ll t) (t_mode t) (omap (fun l => (t_pr t, l, t_mode t)) (t_ll t)).
Definition t_ensure (t : bset) : bset := if t_used t is None then t_compute t else t.
(** One call; [ok]: it returned.  A likelihood that fails still switches the mode. *)
Definition t_step (t : bset) (o : bop) (ok : bool) : bset :=
  match o with
  | BLik d lg => if ok then BS (t_pr t) (Some (d, lg)) lg None
                 else BS (t_pr t) (t_ll t) lg (t_used t)
  | BPrior d => if ok then BS d (t_ll t) (t_mode t) None else t
  | BFit => if ok then t_compute t else t
  | BMap => if ok then t_ensure t else t
  | BPlot _ b c => if b || c then t_ensure t else t
  | BPlotObs _ _ => t
  end.
Fixpoint track (t : bset) (h : seq bop) (oks : seq bool) : bset :=
  match h, oks with
  | o :: h', ok :: oks' => track (t_step t o ok) h' oks'
  | _, _ => t
  end.
Definition t0 : bset := BS None None false None.
(** Parameter plots return (their drawing does not fail). *)
Fixpoint plots_return (h : seq bop) (oks : seq bool) : bool :=
  match h, oks with
  | BPlot _ _ _ :: h', ok :: oks' => ok && plots_return h' oks'
  | _ :: h', _ :: oks' => plots_return h' oks'
  | _, _ => true
  end.
(** Likelihood calls return. *)
Fixpoint liks_return (h : seq bop) (oks : seq bool) : bool :=
  match h, oks with
  | BLik _ _ :: h', ok :: oks' => ok && liks_return h' oks'
  | _ :: h', _ :: oks' => liks_return h' oks'
  | _, _ => true
  end.

(** Posterior values: prior * likelihood, or log prior + log likelihood. *)
Definition posterior_at (mode : bool) (pr ll ps : seq xnum) : Prop :=
  if mode then xvbop (@xadd R) [seq xlog x | x <- pr] ll = Ok ps
  else xvbop (@xmul R) pr ll = Ok ps.

(** ** The object agrees with the setting *)
Definition base_eq (s s' : bprob) := [/\ bX s = bX s', by_ s = by_ s' & bdom s = bdom s'].

Record agrees (s0 s : bprob) (t : bset) : Prop := Agrees {
  ag_base : base_eq s s0;
  ag_pr : forall v, b_pr s = Some v -> prior_at (bdom s0) (bX s0) (t_pr t) v;
  ag_pr0 : b_pr s = None -> t_pr t = None /\ b_ps s = None;
  ag_ll : match b_ll s, t_ll t with
          | None, None => True
          | Some v, Some l => lik_at l.1 l.2 (by_ s0) v
          | _, _ => False end;
  ag_mode : b_ll s <> None -> b_log s = t_mode t;
  ag_ps : match b_ps s, t_used t with
          | None, None => True
          | Some ps, Some u => t_ll t <> None /\ exists pr ll,
              [/\ prior_at (bdom s0) (bX s0) u.1.1 pr, lik_at u.1.2.1 u.1.2.2 (by_ s0) ll,
                  posterior_at u.2 pr ll ps & size ps = dim (bX s0) 0 /\ xzero (xsum ps) = false]
          | _, _ => False end }.

Lemma joint_okE d a v : (x <- pdf d a ;; prod_axis1 x) = Ok v -> joint_at d a v.
Proof. by case E: (pdf d a) => [[|m]|] //= [<-]; exists m. Qed.
Lemma lik_okE d lg a v : lik_values pdf logpdf d lg a = Ok v -> lik_at d lg a v.
Proof.
rewrite /lik_values /lik_at; case: lg; last exact: joint_okE.
by case E: (logpdf d a) => [[|m]|] //= [<-]; exists m.
Qed.

Lemma ag_set_prior s0 s t d : agrees s0 s t ->
  agrees s0 (set_prior s d).1 (t_step t (BPrior d) (is_ok (set_prior s d).2)).
Proof.
move=> [[bX bY bD] ap ap0 al am aps]; rewrite /set_prior.
case Ed: (match d with Some _ => _ | None => _ end) => [d'|e] /=; last by split.
case Ev: (x <- _ ;; _) => [v|e] /=; last by split.
split=> //= _ [<-]; exists d'; split; last by rewrite -bX; apply: joint_okE.
by case: d Ed => [d|]; [case | rewrite -bD].
Qed.

Lemma ag_set_lik s0 s t d lg : agrees s0 s t ->
  agrees s0 (set_likelihood s d lg).1 (t_step t (BLik d lg) (is_ok (set_likelihood s d lg).2)).
Proof.
move=> [[bX bY bD] ap ap0 al am aps]; rewrite /set_likelihood.
case Ev: (lik_values _ _ _ _ _) => [v|e] /=; last by split.
split=> //=; first by move=> /ap0 [].
by rewrite -bY; apply: lik_okE.
Qed.

Lemma ag_fit s0 s t : agrees s0 s t ->
  agrees s0 (bfit s).1 (if is_ok (bfit s).2 then t_compute t else t) /\
  (is_ok (bfit s).2 -> b_ps (bfit s).1 <> None).
Proof.
move=> ag; rewrite /bfit.
set m := (match b_pr s with Some _ => _ | None => _ end).
have h1 : agrees s0 m.1 t /\ (is_ok m.2 -> b_pr m.1 <> None).
  rewrite /m; case E: (b_pr s) => [v|]; first by rewrite /= E.
  have := ag_set_prior None ag; have [tn _] := ag_pr0 ag E.
  rewrite /set_prior /=; case Ed: (default_prior _) => [d'|e] /=; first last.
    by split.
  case Ev: (x <- _ ;; _) => [v|e] /=; last by split.
  move=> [h1 h2 h3 h4 h5 h6]; split=> //; split=> //=.
  - by move=> v' /h2 /=; rewrite tn.
  - case: ag => _ _ a0 _ _; have [_ ->] := a0 E; by case: (t_used t).
case: m h1 => s1 [[]|e] [ag1 /= pr1]; last by split.
move/(_ isT): pr1; case Ep: (b_pr s1) => [pr|] // _.
case El: (b_ll s1) => [ll|] /=; last by split.
case Ec: (combine _ _ _) => [ps|e] /=; last by split.
case Ez: (size ps == _) => /=; last by split.
case Es: (xzero _) => /=; first by split.
split=> //; case: ag1 => [[bX bY bD] ap ap0 al am aps]; split=> //=.
- by move=> v [<-]; apply: ap.
- by move: al; rewrite El.
- by move=> _; apply: am; rewrite El.
- move: al; rewrite El; case: (t_ll t) => [l|] //= hl; split=> //.
  exists pr, ll; split=> //; first exact: ap.
    by move: Ec; rewrite am ?El // /combine /posterior_at; case: (t_mode t).
  by rewrite -bX; split=> //; apply/eqP.
Qed.

Lemma ag_ensure s0 s t : agrees s0 s t ->
  let m := if b_ps s is None then bfit s else (s, Ok tt) in
  agrees s0 m.1 (if is_ok m.2 then t_ensure t else t) /\ (is_ok m.2 -> b_ps m.1 <> None).
Proof.
move=> ag; rewrite /t_ensure; have := ag_ps ag; case E: (b_ps s) => [ps|].
  by case Et: (t_used t) => [u|] // _; rewrite /= E.
by case Et: (t_used t) => [u|] // _; apply: ag_fit.
Qed.

(** Once the posterior is there, picking the point cannot fail. *)
Lemma pick_ok s0 s t ps : agrees s0 s t -> b_ps s = Some ps ->
  is_ok (m <- argmax ps ;; row_at (bX s) m).
Proof.
move=> ag eps; have := ag_ps ag; rewrite eps; case: (t_used t) => [u|] // [_ [pr [ll [_ _ _ [ez es]]]]].
case Em: (argmax ps) => [m|e] /=; last first.
  by move: Em es; case: (ps) => //= _; rewrite eqxx.
have hm : (m < size ps)%N by have := argmaxP Em; case: ifP => _ [].
by rewrite /row_at; case: (ag_base ag) => -> _ _; rewrite -ez hm.
Qed.

Lemma ag_map s0 s t : agrees s0 s t ->
  agrees s0 (map_point s).1 (if is_ok (map_point s).2 then t_ensure t else t) /\
  (is_ok (map_point s).2 -> b_ps (map_point s).1 <> None).
Proof.
move=> ag; rewrite /map_point; have := ag_ensure ag; cbv zeta.
case: (match b_ps s with Some _ => _ | None => _ end) => s1 [[]|e] //= [ag1 /(_ isT)].
case E: (b_ps s1) => [ps|] // _; have := pick_ok ag1 E.
by case: (rbind _ _) => //= x _; rewrite E.
Qed.

Lemma ag_step draw s0 s t o : agrees s0 s t ->
  (if o is BPlot _ _ _ then is_ok (brun1 draw s o).2 else true) ->
  agrees s0 (brun1 draw s o).1 (t_step t o (is_ok (brun1 draw s o).2)).
Proof.
move=> ag; case: o => [d lg|d| | |a b c|a b].
- by move=> _; apply: ag_set_lik.
- by move=> _; apply: ag_set_prior.
- by move=> _; have [] := ag_fit ag.
- move=> _; have [h _] := ag_map ag; move: h; rewrite /= /bvoid /=.
  by case: (map_point s) => s1 [].
- have ens t1 : t_ensure (t_ensure t1) = t_ensure t1.
    rewrite /t_ensure; case E: (t_used t1) => [u|]; first by rewrite E.
    by rewrite /t_compute /=; case: (t_ll t1).
  rewrite /= /bplot_param /lift; case: (if a then _ else _) => //= _.
  have mm s1 t1 k : agrees s0 s1 t1 ->
      is_ok (sbind (map_point s1) (fun s _ => (s, draw k s))).2 ->
      agrees s0 (sbind (map_point s1) (fun s _ => (s, draw k s))).1 (t_ensure t1).
    move=> ag1; have [h _] := ag_map ag1; move: h.
    by case: (map_point s1) => s2 [x|e] //=.
  case: b => /=.
    have := mm s t 1%N ag; case: (sbind _ _) => s1 [x|] //= /(_ isT) ag1.
    case: c => //=; have := mm s1 _ 2%N ag1; rewrite ens.
    by case: (sbind _ _) => s2 [y|] //= /(_ isT) ag2.
  case: c => //=; have := mm s t 2%N ag.
  by case: (sbind _ _) => s2 [y|] //= /(_ isT) ag2.
- by [].
Qed.

Lemma ag_run draw s0 s t h : agrees s0 s t -> plots_return h (returns draw s h) ->
  agrees s0 (brun draw s h) (track t h (returns draw s h)).
Proof.
elim: h s t => [//|o h ih] s t ag pl; rewrite /BayesModel.brun /= -/(BayesModel.brun _ _ _ _ _ _ _).
have [h1 h2] : is_true (if o is BPlot _ _ _ then is_ok (brun1 draw s o).2 else true) /\
    plots_return h (returns draw (brun1 draw s o).1 h).
  by move: pl; case: (o) => //= a b c /andP [].
have a1 : agrees s0 (brun1 draw s o).1 (t_step t o (is_ok (brun1 draw s o).2)) by apply: ag_step.
exact: (ih _ _ a1 h2).
Qed.

Lemma ag_init X y xi dm s0 : init X y xi dm = Ok s0 -> agrees s0 s0 t0.
Proof.
rewrite /bayes_init; case: (set_shape _ X) => [X2|] //=; case: (set_shape _ y) => [y2|] //=.
case: (match dm with Some _ => _ | None => _ end) => [d2|] //= [<-]; by split.
Qed.

(** ** C45, C48: the estimate after an arbitrary history of returning and failing calls *)
Section History.
Variables (X y : nd) (xint : bool) (dom : option nd) (draw : nat -> bprob -> res unit)
  (s0 : bprob) (h : seq bop).
Hypothesis fresh_object : init X y xint dom = Ok s0.
Hypothesis plots : plots_return h (returns draw s0 h).
Notation t := (t_step (track t0 h (returns draw s0 h)) (BMap D) true).

Theorem C48_estimate_exact s' x : map_point (brun draw s0 h) = (s', Ok x) ->
  exists o d lg mode pr ll ps m,
  [/\ t_used t = Some (o, (d, lg), mode),
      prior_at (bdom s0) (bX s0) o pr /\ lik_at d lg (by_ s0) ll,
      posterior_at mode pr ll ps,
      (if has (@isnan R) ps then first_nan ps m else first_max ps m)
    & (m < dim (bX s0) 0)%N /\ x = nth [::] (rows (bX s0)) m].
Proof.
move=> hm; have ag := ag_run (ag_init fresh_object) plots.
have := ag_map ag; rewrite hm /= => -[ag1 /(_ isT)].
case E: (b_ps s') => [ps|] // _; have := ag_ps ag1; rewrite E.
case Et: (t_used _) => [[[o [d lg]] mode]|] // [_ [pr [ll [h1 h2 h3 [h4 h5]]]]].
move: hm; rewrite /map_point.
case: (match b_ps _ with Some _ => _ | None => _ end) => s1 [u|//] [e1]; rewrite e1 E /=.
case Em: (argmax ps) => [m|] //=; rewrite /row_at; case: ifP => // hm' [ex].
exists o, d, lg, mode, pr, ll, ps, m; split=> //; first exact: argmaxP.
by case: (ag_base ag1) => bx _ _; rewrite -bx hm' ex.
Qed.

(** The estimate is the first sample of maximal posterior when no value is NaN and there is
    one value per sample. *)
Theorem C45_map_is_maximal s' x : map_point (brun draw s0 h) = (s', Ok x) ->
  exists o d lg mode pr ll,
  [/\ t_used t = Some (o, (d, lg), mode), prior_at (bdom s0) (bX s0) o pr,
      lik_at d lg (by_ s0) ll
    & let post i := if mode then xadd (xlog (nthx pr i)) (nthx ll i)
                    else xmul (nthx pr i) (nthx ll i) in
      forall n, size pr = n -> size ll = n -> (forall i, (i < n)%N -> ~~ isnan (post i)) ->
      exists m, [/\ (m < n)%N, x = nth [::] (rows (bX s0)) m,
        forall i, (i < n)%N -> xle (post i) (post m)
      & forall i, (i < m)%N -> xlt (post i) (post m)]].
Proof.
move=> /C48_estimate_exact [o [d [lg [mode [pr [ll [ps [m [h1 [h2 h3] h4 h5 [h6 h7]]]]]]]]]].
exists o, d, lg, mode, pr, ll; split=> // post n e1 e2 nn.
have [sz hp] : size ps = n /\ forall i, (i < n)%N -> nthx ps i = post i.
  move: h4; rewrite /posterior_at /post; case: (mode) => /=.
    rewrite xvbop_same ?size_map ?e1 ?e2 // => -[<-].
    rewrite size_map size_zip size_map e1 e2 minnn; split=> // i hi.
    by rewrite nth_zipmap ?size_map ?e1 ?e2 // (nth_map NaN) ?e1.
  rewrite xvbop_same ?e1 ?e2 // => -[<-].
  rewrite size_map size_zip e1 e2 minnn; split=> // i hi.
  by rewrite nth_zipmap ?e1 ?e2.
have nnan : has (@isnan R) ps = false.
  by apply/(has_nthP NaN) => -[i hi]; rewrite hp -?sz // (negbTE (nn _ _)) // -sz.
rewrite nnan in h5; case: h5; rewrite sz => lm hle hlt.
exists m; split=> // i hi; first by rewrite -!hp //; apply: hle.
by rewrite -!hp ?(ltn_trans hi) //; apply: hlt.
Qed.
End History.

(** When no set_likelihood call failed, the estimate uses the prior and the likelihood set
    last, combined in the mode of that likelihood. *)
Lemma liks_track h oks t : liks_return h oks ->
  (forall l, t_ll t = Some l -> t_mode t = l.2) ->
  (forall u, t_used t = Some u -> exists2 l, t_ll t = Some l & u = (t_pr t, l, l.2)) ->
  let t' := track t h oks in
  (forall l, t_ll t' = Some l -> t_mode t' = l.2) /\
  (forall u, t_used t' = Some u -> exists2 l, t_ll t' = Some l & u = (t_pr t', l, l.2)).
Proof.
elim: h oks t => [|o h ih] [|ok oks] t //= lr h1 h2.
have [lr1 lr2] : liks_return h oks /\ (if o is BLik _ _ then ok else true).
  by case: (o) lr => //= d lg /andP [].
have comp t1 : (forall l, t_ll t1 = Some l -> t_mode t1 = l.2) ->
    forall u, t_used (t_compute t1) = Some u -> exists2 l, t_ll t1 = Some l & u = (t_pr t1, l, l.2).
  move=> e1 u; rewrite /t_compute /=; case E: (t_ll t1) => [l|] //= [<-].
  by exists l => //; rewrite (e1 _ E).
have ens : (forall l, t_ll (t_ensure t) = Some l -> t_mode (t_ensure t) = l.2) /\
   (forall u, t_used (t_ensure t) = Some u -> exists2 l, t_ll (t_ensure t) = Some l & u = (t_pr (t_ensure t), l, l.2)).
  rewrite /t_ensure; case E: (t_used t) => [v|]; first by rewrite E in h2 *.
  by split=> // u /(comp _ h1).
apply: ih => //; case: o lr lr2 => [d lg|d| | |a b c|a b] //= lr.
- by move=> -> l [<-].
- by case: ok {lr} => _.
- by case: ok {lr} => _.
- by case: ok {lr} => _ //; have [] := ens.
- by case: (b || c) => _ //; have [] := ens.
- by move=> -> u.
- by case: ok {lr} => _.
- by case: ok {lr} => _ //; apply: comp.
- by case: ok {lr} => _ //; have [] := ens.
- by case: (b || c) => _ //; have [] := ens.
Qed.

Theorem C48_estimate_is_current h oks : liks_return h oks ->
  let t := track t0 h oks in
  forall o l mode, t_used (t_step t (BMap D) true) = Some (o, l, mode) ->
  [/\ o = t_pr t, t_ll t = Some l & mode = l.2].
Proof.
move=> lr t o l mode.
have [//|//|h1 h2] := @liks_track h oks t0 lr.
rewrite /= /t_ensure; case E: (t_used t) => [u|].
  by rewrite E => -[eu]; have [l' e1] := h2 _ E; rewrite eu => -[-> -> ->].
by rewrite /t_compute /=; case El: (t_ll _) => [l'|] //= [<- <- <-]; rewrite (h1 _ El).
Qed.

(** Without a likelihood there is no estimate: TypeError once the prior is there. *)
Theorem C48_no_likelihood X y xi dm s0 draw h : init X y xi dm = Ok s0 ->
  plots_return h (returns draw s0 h) ->
  t_ll (track t0 h (returns draw s0 h)) = None ->
  let s := brun draw s0 h in
  [/\ ~~ is_ok (bfit s).2, ~~ is_ok (map_point s).2
    & (exists v, prior_at (bdom s0) (bX s0) None v) ->
      (bfit s).2 = Err TypeError /\ (map_point s).2 = Err TypeError].
Proof.
move=> e0 pl en s; have ag := ag_run (ag_init e0) pl; rewrite -/s in ag.
have el : b_ll s = None by move: (ag_ll ag); rewrite en; case: (b_ll s).
have eps : b_ps s = None.
  by move: (ag_ps ag); case: (b_ps s) => [ps|] //; case: (t_used _) => [u|] // []; rewrite en.
have ll1 d : b_ll (set_prior s d).1 = None.
  rewrite /set_prior; case: (match d with Some _ => _ | None => _ end) => [d'|] //=.
  by case: (rbind _ _) => //=.
have f1 : (exists v, prior_at (bdom s0) (bX s0) None v) -> (bfit s).2 = Err TypeError.
  move=> [v [d [/= ed [m [em _]]]]]; rewrite /bfit; case: (b_pr s) => [pr|] /=; first by rewrite el.
  by case: (ag_base ag) => bx _ bd; rewrite /set_prior bd ed bx em /= el.
have f2 : ~~ is_ok (bfit s).2.
  rewrite /bfit; case: (b_pr s) => [pr|] /=; first by rewrite el.
  by have := ll1 None; case: (set_prior s None) => s1 [x|e] //= ->.
split=> //; first by rewrite /map_point eps; case: (bfit s) f2 => s1 [].
by move=> hv; rewrite /map_point eps; split; [exact: f1 | move: (f1 hv); case: (bfit s) => s1 [] //= e [->]].
Qed.

(** ** C46, C47: plain and log likelihood *)
Section Logs.
(** [ln] is a strictly increasing homomorphism on the positive numbers. *)
Hypothesis lnM : forall x y, 0 < x -> 0 < y -> ln (x * y) = ln x + ln y.
Hypothesis ln_lt : forall x y, 0 < x -> 0 < y -> x < y -> ln x < ln y.

Lemma ln1 : ln 1 = 0.
Proof. by apply: (@addrI _ (ln 1)); rewrite addr0 -lnM ?mulr1 ?ltr01. Qed.
Lemma ln_prod (s : seq R) : all (fun x => 0 < x) s ->
  0 < \prod_(x <- s) x /\ ln (\prod_(x <- s) x) = \sum_(x <- s) ln x.
Proof.
elim: s => [|x s ih] /=; first by rewrite !big_nil ltr01 ln1.
by move=> /andP [x0 /ih [p0 e]]; rewrite !big_cons lnM // e; split=> //; apply: mulr_gt0.
Qed.
Lemma ln_eq0 x : 0 < x -> (ln x == 0) = (x == 1).
Proof.
move=> x0; case: (ltgtP x 1) => [l|l|->]; last by rewrite ln1 eqxx.
  by have := ln_lt x0 ltr01 l; rewrite ln1 => /lt_eqF ->.
by have := ln_lt ltr01 x0 l; rewrite ln1 => /gt_eqF ->.
Qed.

Lemma xprod_fin (s : seq R) : xprod [seq Fin x | x <- s] = Fin (\prod_(x <- s) x).
Proof. by rewrite /xprod; elim: s => [|x l ih] /=; rewrite ?big_nil // ih big_cons. Qed.
Lemma xsum_fin (s : seq R) : xsum [seq Fin x | x <- s] = Fin (\sum_(x <- s) x).
Proof. by rewrite /xsum; elim: s => [|x l ih] /=; rewrite ?big_nil // ih big_cons. Qed.

Lemma xsum_finf (f : R -> R) (s : seq R) : xsum [seq Fin (f x) | x <- s] = Fin (\sum_(x <- s) f x).
Proof. by rewrite /xsum; elim: s => [|x l ih] /=; rewrite ?big_nil // ih big_cons. Qed.

(** Positive finite prior [p] and likelihood table [T], [logpdf] the logarithm of [pdf]:
    the log mode picks the same point, except that it is rejected when the product of all
    posterior values is one. *)
Theorem C46_log_mode (s : bprob) (d : D) (p : seq R) (T : seq (seq R)) n :
  b_pr s = Some [seq Fin x | x <- p] ->
  pdf d (by_ s) = Ok (P2 [seq [seq Fin x | x <- r] | r <- T]) ->
  logpdf d (by_ s) = Ok (P2 [seq [seq Fin (ln x) | x <- r] | r <- T]) ->
  size p = n -> size T = n -> dim (bX s) 0 = n -> (0 < n)%N ->
  all (fun x => 0 < x) p -> all (all (fun x => 0 < x)) T ->
  let post := [seq q.1 * \prod_(x <- q.2) x | q <- zip p T] in
  let plain := map_point (set_likelihood s d false).1 in
  let log := map_point (set_likelihood s d true).1 in
  is_ok plain.2 /\
  log.2 = if \prod_(x <- post) x == 1 then Err ValueError else plain.2.
Proof.
move=> epr epdf elog sp sT sX n0 pp Tp post plain log.
have sq : size post = n by rewrite size_map size_zip sp sT minnn.
have qp : all (fun x => 0 < x) post.
  rewrite /post; elim: (p) (T) pp Tp => [|a l ih] [|r l'] //= /andP [a0 l0] /andP [r0 l1].
  by rewrite ih // andbT mulr_gt0 //; have [] := ln_prod r0.
set P := [seq Fin x | x <- p] in epr.
have c1 : xvbop (@xmul R) P [seq xprod r | r <- [seq [seq Fin x | x <- r] | r <- T]] = Ok [seq Fin x | x <- post].
  rewrite xvbop_same ?size_map ?sp ?sT //; congr Ok; rewrite /P /post.
  by elim: (p) (T) => [|a l ih] [|r l'] //=; rewrite ih xprod_fin.
have c2 : xvbop (@xadd R) [seq xlog x | x <- P] [seq xsum r | r <- [seq [seq Fin (ln x) | x <- r] | r <- T]]
    = Ok [seq Fin (ln x) | x <- post].
  rewrite xvbop_same ?size_map ?sp ?sT //; congr Ok; rewrite /P /post.
  elim: (p) (T) pp Tp => [|a l ih] [|r l'] //= /andP [a0 l0] /andP [r0 l1].
  rewrite ih // gt_eqF // a0 xsum_finf /=; have [q0 qe] := ln_prod r0.
  by rewrite lnM // qe.
have e1 : plain.2 = (m <- argmax [seq Fin x | x <- post] ;; row_at (bX s) m).
  rewrite /plain /BayesModel.set_likelihood /lik_values epdf; cbn [rbind prod_axis1].
  rewrite /map_point; cbn [b_ps fst]; rewrite /bfit; cbn [b_pr b_ll b_log]; rewrite epr; cbn [sbind].
  cbn [b_pr b_ll b_log b_ps bX odflt oapp]; rewrite /combine c1; cbn [rbind].
  rewrite size_map sq sX eqxx; cbn [guard rbind]; rewrite xsum_fin /xzero.
  have -> : (\sum_(x <- post) x == 0) = false.
    apply: gt_eqF; case: (post) sq qp n0 => [<- //|a l] _ /= /andP [a0 l0] _; rewrite big_cons.
    by apply: ltr_paddr => //; rewrite big_seq; apply: sumr_ge0 => x /(allP l0) /ltW.
  by [].
have e2 : log.2 = if \prod_(x <- post) x == 1 then Err ValueError else
     (m <- argmax [seq Fin (ln x) | x <- post] ;; row_at (bX s) m).
  rewrite /log /BayesModel.set_likelihood /lik_values elog; cbn [rbind sum_axis1].
  rewrite /map_point; cbn [b_ps fst]; rewrite /bfit; cbn [b_pr b_ll b_log]; rewrite epr; cbn [sbind].
  cbn [b_pr b_ll b_log b_ps bX odflt oapp]; rewrite /combine c2; cbn [rbind].
  rewrite size_map sq sX eqxx; cbn [guard rbind]; rewrite xsum_finf /xzero.
  have [q0 <-] := ln_prod qp; rewrite ln_eq0 //; by case: eqP.
rewrite e2 e1; split.
  case Em: (argmax _) => [m|e] /=; last first.
    by move: Em; case: (post) sq n0 => [<-|].
  have : (m < size [seq Fin x | x <- post])%N by have := argmaxP Em; case: ifP => _ [].
  by rewrite size_map sq /row_at sX => ->.
case: eqP => // _; congr (rbind _ _).
pose g (x : xnum) : xnum := if x is Fin a then Fin (ln a) else x.
have -> : [seq Fin (ln x) | x <- post] = [seq g x | x <- [seq Fin x | x <- post]].
  by rewrite -[RHS]map_comp.
apply: (@argmax_map_in _ (fun x => if x is Fin a then 0 < a else false)).
- by rewrite all_map.
- by case.
- move=> [a| | |] [b| | |] //= a0 b0; case: (ltgtP a b) => [l|l|->]; first exact: (ln_lt a0 b0 l).
    by apply: lt_gtF; exact: (ln_lt b0 a0 l).
  by rewrite ltxx.
Qed.
End Logs.
End BayesProps.
