(** Property C152: the estimates of a BayesProblem do not depend on the order of the samples. *)
Set Warnings "-notation-overridden,-ambiguous-paths".
From mathcomp Require Import all_ssreflect all_algebra.
From Verif Require Import Py Nd Xnum XnumProofs UtilModel DensityModel NdProofs DensityProps2 BayesModel OrderProps.
Set Implicit Arguments. Unset Strict Implicit. Unset Printing Implicit Defensive.
Import Order.Theory GRing.Theory Num.Theory.
Local Open Scope ring_scope.

Section Order.
Variable R : rcfType.
Notation xnum := (xnum R).
Notation nd := (nd R).
Variable D : Type.
Variables (pdf logpdf : D -> nd -> res (pdfval xnum)) (uniform : seq R -> seq R -> D) (ln trunc : R -> R).
Notation bprob := (bprob R D).
Notation binit := (bayes_init D trunc).
Notation set_likelihood := (set_likelihood pdf logpdf).
Notation set_prior := (set_prior pdf uniform).
Notation bfit := (bfit pdf uniform ln).
Notation map_point := (map_point pdf uniform ln).
Notation brun1 draw := (brun1 pdf logpdf uniform ln draw).
Notation brun draw := (brun pdf logpdf uniform ln draw).
Notation returns draw := (returns pdf logpdf uniform ln draw).
Notation nthx := (nth (NaN : xnum)).

(** *** Specification *)
(** The values of the (logarithms of the) densities are computed row by row. *)
Definition row_wise (n : nat) (sh : seq nat) (f : D -> nd -> res (pdfval xnum)) : Prop :=
  (forall d (A : nd), n_rows n A -> f d (prows sh A) = rmap (ppdf sh) (f d A)) /\
  (forall d (A : nd) v, n_rows n A -> f d A = Ok v -> match v with P1 s => size s = n | P2 s => size s = n end).
(** The problem with its samples in another order. *)
Definition breorder (sh : seq nat) (s : bprob) : bprob :=
  BP (prows sh (bX s)) (prows sh (by_ s)) (bdom s) (omap (pick sh) (b_ps s)) (omap (pick sh) (b_pr s)) (omap (pick sh) (b_ll s))
     (b_log s) (b_ll_dist s) (b_pr_dist s).
(** n samples with n data rows, and one entry per sample everywhere. *)
Definition bper_sample (n : nat) (s : bprob) : Prop :=
  [/\ n_rows n (bX s), n_rows n (by_ s), sized n (b_ps s), sized n (b_pr s) & sized n (b_ll s)].

Variables (n : nat) (sh : seq nat).
Hypothesis hsh : perm_eq sh (iota 0 n).
Hypothesis hpdf : row_wise n sh pdf.
Hypothesis hlog : row_wise n sh logpdf.
Notation reo := (breorder sh).
Notation good := (bper_sample n).
Definition bsim A (m' m : bprob * res A) : Prop := m' = (reo m.1, m.2) /\ good m.1.
Lemma bsim_bind A B (m' m : bprob * res A) (f g : bprob -> A -> bprob * res B) : bsim m' m ->
  (forall s a, good s -> m = (s, Ok a) -> bsim (f (reo s) a) (g s a)) -> bsim (sbind m' f) (sbind m g).
Proof. by case: m => s [a|e] [-> gs] h /=; [apply: h | split]. Qed.
Lemma bsim_ret A s (r : res A) : good s -> bsim (reo s, r) (s, r).
Proof. by split. Qed.

Lemma vals f (k : pdfval xnum -> res (seq xnum)) d A : row_wise n sh f -> n_rows n A ->
  (forall a, k (ppdf sh a) = rmap (pick sh) (k a)) ->
  (forall a v, match a with P1 s => size s = n | P2 s => size s = n end -> k a = Ok v -> size v = n) ->
  (a <- f d (prows sh A) ;; k a) = rmap (pick sh) (a <- f d A ;; k a) /\
  forall v, (a <- f d A ;; k a) = Ok v -> size v = n.
Proof.
move=> [h1 h2] hA k1 k2; rewrite h1 //; have := h2 d A; case: (f d A) => [a|e] //= ha.
by split=> [|v]; [exact: k1 | apply: k2; exact: ha].
Qed.
Lemma prod_k a : prod_axis1 (ppdf sh a) = rmap (pick sh) (prod_axis1 a) :> res (seq xnum).
Proof. by case: a => [s|s] //=; rewrite (pick_map sh). Qed.
Lemma sum_k (a : pdfval xnum) : sum_axis1 (ppdf sh a) = rmap (pick sh) (sum_axis1 a).
Proof. by case: a => [s|s] //=; rewrite (pick_map sh). Qed.
Lemma size_prod_k (a : pdfval xnum) v : match a with P1 s => size s = n | P2 s => size s = n end -> prod_axis1 a = Ok v -> size v = n.
Proof. by case: a => s //= hs [<-]; rewrite size_map. Qed.
Lemma size_sum_k (a : pdfval xnum) v : match a with P1 s => size s = n | P2 s => size s = n end -> sum_axis1 a = Ok v -> size v = n.
Proof. by case: a => s //= hs [<-]; rewrite size_map. Qed.

Lemma likelihood_sim s d lg : good s -> bsim (set_likelihood (reo s) d lg) (set_likelihood s d lg).
Proof.
move=> [gX gy g1 g2 g3]; rewrite /BayesModel.set_likelihood.
have [e hs] : lik_values pdf logpdf d lg (prows sh (by_ s)) = rmap (pick sh) (lik_values pdf logpdf d lg (by_ s)) /\
    forall v, lik_values pdf logpdf d lg (by_ s) = Ok v -> size v = n.
  rewrite /lik_values; case: lg.
    by apply: (vals (k := @sum_axis1 R)) => //; [exact: sum_k | exact: size_sum_k].
  by apply: (vals (k := @prod_axis1 R)) => //; [exact: prod_k | exact: size_prod_k].
rewrite [by_ (reo s)]/= e; move: hs; case: (lik_values _ _ _ _ _) => [v|er] /= hs; last by split.
by split=> //; split=> //=; exact: hs.
Qed.
Lemma prior_sim s d : good s -> bsim (set_prior (reo s) d) (set_prior s d).
Proof.
move=> [gX gy g1 g2 g3]; rewrite /BayesModel.set_prior [bdom (reo s)]/=.
case: (match d with Some _ => _ | None => _ end) => [e|er]; last by split.
have [ee hs] := @vals pdf (@prod_axis1 R) e (bX s) hpdf gX prod_k size_prod_k.
rewrite [bX (reo s)]/= ee; move: hs; case: (rbind _ _) => [v|er] /= hs; last by split.
by split=> //; split=> //=; exact: hs.
Qed.

Lemma pick_xvb f (u v : seq xnum) : size u = n -> size v = n -> xvbop f (pick sh u) (pick sh v) = rmap (pick sh) (xvbop f u v).
Proof. by move=> su sv; rewrite !xvbop_same ?(size_pick hsh) ?su ?sv //= (pick_map sh) (pick_zip sh) ?su ?sv. Qed.
Lemma xsum_pick (l : seq xnum) : size l = n -> xsum (pick sh l) = xsum l.
Proof. by move=> sl; rewrite (pickE hsh NaN sl) -{2}(mkseq_nth NaN l) /mkseq sl; exact: foldr_perm. Qed.

Lemma prior_set s s1 : BayesModel.set_prior pdf uniform s None = (s1, Ok tt) -> exists v, b_pr s1 = Some v.
Proof.
rewrite /BayesModel.set_prior; case: (default_prior _ _) => [d|e] //.
by case: (rbind _ _) => [v|e] // [<-]; exists v.
Qed.
Lemma bfit_sim s : good s -> bsim (bfit (reo s)) (bfit s) /\ forall s1, bfit s = (s1, Ok tt) -> exists v, b_ps s1 = Some v.
Proof.
move=> g; rewrite /BayesModel.bfit.
have G : bsim (if b_pr (reo s) is None then set_prior (reo s) None else (reo s, Ok tt)) (if b_pr s is None then set_prior s None else (s, Ok tt)).
  by rewrite {1}/breorder; cbn [b_pr]; case: (b_pr s) => [v|]; [exact: bsim_ret | exact: prior_sim].
have P s1 : (if b_pr s is None then set_prior s None else (s, Ok tt)) = (s1, Ok tt) -> exists v, b_pr s1 = Some v.
  by case e : (b_pr s) => [v|]; [move=> [<-]; exists v | exact: prior_set].
move: G P; case: (if b_pr s is None then _ else _) => s1 [[]|e] [-> g1] P; cbn [sbind fst snd]; last by split.
have [pr ep] := P _ erefl; have [gX gy g2 g3 g4] := g1.
rewrite {1}/breorder; cbn [b_ll]; case el : (b_ll s1) g4 => [ll|]; cbn [omap obind oapp sized] => sl; last first.
  by split=> //; apply: bsim_ret; split=> //; rewrite el.
move: g3; have -> : b_log (reo s1) = b_log s1 by [].
have -> : b_pr (reo s1) = Some (pick sh pr) by rewrite /breorder /= ep.
have -> : bX (reo s1) = prows sh (bX s1) by [].
rewrite ep; cbn [odflt oapp sized] => sp.
have -> : combine ln (b_log s1) (pick sh pr) (pick sh ll) = rmap (pick sh) (combine ln (b_log s1) pr ll).
  by rewrite /combine; case: (b_log s1); rewrite ?pick_xvb -?(pick_map sh) ?pick_xvb ?size_map.
have hs ps : combine ln (b_log s1) pr ll = Ok ps -> size ps = n.
  by rewrite /combine; case: (b_log s1); rewrite xvbop_same ?size_map ?sp ?sl // => -[<-]; rewrite size_map size_zip ?size_map sp sl minnn.
case: (combine _ _ _ _) hs => [ps|e] hs; cbn [rmap rbind]; last by split=> //; exact: bsim_ret.
have {}hs := hs _ erefl; have [_ _ d0] := gX.
have -> : dim (prows sh (bX s1)) 0 = n by [].
rewrite (size_pick hsh hs) hs d0 eqxx /= xsum_pick //; case: (xzero _) => /=; first by split=> //; exact: bsim_ret.
split; last by move=> s2 [<-]; exists ps.
by split; [rewrite /breorder /= ?el ?ep | split=> //=; rewrite ?ep ?el].
Qed.

Lemma map_free s : good s ->
  match map_point s with
  | (s1, Ok x) => exists u m m', [/\ good s1, b_ps s1 = Some u, argmax u = Ok m, x = nth [::] (rows (bX s)) m &
        [/\ (m' < n)%N, argmax (pick sh u) = Ok m' & map_point (reo s) = (reo s1, Ok (nth [::] (rows (bX s)) (nth 0%N sh m')))]]
  | (s1, Err e) => map_point (reo s) = (reo s1, Err e) /\ good s1
  end.
Proof.
move=> g; rewrite /BayesModel.map_point; have [F U] := bfit_sim g.
have G : bsim (if b_ps (reo s) is None then bfit (reo s) else (reo s, Ok tt)) (if b_ps s is None then bfit s else (s, Ok tt)).
  by rewrite {1}/breorder; cbn [b_ps]; case: (b_ps s) => [v|]; [exact: bsim_ret | exact: F].
have P s1 : (if b_ps s is None then bfit s else (s, Ok tt)) = (s1, Ok tt) -> exists v, b_ps s1 = Some v.
  by case e : (b_ps s) => [v|]; [move=> [<-]; exists v | exact: U].
have bX1 : bX (if b_ps s is None then bfit s else (s, Ok tt)).1 = bX s.
  case: (b_ps s) => [//|]; rewrite /BayesModel.bfit.
  have b0 : bX (if b_pr s is None then set_prior s None else (s, Ok tt)).1 = bX s.
    by case: (b_pr s) => [//|]; rewrite /BayesModel.set_prior; case: (default_prior _ _) => [d|e] //; case: (rbind _ _).
  move: b0; case: (if b_pr s is None then _ else _) => s1 [[]|e] //= b0.
  by case: (b_ll s1) => [ll|] //; case: (rbind _ _).
move: G P bX1; case: (if b_ps s is None then _ else _) => s1 [[]|e] [-> g1] P bX1; cbn [sbind fst snd]; last by split.
have [u eu] := P _ erefl; have [gX gy g2 g3 g4] := g1; move: g2 bX1; rewrite eu; cbn [sized fst] => su bX1.
rewrite /DensityModel.lift; have -> : b_ps (reo s1) = Some (pick sh u) by rewrite /breorder /= eu.
rewrite eu; cbn [odflt oapp].
have [wf d2 d0] := gX.
case em : (argmax u) => [m|e] /=; last first.
  have : ~~ is_ok (argmax u) by rewrite em.
  rewrite argmax_ok su -eqn0Ngt => /eqP n0; split=> //.
  have : size (pick sh u) = 0%N by rewrite (size_pick hsh su).
  by case: (pick sh u) => //= _; move: em su; rewrite n0; case: (u) => //= -[<-].
have n0 : (0 < n)%N by have := argmax_ok u; rewrite em su /= => <-.
have lm : (m < n)%N by have := argmaxP em; case: ifP => _ []; rewrite su.
have [m' em'] : exists m', argmax (pick sh u) = Ok m'.
  by have := argmax_ok (pick sh u); rewrite (size_pick hsh su) n0; case: (argmax _) => // m' _; exists m'.
have lm' : (m' < n)%N by have := argmaxP em'; case: ifP => _ []; rewrite (size_pick hsh su).
rewrite em' /=; rewrite /row_at d0 lm; exists u, m, m'; split=> //; first by rewrite bX1.
split=> //; have -> : dim (prows sh (bX s1)) 0 = n by [].
by rewrite lm' (rows_prows hsh gX) (nth_pick hsh) ?size_rows // bX1.
Qed.
Lemma map_sim A B s (f : bprob -> res A) (k : bprob -> A -> bprob * res B) : good s -> (forall t, good t -> f (reo t) = f t) ->
  (forall t a, good t -> bsim (k (reo t) a) (k t a)) ->
  bsim (sbind (sbind (map_point (reo s)) (fun s _ => DensityModel.lift s (f s))) k) (sbind (sbind (map_point s) (fun s _ => DensityModel.lift s (f s))) k).
Proof.
move=> g hf hk; have := map_free g; case: (map_point s) => s1 [x|e].
  move=> [u [m [m' [g1 _ _ _ [_ _ ->]]]]]; rewrite /DensityModel.lift /= hf //.
  by case: (f s1) => [a|e] /=; [exact: hk | exact: bsim_ret].
by move=> [-> g1] /=; exact: bsim_ret.
Qed.

Variable draw : nat -> bprob -> res unit.
Hypothesis drawn : forall k s, good s -> draw k (reo s) = draw k s.
Lemma bcall_sim s o : good s -> bsim (brun1 draw (reo s) o) (brun1 draw s o).
Proof.
move=> g; case: o => [d lg|d| | |a b c|a b] /=.
- exact: likelihood_sim.
- exact: prior_sim.
- by have [] := bfit_sim g.
- have := map_free g; rewrite /bvoid; case: (map_point s) => s1 [x|e].
    by move=> [u [m [m' [g1 _ _ _ [_ _ ->]]]]].
  by move=> [-> g1].
- rewrite /bplot_param; apply: bsim_bind; first by rewrite /DensityModel.lift; case: a; rewrite ?drawn //; exact: bsim_ret.
  move=> s1 _ g1 _.
  have L t (r : unit) : good t -> bsim (DensityModel.lift (reo t) (draw 3 (reo t))) (DensityModel.lift t (draw 3 t)).
    by move=> gt; rewrite /DensityModel.lift drawn //; exact: bsim_ret.
  have C t (r : unit) : good t -> bsim (sbind (if c then sbind (map_point (reo t)) (fun s _ => DensityModel.lift s (draw 2 s)) else (reo t, Ok tt))
      (fun s _ => DensityModel.lift s (draw 3 s))) (sbind (if c then sbind (map_point t) (fun s _ => DensityModel.lift s (draw 2 s)) else (t, Ok tt))
      (fun s _ => DensityModel.lift s (draw 3 s))).
    move=> gt; case: c; last by apply: L.
    by apply: map_sim => // t' gt'; apply: drawn.
  case: b; last exact: C.
  by apply: map_sim => // t' gt'; apply: drawn.
rewrite /bplot_obs /DensityModel.lift !drawn //.
have -> : isSome (b_ll (reo s)) = isSome (b_ll s) by rewrite /breorder /=; case: (b_ll s).
exact: bsim_ret.
Qed.

(** C152: whatever calls are made on the reordered problem, each returns or raises as on the
    problem, which stays the same up to the order. *)
Theorem C152_history s h : good s ->
  [/\ brun draw (reo s) h = reo (brun draw s h), returns draw (reo s) h = returns draw s h & good (brun draw s h)].
Proof.
elim: h s => [//|o h ih] s g.
have [e g1] := bcall_sim o g; have [i1 i2 i3] := ih _ g1.
by cbn [BayesModel.brun foldl BayesModel.returns]; rewrite e; cbn [fst snd]; split; rewrite ?i1 ?i2.
Qed.

(** C152: the constructor. *)
Theorem C152_constructor (X y : nd) xint dom : n_rows n X -> n_rows n y ->
  binit (prows sh X) (prows sh y) xint dom = rmap reo (binit X y xint dom) /\
  forall s, binit X y xint dom = Ok s -> good s.
Proof.
move=> hX hy; have [wX n2X d0X] := hX; have [wy n2y d0y] := hy; rewrite /bayes_init.
have s2 (sp : seq (option nat)) (A : nd) : ndim A = 2%N -> set_shape sp A = Ok A by move=> e; rewrite /set_shape e.
rewrite !s2 //; cbn [rbind].
have -> : fit_domain (cast_of trunc xint) (Some (prows sh X)) None (10%:R^-1) = fit_domain (cast_of trunc xint) (Some X) None (10%:R^-1).
  by rewrite /fit_domain (bounds_free hsh).
have -> : dim (prows sh X) 1 = dim X 1 by [].
case: (match dom with Some _ => _ | None => _ end) => [dm|e]; cbn [rbind rmap]; last by [].
by split=> // s [<-].
Qed.

(** C152: the estimate of the reordered problem is, like that of the problem, a sample of largest
    posterior; the same sample if there is one only; an exception is the same. *)
Theorem C152_estimate s : good s ->
  match map_point s with
  | (s1, Ok x) => exists u i i',
      [/\ b_ps s1 = Some u, best u i /\ best u i', x = nth [::] (rows (bX s)) i,
          map_point (reo s) = (reo s1, Ok (nth [::] (rows (bX s)) i')) &
          (forall j, best u j -> j = i) -> map_point (reo s) = (reo s1, Ok x)]
  | (s1, Err e) => map_point (reo s) = (reo s1, Err e)
  end.
Proof.
move=> g; have := map_free g; case: (map_point s) => s1 [x|e]; last by case.
move=> [u [m [m' [g1 eu em ex [lm em' E]]]]].
have su : size u = n by have [_ _ h _ _] := g1; move: h; rewrite eu.
have b := argmax_best em; have b' : best u (nth 0%N sh m').
  have [h1 h2] := argmax_best em'; split; first by rewrite su (sh_lt hsh) // mem_nth // (size_sh hsh).
  have nt j : (j < n)%N -> nthx (pick sh u) j = nthx u (nth 0%N sh j) by move=> hj; rewrite (nth_pick hsh).
  have back j : (j < n)%N -> exists2 k, (k < n)%N & nth 0%N sh k = j.
    move=> hj; have hin : j \in sh by rewrite (perm_mem hsh) mem_iota.
    by exists (index j sh); [rewrite -(size_sh hsh) index_mem | rewrite nth_index].
  have hN : has (@isnan R) (pick sh u) = has (@isnan R) u.
    apply/(has_nthP NaN)/(has_nthP NaN) => -[j]; rewrite ?(size_pick hsh su) ?su => hj.
      by rewrite nt // => h; exists (nth 0%N sh j); rewrite ?su // (sh_lt hsh) // mem_nth // (size_sh hsh).
    by move=> h; have [k hk ek] := back j hj; exists k; rewrite ?(size_pick hsh su) // nt // ek.
  move: h2; rewrite hN nt // (size_pick hsh su) su; case: ifP => // _ h2 j hj.
  by have [k hk ek] := back j hj; rewrite -ek -nt //; apply: h2.
exists u, m, (nth 0%N sh m'); split=> // only.
by rewrite E (only _ b') ex.
Qed.
End Order.
