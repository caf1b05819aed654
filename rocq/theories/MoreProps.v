(** Property C163: adding samples to a BayesProblem. *)
Set Warnings "-notation-overridden,-ambiguous-paths".
From mathcomp Require Import all_ssreflect all_algebra.
From Verif Require Import Py Nd Xnum XnumProofs UtilModel DensityModel NdProofs DensityProps2 BayesModel OrderProps.
Set Implicit Arguments. Unset Strict Implicit. Unset Printing Implicit Defensive.
Import Order.Theory GRing.Theory Num.Theory.
Local Open Scope ring_scope.

Section More.
Variable R : rcfType.
Notation xnum := (xnum R).
Notation nd := (nd R).
Variable D : Type.
Variables (pdf logpdf : D -> nd -> res (pdfval xnum)) (uniform : seq R -> seq R -> D) (ln trunc : R -> R).
Notation binit := (bayes_init D trunc).
Notation set_likelihood := (set_likelihood pdf logpdf).
Notation set_prior := (set_prior pdf uniform).
Notation map_point := (map_point pdf uniform ln).
Notation nthx := (nth (NaN : xnum)).

(** ** Specification *)
(** np.concatenate((A, B)) of two matrices. *)
Definition with_rows (A B : nd) : nd := nd2 (dim A 1) (rows A ++ rows B).
Definition matrix (A : nd) : Prop := n_rows (dim A 0) A.
(** The (logarithms of the) densities are computed row by row. *)
Definition by_rows (f : D -> nd -> res (pdfval xnum)) : Prop :=
  forall d (A B : nd) u v, matrix A -> matrix B -> dim B 1 = dim A 1 -> f d A = Ok (P2 u) -> f d B = Ok (P2 v) ->
  [/\ f d (with_rows A B) = Ok (P2 (u ++ v)), size u = dim A 0 & size v = dim B 0].
(** Build the problem, give it a prior (or the default one, uniform on the domain) and a likelihood, and
    ask for the estimate; also the posterior values of the samples. *)
Definition run (dom : nd) (pr : option D) (l : D) (lg : bool) (X y : nd) : res (seq xnum * seq R) :=
  s <- binit X y false (Some dom) ;;
  (sbind (set_prior s pr) (fun s _ => sbind (set_likelihood s l lg) (fun s _ =>
   sbind (map_point s) (fun s x => (s, Ok (odflt [::] (b_ps s), x)))))).2.
(** A posterior value is preferred to another: it is larger, or it is NaN and the other is a number. *)
Definition preferred (y x : xnum) : bool := ~~ isnan x && (isnan y || xlt x y).
Definition not_negative (x : xnum) : bool := match x with Fin a => 0 <= a | NInf => false | _ => true end.

(** *** Largest values of a concatenation *)
Lemma has_first (u : seq xnum) i : argmax u = Ok i -> (i < size u)%N.
Proof. by move/argmaxP; case: ifP => _ []. Qed.
Lemma argmax_cat (u v : seq xnum) i j : argmax u = Ok i -> argmax v = Ok j ->
  argmax (u ++ v) = Ok (if preferred (nthx v j) (nthx u i) then size u + j else i)%N.
Proof.
move=> eu ev; have := argmaxP eu; have := argmaxP ev; rewrite /preferred.
case hu: (has (@isnan R) u).
  move=> _ [h1 h2 h3]; rewrite h2 /=; apply: argmax_nan; split; rewrite ?size_cat ?ltn_addr // ?nth_cat ?h1 //.
  by move=> k hk; rewrite nth_cat (ltn_trans hk h1) h3.
have nu k : (k < size u)%N -> ~~ isnan (nthx u k).
  by move=> hk; apply: contraFN hu => hn; apply/(has_nthP NaN); exists k.
case hv: (has (@isnan R) v).
  move=> [h1 h2 h3] [g1 g2 g3]; rewrite nu // h2 /=; apply: argmax_nan.
  split; rewrite ?size_cat ?ltn_add2l // ?nth_cat ?ltnNge ?leq_addr /= ?addKn //.
  move=> k hk; rewrite nth_cat; case: ltnP => hs; first exact: nu.
  by apply: h3; rewrite ltn_subLR.
have nv k : (k < size v)%N -> ~~ isnan (nthx v k).
  by move=> hk; apply: contraFN hv => hn; apply/(has_nthP NaN); exists k.
move=> [h1 h2 h3] [g1 g2 g3]; rewrite nu // (negbTE (nv _ h1)) /=; apply: argmax_max.
case c: (xlt _ _).
  split; rewrite ?size_cat ?ltn_add2l //.
    move=> k hk; rewrite !nth_cat (ltnNge (size u + j)) leq_addr /= addKn; case: ltnP => hs.
      by apply: xltW; apply: xle_lt_trans c; apply: g2.
    by apply: h2; rewrite ltn_subLR.
  move=> k hk; rewrite !nth_cat (ltnNge (size u + j)) leq_addr /= addKn; case: ltnP => hs.
    by apply: xle_lt_trans c; apply: g2.
  by apply: h3; rewrite ltn_subLR.
split; rewrite ?size_cat ?ltn_addr //.
  move=> k hk; rewrite !nth_cat g1; case: ltnP => hs; first exact: g2.
  have h : xle (nthx v j) (nthx u i).
    by move: c; rewrite xltNge ?nu ?nv // => /negbFE.
  by apply: xle_trans h; apply: h2; rewrite ltn_subLR.
by move=> k hk; rewrite !nth_cat g1 (ltn_trans hk g1); exact: g3.
Qed.
Lemma xsum_cat (u v : seq xnum) : xsum (u ++ v) = xadd (xsum u) (xsum v).
Proof. by elim: u => [|x u ih] /=; [case: (xsum v) => //= a; rewrite add0r | rewrite ih (@xaddA R)]. Qed.
Lemma xsum_nonneg (u : seq xnum) : all not_negative u -> not_negative (xsum u).
Proof.
elim: u => [|x u ih] /=; first by rewrite lexx.
by move=> /andP[hx /ih]; case: x hx => [a| | |] //=; case: (xsum u) => [b| | |] //=; exact: addr_ge0.
Qed.

(** *** A run, step by step *)
Lemma run_steps dom pr l lg X y : matrix X -> matrix y -> matrix dom -> run dom pr l lg X y =
  (_ <- guard (dim dom 0 == dim X 1) AssertionError ;;
   d <- (if pr is Some d then Ok d else default_prior uniform dom) ;;
   pv <- (a <- pdf d X ;; prod_axis1 a) ;; lv <- lik_values pdf logpdf l lg y ;;
   ps <- combine ln lg pv lv ;; _ <- guard (size ps == dim X 0) AssertionError ;;
   _ <- guard (~~ xzero (xsum ps)) ValueError ;; m <- argmax ps ;; x <- row_at X m ;; Ok (ps, x)).
Proof.
move=> [_ X2 _] [_ y2 _] [_ d2 _]; rewrite /run /bayes_init.
have s2 (sp : seq (option nat)) (A : nd) : ndim A = 2%N -> set_shape sp A = Ok A by move=> e; rewrite /set_shape e.
rewrite !s2 //; cbn [rbind]; case: (guard _ _) => [[]|e] //; cbn [rbind].
rewrite /BayesModel.set_prior; cbn [bdom bX].
case: (match pr with Some _ => _ | None => _ end) => [d|e] //; cbn [rbind].
case: (rbind _ _) => [pv|e] //; cbn [rbind sbind].
rewrite /BayesModel.set_likelihood; cbn [by_ b_ps bX bdom b_pr].
case: (lik_values _ _ _ _ _) => [lv|e] //; cbn [rbind sbind].
rewrite /BayesModel.map_point /BayesModel.bfit; cbn [b_ps b_pr sbind b_ll b_log bX odflt oapp].
case: (combine _ _ _ _) => [ps|e] //; cbn [rbind].
case: (guard (size _ == _) _) => [[]|e] //; cbn [rbind].
case: (guard _ ValueError) => [[]|e] //; cbn [rbind sbind b_ps odflt oapp bX].
rewrite /DensityModel.lift; case: (argmax ps) => [m|e] //=.
by case: (row_at X m).
Qed.
Lemma run_nonzero dom pr l lg X y ps x : matrix X -> matrix y -> matrix dom ->
  run dom pr l lg X y = Ok (ps, x) -> ~~ xzero (xsum ps).
Proof.
move=> mX my md.
  rewrite run_steps //; case: (guard _ _) => [[]|//]; cbn [rbind].
  case: (match pr with Some _ => _ | None => _ end) => [d|//]; cbn [rbind].
  case: (rbind (pdf d X) _) => [p|//]; cbn [rbind]; case: (lik_values _ _ _ _ y) => [v|//]; cbn [rbind].
  case: (combine _ _ p v) => [q|//]; cbn [rbind]; case: (guard _ _) => [[]|//]; cbn [rbind].
  rewrite /guard; case: ifP => // hz /=; case: (argmax q) => [m|//] /=; case: (row_at X m) => [t|//] /= [<- _].
  exact: hz.
Qed.

Section Two.
Hypotheses (hpdf : by_rows pdf) (hlog : by_rows logpdf).
Variables (X X' y y' : nd).
Hypotheses (mX : matrix X) (mX' : matrix X') (my : matrix y) (my' : matrix y').
Hypotheses (cX : dim X' 1 = dim X 1) (cy : dim y' 1 = dim y 1) (ry : dim y 0 = dim X 0) (ry' : dim y' 0 = dim X' 0).
Lemma rows_with (A B : nd) : matrix A -> matrix B -> dim B 1 = dim A 1 -> rows (with_rows A B) = rows A ++ rows B.
Proof.
move=> [wa a2 _] [wb b2 _] e; rewrite rows_nd2 // all_cat all_size_rows //.
by have := all_size_rows wb b2; rewrite e.
Qed.
Lemma matrix_with (A B : nd) : matrix A -> matrix B -> dim B 1 = dim A 1 -> matrix (with_rows A B).
Proof.
move=> [wa a2 _] [wb b2 _] e; split=> //; have : all (fun r => size r == dim A 1) (rows A ++ rows B).
  by rewrite all_cat all_size_rows //; have := all_size_rows wb b2; rewrite e.
rewrite /with_rows /nd_wf /= size_flatten /seq.shape /prodn /= muln1.
elim: (rows A ++ rows B) => //= r l ih /andP [/eqP -> /ih /eqP ->].
by rewrite mulSn.
Qed.
Lemma prods d (A B : nd) u v : matrix A -> matrix B -> dim B 1 = dim A 1 ->
  (a <- pdf d A ;; prod_axis1 a) = Ok u -> (a <- pdf d B ;; prod_axis1 a) = Ok v ->
  [/\ (a <- pdf d (with_rows A B) ;; prod_axis1 a) = Ok (u ++ v), size u = dim A 0 & size v = dim B 0].
Proof.
move=> mA mB e; case ea : (pdf d A) => [[//|a]|//] [<-]; case eb : (pdf d B) => [[//|b]|//] [<-].
by have [-> sa sb] := hpdf mA mB e ea eb; rewrite /= map_cat !size_map.
Qed.
Lemma liks d lg (A B : nd) u v : matrix A -> matrix B -> dim B 1 = dim A 1 ->
  lik_values pdf logpdf d lg A = Ok u -> lik_values pdf logpdf d lg B = Ok v ->
  [/\ lik_values pdf logpdf d lg (with_rows A B) = Ok (u ++ v), size u = dim A 0 & size v = dim B 0].
Proof.
case: lg => mA mB e; last exact: prods.
rewrite /lik_values; case ea : (logpdf d A) => [[//|a]|//] [<-]; case eb : (logpdf d B) => [[//|b]|//] [<-].
by have [-> sa sb] := hlog mA mB e ea eb; rewrite /= map_cat !size_map.
Qed.
Lemma combined lg (p p' l l' : seq xnum) ps ps' : size l = size p -> size l' = size p' ->
  combine ln lg p l = Ok ps -> combine ln lg p' l' = Ok ps' -> combine ln lg (p ++ p') (l ++ l') = Ok (ps ++ ps').
Proof.
move=> e e'; rewrite /combine; case: lg; rewrite !xvbop_same ?map_cat ?size_cat ?size_map ?e ?e' // => -[<-] [<-].
  by rewrite zip_cat ?size_map // map_cat.
by rewrite zip_cat // map_cat.
Qed.

(** C163: with more samples the posterior values are those of both sets of samples, and the estimate is
    one of the two estimates, the one with the preferred posterior value (the first on a tie); unless the
    posterior values sum to zero: then ValueError. *)
Theorem C163_estimate dom pr l lg ps ps' x x' : matrix dom ->
  run dom pr l lg X y = Ok (ps, x) -> run dom pr l lg X' y' = Ok (ps', x') ->
  exists i i', [/\ best ps i /\ x = nth [::] (rows X) i, best ps' i' /\ x' = nth [::] (rows X') i' &
    run dom pr l lg (with_rows X X') (with_rows y y') =
      if xzero (xsum (ps ++ ps')) then Err ValueError
      else Ok (ps ++ ps', if preferred (nthx ps' i') (nthx ps i) then x' else x)].
Proof.
move=> md; have mXX := matrix_with mX mX' cX; have myy := matrix_with my my' cy.
rewrite !run_steps //; have -> : dim (with_rows X X') 1 = dim X 1 by [].
rewrite cX; case: (guard _ _) => [[]|//]; cbn [rbind].
case: (match pr with Some _ => _ | None => _ end) => [d|//]; cbn [rbind].
case ep : (rbind (pdf d X) _) => [p|//]; cbn [rbind].
case el : (lik_values _ _ _ _ y) => [v|//]; cbn [rbind].
case ec : (combine _ _ p v) => [q|//]; cbn [rbind].
rewrite {1}/guard; case: ifP => // /eqP sq; cbn [rbind].
case: (guard _ _) => [[]|//]; cbn [rbind].
case em : (argmax q) => [m|//]; cbn [rbind]; rewrite {1}/row_at; case: ifP => // hm /= -[eq1 ex]; subst q.
case ep' : (rbind (pdf d X') _) => [p'|//]; cbn [rbind].
case el' : (lik_values _ _ _ _ y') => [v'|//]; cbn [rbind].
case ec' : (combine _ _ p' v') => [q'|//]; cbn [rbind].
rewrite {1}/guard; case: ifP => // /eqP sq'; cbn [rbind].
case: (guard _ _) => [[]|//]; cbn [rbind].
case em' : (argmax q') => [m'|//]; cbn [rbind]; rewrite {1}/row_at; case: ifP => // hm' /= -[eq1' ex']; subst q'.
exists m, m'; split; [by split=> //; exact: argmax_best | by split=> //; exact: argmax_best |].
have [-> sp sp'] := prods mX mX' cX ep ep'; have [-> sv sv'] := liks my my' cy el el'; cbn [rbind].
rewrite (combined _ _ ec ec') ?sp ?sv ?sp' ?sv' //; cbn [rbind].
have d0 : dim (with_rows X X') 0 = (dim X 0 + dim X' 0)%N by rewrite /with_rows /dim /= size_cat !size_rows.
rewrite d0 size_cat sq sq' /guard eqxx /=; case: (xzero _) => //=.
rewrite (argmax_cat em em') /= /row_at d0 rows_with //.
case: (preferred _ _).
  by rewrite sq ltn_add2l hm' /= nth_cat size_rows ltnNge leq_addr /= addKn ex'.
by rewrite ltn_addr // /= nth_cat size_rows hm ex.
Qed.
(** C163: a run of a problem with posterior values that are not negative succeeds together with both. *)
Theorem C163_defined dom pr l lg ps ps' x x' : matrix dom -> all not_negative ps -> all not_negative ps' ->
  run dom pr l lg X y = Ok (ps, x) -> run dom pr l lg X' y' = Ok (ps', x') ->
  exists z, run dom pr l lg (with_rows X X') (with_rows y y') = Ok (ps ++ ps', z) /\ (z = x \/ z = x').
Proof.
move=> md n1 n2 e1 e2; have [i [i' [_ _ ->]]] := C163_estimate md e1 e2.
have z1 := run_nonzero mX my md e1.
have -> : xzero (xsum (ps ++ ps')) = false.
  rewrite xsum_cat; have := xsum_nonneg n1; have := xsum_nonneg n2; move: z1.
  case: (xsum ps) => [a| | |] //=; case: (xsum ps') => [b| | |] //= na b0 a0.
  by rewrite paddr_eq0 // (negbTE na).
by case: ifP => _; eexists; split; by [| left | right].
Qed.
End Two.
(** C163: a list of samples given twice has the same estimate as given once. *)
Theorem C163_repeated (X y : nd) dom pr l lg ps x : by_rows pdf -> by_rows logpdf -> matrix X -> matrix y -> matrix dom ->
  dim y 0 = dim X 0 ->
  run dom pr l lg X y = Ok (ps, x) -> run dom pr l lg (with_rows X X) (with_rows y y) = Ok (ps ++ ps, x).
Proof.
move=> hp hl mX my md ry e; have [i [i' [_ _ ->]]] := C163_estimate hp hl mX mX my my erefl erefl ry ry md e e.
have -> : xzero (xsum (ps ++ ps)) = false; last by case: ifP.
rewrite xsum_cat; have := run_nonzero mX my md e; case: (xsum ps) => [a| | |] //= na.
by rewrite -mulr2n mulrn_eq0 (negbTE na).
Qed.
End More.

(** ** Concrete cases: densities and their logarithms equal to the entries. *)
Section Examples.
Variable R : rcfType.
Notation xnum := (xnum R).
Notation nd := (nd R).
Variables (ln trunc : R -> R).
Definition en_pdf (_ : unit) (A : nd) : res (pdfval xnum) := Ok (P2 [seq [seq Fin a | a <- r] | r <- rows A]).
Definition en_uniform (_ _ : seq R) : unit := tt.
Definition one (x : R) : nd := nd2 1 [:: [:: x]].
Definition en_dom : nd := nd2 2 [:: [:: 0; 4%:R]].
Notation en_run := (run en_pdf en_pdf en_uniform ln trunc en_dom).

Lemma en_by_rows : by_rows en_pdf.
Proof.
by move=> d A B u v mA mB e [<-] [<-]; rewrite /en_pdf rows_with // map_cat !size_map !size_rows.
Qed.
Lemma one_matrix x : matrix (one x). Proof. by []. Qed.

Lemma en_one (x y : R) : x * y != 0 -> en_run None tt false (one x) (one y) = Ok ([:: Fin (x * y)], [:: x]).
Proof.
by move=> h; rewrite /run /BayesModel.map_point /BayesModel.bfit /= !mulr1 addr0 h /=.
Qed.
(** Two samples, the second one wins. *)
Lemma C163_example : exists ps x, en_run None tt false (with_rows (one 1) (one 3%:R)) (with_rows (one 2%:R) (one 1)) = Ok (ps, x) /\ x = [:: 3%:R].
Proof.
have md : matrix en_dom by [].
have e1 : en_run None tt false (one 1) (one 2%:R) = Ok ([:: Fin (1 * 2%:R)], [:: 1]) by apply: en_one; rewrite mul1r pnatr_eq0.
have e2 : en_run None tt false (one 3%:R) (one 1) = Ok ([:: Fin (3%:R * 1)], [:: 3%:R]) by apply: en_one; rewrite mulr1 pnatr_eq0.
have [i [i' [[[hi _] _] [[hi' _] _] ->]]] := C163_estimate en_by_rows en_by_rows (one_matrix 1) (one_matrix 3%:R) (one_matrix 2%:R) (one_matrix 1)
  erefl erefl erefl erefl md e1 e2.
rewrite /= mulr1 mul1r addr0 -natrD pnatr_eq0 /=.
by case: i hi => // _; case: i' hi' => // _; rewrite /preferred /= ltr_nat /=; do 2!eexists.
Qed.
(** C163 fails with log=True: both estimates are defined, but not the one of the two samples together. *)
Theorem C163_log_refuted : ln 1 = 0 ->
  [/\ exists ps, en_run None tt true (one 1) (one 1) = Ok (ps, [:: 1]),
      exists ps, en_run None tt true (one 1) (one (-1)) = Ok (ps, [:: 1]) &
      en_run None tt true (with_rows (one 1) (one 1)) (with_rows (one 1) (one (-1))) = Err ValueError].
Proof.
move=> l1; have o1 : (1 : R) == 0 = false by rewrite oner_eq0.
split.
- eexists; rewrite /run /BayesModel.map_point /BayesModel.bfit /= mulr1 o1 ltr01 /= l1 !addr0 add0r o1 /=; reflexivity.
- eexists; rewrite /run /BayesModel.map_point /BayesModel.bfit /= mulr1 o1 ltr01 /= l1 !addr0 add0r oppr_eq0 o1 /=; reflexivity.
by rewrite /run /BayesModel.map_point /BayesModel.bfit /= mulr1 o1 ltr01 /= l1 !addr0 !add0r subrr eqxx.
Qed.
End Examples.
