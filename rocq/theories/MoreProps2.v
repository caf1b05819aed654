(** Property C164: adding samples to a DensityProblem with a given predicted distribution. *)
Set Warnings "-notation-overridden,-ambiguous-paths".
From mathcomp Require Import all_ssreflect all_algebra.
From Verif Require Import Py Nd Xnum XnumProofs UtilModel DensityModel NdProofs DensityProps2 DensityProps3 OrderProps MoreProps.
Set Implicit Arguments. Unset Strict Implicit. Unset Printing Implicit Defensive.
Import Order.Theory GRing.Theory Num.Theory.
Local Open Scope ring_scope.

Section More.
Variable R : rcfType.
Notation xnum := (xnum R).
Notation nd := (nd R).
Variables (D KW BW : Type).
Variable pdf : D -> KW -> nd -> res (pdfval xnum).
Variable nokw : KW.
Variable nobw : BW.
Variable uniform : seq R -> seq R -> D.
Variable norm01 : D.
Variable kde : nd -> BW -> seq xnum -> res D.
Variable kde_pdf : D -> nd -> res (seq xnum).
Variable trunc : R -> R.
Notation set_initial := (set_initial pdf nokw uniform).
Notation set_observed := (set_observed pdf nokw norm01).
Notation set_predicted := (set_predicted pdf kde kde_pdf).
Notation mud_point := (mud_point pdf nokw nobw uniform norm01 kde kde_pdf).
Notation expected_ratio := (expected_ratio pdf nokw nobw uniform norm01 kde kde_pdf).
Notation default_initial := (default_initial uniform).
Notation nthx := (nth (NaN : xnum)).

(** ** Specification *)
(** Densities of two sets of points, and of both together: one value per point, or one per point and
    coordinate. *)
Definition joins (n n' c : nat) (a b ab : pdfval xnum) : Prop :=
  match a, b with
  | P1 u, P1 v => [/\ ab = P1 (u ++ v), size u = n & size v = n']
  | P2 u, P2 v => [/\ ab = P2 (u ++ v), size u = n, size v = n', all (fun r => size r == c) u & all (fun r => size r == c) v]
  | _, _ => False
  end.
Definition by_point : Prop := forall d kw (A B : nd) a b, matrix A -> matrix B -> dim B 1 = dim A 1 ->
  pdf d kw A = Ok a -> pdf d kw B = Ok b ->
  exists2 ab, pdf d kw (with_rows A B) = Ok ab & joins (dim A 0) (dim B 0) (dim A 1) a b ab.
(** Build the problem, set the initial and the observed distribution (or the defaults) and the predicted one,
    ask for the estimate and the expected ratio; also the updated densities of the samples. *)
Definition mrun (dom : nd) (i o : option D) (p : D) (bw : BW) (kw : KW) (X y : nd) : res (seq xnum * seq R * xnum) :=
  s <- density_init D trunc X y false (Some dom) false None false 0 ;;
  (sbind (set_initial s i) (fun s _ => sbind (set_observed s o) (fun s _ => sbind (set_predicted s (PA (Some p) bw None kw)) (fun s _ =>
   sbind (mud_point s) (fun s x => sbind (expected_ratio s) (fun s e => (s, Ok (odflt [::] (d_up s), x, e)))))))).2.

(** *** A run, step by step *)
Definition initial_of (dom : nd) (i : option D) : res D :=
  if i is Some d then Ok d else
  if dim dom 1 == 0%N then Err ValueError else
  Ok (uniform [seq np_min r | r <- rows dom] [seq p.1 - p.2 | p <- zip [seq np_max r | r <- rows dom] [seq np_min r | r <- rows dom]]).
Lemma mrun_steps dom i o p bw kw X y : matrix X -> matrix y -> matrix dom -> mrun dom i o p bw kw X y =
  (_ <- guard (dim dom 0 == dim X 1) AssertionError ;;
   d <- initial_of dom i ;; iv <- (a <- pdf d nokw X ;; prod_axis1 a) ;;
   ov <- (a <- pdf (odflt norm01 o) nokw y ;; prod_axis1 a) ;;
   pv <- (a <- pdf p kw y ;; Ok (pravel a)) ;;
   r <- xvbop (@xdiv R) ov pv ;; iw <- xvbop (@xmul R) iv (nseq (dim X 0) (Fin 1)) ;; u <- xvbop (@xmul R) iw r ;;
   m <- argmax u ;; x <- row_at X m ;; e <- np_average r (nseq (dim X 0) (Fin 1)) ;; Ok (u, x, e)).
Proof.
move=> [_ X2 _] [_ y2 _] [_ d2 _]; rewrite /mrun /density_init.
have s2 (sp : seq (option nat)) (A : nd) : ndim A = 2%N -> set_shape sp A = Ok A by move=> e; rewrite /set_shape e.
rewrite !s2 //; cbn [rbind]; case: (guard _ _) => [[]|e] //; cbn [rbind fst snd set_weights dX].
rewrite /put_weights /DensityModel.set_initial; cbn [dX dy ddom d_int d_w d_r d_up d_in d_pr d_ob d_in_dist d_pr_dist d_ob_dist].
have hi (s : dprob R D) : ddom s = dom -> (if i is Some d then Ok d else default_initial s) = initial_of dom i.
  by case: i => //= e; rewrite /DensityModel.default_initial e.
rewrite hi //.
case: (initial_of dom i) => [d|e] //; cbn [rbind].
case: (pdf d nokw X) => [a|e] //; cbn [rbind]; case: (prod_axis1 a) => [iv|e] //; cbn [rbind sbind].
rewrite /DensityModel.set_observed; cbn [dX dy ddom d_int d_w d_r d_up d_in d_pr d_ob d_in_dist d_pr_dist d_ob_dist].
case: (rbind (pdf _ _ y) _) => [ov|e] //; cbn [rbind sbind].
rewrite /DensityModel.set_predicted /predicted_values; cbn [pa_w sbind pa_dist pa_kw dy].
case: (pdf p kw y) => [pv|e] //; cbn [rbind sbind].
rewrite /DensityModel.mud_point /ensure_up /fit /fill_defaults; cbn [dX dy ddom d_int d_w d_r d_up d_in d_pr d_ob d_in_dist d_pr_dist d_ob_dist sbind].
rewrite /DensityModel.lift /put_r /put_up; cbn [dX dy ddom d_int d_w d_r d_up d_in d_pr d_ob d_in_dist d_pr_dist d_ob_dist sbind odflt oapp].
case: (xvbop _ ov _) => [r|e] //; cbn [rbind sbind dX dy ddom d_int d_w d_r d_up d_in d_pr d_ob d_in_dist d_pr_dist d_ob_dist odflt oapp].
case: (xvbop _ iv _) => [iw|e] //; cbn [rbind sbind].
case: (xvbop _ iw _) => [u|e] //; cbn [rbind sbind dX dy ddom d_int d_w d_r d_up d_in d_pr d_ob d_in_dist d_pr_dist d_ob_dist odflt oapp].
case: (argmax u) => [m|e] //=; case: (row_at X m) => [x|e] //=.
rewrite /DensityModel.expected_ratio /ensure_up /DensityModel.lift /=.
by case: (np_average r _).
Qed.

Lemma average_plain (r : seq xnum) n : size r = n -> (0 < n)%N ->
  np_average r (nseq n (Fin 1)) = Ok (xdiv (xsum r) (Fin n%:R)).
Proof.
move=> sr n0; rewrite /np_average size_nseq sr eqxx /=.
have -> : xsum (nseq n (Fin (1 : R))) = Fin n%:R.
  by by elim: (n) => //= k ->; rewrite mulrS.
rewrite pnatr_eq0 -[n == 0%N]negbK -lt0n n0 /=; congr (Ok (xdiv (xsum _) _)).
elim: r n sr {n0} => [|x r ih] [|n] //= [sr]; rewrite ih //; congr (_ :: _).
by case: x => [a| | |] //=; rewrite /xinf ?mulr1 // ?oppr_gt0 ?oppr_lt0 ?ltr10 ltr01.
Qed.
Lemma div_back (s : xnum) n : (0 < n)%N -> xmul (Fin n%:R) (xdiv s (Fin n%:R)) = s.
Proof.
move=> n0; have h : (0 : R) < n%:R by rewrite ltr0n.
have h0 : (n%:R : R) == 0 = false by rewrite gt_eqF.
have h1 : (n%:R : R) < 0 = false by rewrite ltrn0.
by case: s => [a| | |] //=; rewrite ?h0 ?h1 /= /xinf ?oppr_gt0 ?oppr_lt0 ?h ?h1 // mulrC divfK // h0.
Qed.

Section Two.
Hypothesis hpdf : by_point.
Variables (X X' y y' : nd).
Hypotheses (mX : matrix X) (mX' : matrix X') (my : matrix y) (my' : matrix y').
Hypotheses (cX : dim X' 1 = dim X 1) (cy : dim y 1 = 1%N) (cy' : dim y' 1 = 1%N) (ry : dim y 0 = dim X 0) (ry' : dim y' 0 = dim X' 0).
Lemma prods2 d kw (A B : nd) u v : matrix A -> matrix B -> dim B 1 = dim A 1 ->
  (a <- pdf d kw A ;; prod_axis1 a) = Ok u -> (a <- pdf d kw B ;; prod_axis1 a) = Ok v ->
  [/\ (a <- pdf d kw (with_rows A B) ;; prod_axis1 a) = Ok (u ++ v), size u = dim A 0 & size v = dim B 0].
Proof.
move=> mA mB e; case ea : (pdf d kw A) => [[//|a]|//] [<-]; case eb : (pdf d kw B) => [[//|b]|//] [<-].
by have [ab -> [-> sa sb _ _]] := hpdf mA mB e ea eb; rewrite /= map_cat !size_map.
Qed.
Lemma ravels d kw (A B : nd) u v : matrix A -> matrix B -> dim A 1 = 1%N -> dim B 1 = 1%N ->
  (a <- pdf d kw A ;; Ok (pravel a)) = Ok u -> (a <- pdf d kw B ;; Ok (pravel a)) = Ok v ->
  [/\ (a <- pdf d kw (with_rows A B) ;; Ok (pravel a)) = Ok (u ++ v), size u = dim A 0 & size v = dim B 0].
Proof.
move=> mA mB e e'; case ea : (pdf d kw A) => [a|//] [<-]; case eb : (pdf d kw B) => [b|//] [<-].
have e1 : dim B 1 = dim A 1 by rewrite e e'.
have s1 (l : seq (seq xnum)) : all (fun r => size r == dim A 1) l -> size (flatten l) = size l.
  by rewrite e; elim: l => //= r l ih /andP[/eqP sr /ih hl]; rewrite size_cat sr hl.
have [ab ->] := hpdf mA mB e1 ea eb; case: a ea => a ea; case: b eb => b eb //=.
  by move=> [-> sa sb].
by move=> [-> sa sb aa ab']; rewrite /= flatten_cat !s1.
Qed.
Lemma xvb_cat f (a a' b b' c c' : seq xnum) : size a = size b -> size a' = size b' ->
  xvbop f a b = Ok c -> xvbop f a' b' = Ok c' -> [/\ xvbop f (a ++ a') (b ++ b') = Ok (c ++ c'), size c = size a & size c' = size a'].
Proof.
move=> e e'; rewrite !xvbop_same ?size_cat ?e ?e' // => -[<-] [<-].
by rewrite zip_cat // map_cat !size_map !size_zip e e' !minnn.
Qed.
(** C164: the updated densities of all samples are those of the two sets, the estimate is the one of the
    two estimates with the preferred density (the first on a tie), the expected ratio is the mean of the two,
    weighted by the numbers of samples. *)
Theorem C164_estimate dom i o p bw kw u u' x x' e e' : matrix dom ->
  mrun dom i o p bw kw X y = Ok (u, x, e) -> mrun dom i o p bw kw X' y' = Ok (u', x', e') ->
  exists j j', [/\ best u j /\ x = nth [::] (rows X) j, best u' j' /\ x' = nth [::] (rows X') j' &
    mrun dom i o p bw kw (with_rows X X') (with_rows y y') =
      Ok (u ++ u', if preferred (nthx u' j') (nthx u j) then x' else x,
          xdiv (xadd (xmul (Fin (dim X 0)%:R) e) (xmul (Fin (dim X' 0)%:R) e')) (Fin (dim X 0 + dim X' 0)%:R))].
Proof.
have cyy : dim y' 1 = dim y 1 by rewrite cy cy'.
move=> md; have mXX := matrix_with mX mX' cX; have myy := matrix_with my my' cyy.
rewrite !mrun_steps //; have -> : dim (with_rows X X') 1 = dim X 1 by [].
rewrite cX; case: (guard _ _) => [[]|//]; cbn [rbind].
case: (initial_of _ _) => [d|//]; cbn [rbind].
case ei : (rbind (pdf d _ X) _) => [iv|//]; cbn [rbind].
case eo : (rbind (pdf _ _ y) _) => [ov|//]; cbn [rbind].
case ep : (rbind (pdf p _ y) _) => [pv|//]; cbn [rbind].
case er : (xvbop _ ov pv) => [r1|//]; cbn [rbind].
case ew : (xvbop _ iv _) => [iw|//]; cbn [rbind].
case eu : (xvbop _ iw r1) => [u1|//]; cbn [rbind].
case em : (argmax u1) => [m|//]; cbn [rbind]; rewrite {1}/row_at; case: ifP => // hm; cbn [rbind].
case ea : (np_average r1 _) => [a1|//]; cbn [rbind] => -[eq1 ex eq2]; subst u1 a1.
case ei' : (rbind (pdf d _ X') _) => [iv'|//]; cbn [rbind].
case eo' : (rbind (pdf _ _ y') _) => [ov'|//]; cbn [rbind].
case ep' : (rbind (pdf p _ y') _) => [pv'|//]; cbn [rbind].
case er' : (xvbop _ ov' pv') => [r2|//]; cbn [rbind].
case ew' : (xvbop _ iv' _) => [iw'|//]; cbn [rbind].
case eu' : (xvbop _ iw' r2) => [u1|//]; cbn [rbind].
case em' : (argmax u1) => [m'|//]; cbn [rbind]; rewrite {1}/row_at; case: ifP => // hm'; cbn [rbind].
case ea' : (np_average r2 _) => [a1|//]; cbn [rbind] => -[eq1' ex' eq2']; subst u1 a1.
exists m, m'; split; [by split=> //; exact: argmax_best | by split=> //; exact: argmax_best |].
have [-> si si'] := prods2 mX mX' cX ei ei'; have [-> so so'] := prods2 my my' cyy eo eo'.
have [-> sp sp'] := ravels my my' cy cy' ep ep'; cbn [rbind].
have d0 : dim (with_rows X X') 0 = (dim X 0 + dim X' 0)%N by rewrite /with_rows /dim /= size_cat !size_rows.
have [-> sr sr'] := xvb_cat (etrans so (esym sp)) (etrans so' (esym sp')) er er'; cbn [rbind].
rewrite d0 nseqD.
have [|| -> sw sw'] := xvb_cat _ _ ew ew'; rewrite ?size_nseq //; cbn [rbind].
have [|| -> su su'] := xvb_cat _ _ eu eu'; [by rewrite sw si sr so ry | by rewrite sw' si' sr' so' ry' |]; cbn [rbind].
have n0 : (0 < dim X 0)%N by exact: leq_ltn_trans hm. have n0' : (0 < dim X' 0)%N by exact: leq_ltn_trans hm'.
have z : size r1 = dim X 0 by rewrite sr so ry. have z' : size r2 = dim X' 0 by rewrite sr' so' ry'.
have -> : e = xdiv (xsum r1) (Fin (dim X 0)%:R) by move: ea; rewrite average_plain // => -[].
have -> : e' = xdiv (xsum r2) (Fin (dim X' 0)%:R) by move: ea'; rewrite average_plain // => -[].
rewrite !div_back // -xsum_cat -nseqD average_plain ?size_cat ?z ?z' ?addn_gt0 ?n0 //.
rewrite (argmax_cat em em'); cbn [rbind]; rewrite /row_at d0 rows_with //.
case: (preferred _ _).
  by rewrite su sw si ltn_add2l hm' /= nth_cat size_rows ltnNge leq_addr /= addKn ex'.
by rewrite ltn_addr // /= nth_cat size_rows hm ex.
Qed.
End Two.
(** C164: a list of samples given twice has the same estimate and the same expected ratio as given once. *)
Theorem C164_repeated (X y : nd) dom i o p bw kw u x e : by_point -> matrix X -> matrix y -> matrix dom ->
  dim y 1 = 1%N -> dim y 0 = dim X 0 -> (0 < dim X 0)%N ->
  mrun dom i o p bw kw X y = Ok (u, x, e) -> mrun dom i o p bw kw (with_rows X X) (with_rows y y) = Ok (u ++ u, x, e).
Proof.
move=> hp mX my md cy ry n0 h; have [j [j' [_ _ ->]]] := C164_estimate hp mX mX my my erefl cy cy ry ry md h h.
have -> : (if preferred (nthx u j') (nthx u j) then x else x) = x by case: ifP.
have h0 : (0 : R) < (dim X 0)%:R by rewrite ltr0n.
have h1 : (0 : R) < (dim X 0 + dim X 0)%:R by rewrite ltr0n addn_gt0 n0.
congr (Ok (_, _, _)); case: e {h} => [a| | |] //=; rewrite /xinf ?oppr_gt0 ?oppr_lt0 ?h0 ?(lt_gtF h0) /= ?(lt_gtF h1) //.
by rewrite gt_eqF //; congr Fin; rewrite natrD -mulrDl mulrC mulKf // gt_eqF // -natrD.
Qed.
End More.

(** ** A concrete case: all densities equal to the entries. *)
Section Example.
Variable R : rcfType.
Notation xnum := (xnum R).
Notation nd := (nd R).
Variable trunc : R -> R.
Definition ed_pdf (d kw : unit) (A : nd) := en_pdf d A.
Definition ed_kde (_ : nd) (_ : unit) (_ : seq xnum) : res unit := Err ValueError.
Definition ed_kde_pdf (_ : unit) (_ : nd) : res (seq xnum) := Err ValueError.
Notation ed_run := (mrun ed_pdf tt tt (@en_uniform R) tt ed_kde ed_kde_pdf trunc (en_dom R) None None tt tt tt).

Lemma ed_by_point : by_point ed_pdf.
Proof.
move=> d kw A B a b mA mB e [<-] [<-]; exists (P2 [seq [seq Fin x | x <- r] | r <- rows (with_rows A B)]) => //.
rewrite /= rows_with // map_cat !size_map !size_rows !all_map; have [wA nA _] := mA; have [wB nB _] := mB.
split=> //; apply/allP => r hr; rewrite /= size_map; first exact: (allP (all_size_rows wA nA)).
by rewrite -e; exact: (allP (all_size_rows wB nB)).
Qed.
Lemma ed_one (x y : R) : y != 0 -> exists e, ed_run (one x) (one y) = Ok ([:: Fin x], [:: x], e).
Proof.
move=> h; have hf := negbTE h.
rewrite mrun_steps //; cbn [rbind initial_of]; rewrite /guard /=.
by rewrite !mulr1 hf /= divff // mulr1 /np_average /= addr0 oner_eq0; eexists.
Qed.
(** Two samples, the second one wins. *)
Lemma C164_example : exists u e, ed_run (with_rows (one 1) (one 3%:R)) (with_rows (one 2%:R) (one 1)) = Ok (u, [:: 3%:R], e).
Proof.
have [e1 h1] : exists e, ed_run (one 1) (one 2%:R) = Ok ([:: Fin 1], [:: 1], e) by apply: ed_one; rewrite pnatr_eq0.
have [e2 h2] : exists e, ed_run (one 3%:R) (one 1) = Ok ([:: Fin 3%:R], [:: 3%:R], e) by apply: ed_one; rewrite oner_eq0.
have md : matrix (en_dom R) by [].
have [j [j' [[[hj _] _] [[hj' _] _] ->]]] := C164_estimate ed_by_point (one_matrix 1) (one_matrix 3%:R) (one_matrix 2%:R) (one_matrix 1)
  erefl erefl erefl erefl erefl md h1 h2.
case: j hj => // _; case: j' hj' => // _; rewrite /preferred /=.
have -> : (1 : R) < 3%:R by rewrite -[X in X < _]/(1%:R) ltr_nat.
by do 2!eexists.
Qed.
End Example.
