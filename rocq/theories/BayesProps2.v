(** Properties C47, C88-C90 of BayesProblem. *)
Set Warnings "-notation-overridden,-ambiguous-paths".
From mathcomp Require Import all_ssreflect all_algebra.
From Verif Require Import Py Nd Xnum XnumProofs UtilModel DensityModel NdProofs BayesModel
  DensityProps DensityProps2 DensityProps3 BayesProps.
Set Implicit Arguments. Unset Strict Implicit. Unset Printing Implicit Defensive.
Import Order.Theory GRing.Theory Num.Theory.
Local Open Scope ring_scope.

Section BayesProps2.
Variable R : rcfType.
Notation xnum := (xnum R).
Notation nd := (nd R).
Variable D : Type.
Variables pdf logpdf : D -> nd -> res (pdfval xnum).
Variable uniform : seq R -> seq R -> D.
Variable ln : R -> R.
Variable trunc : R -> R.
Notation bprob := (bprob R D).
Notation bop := (bop D).
Notation init := (@bayes_init R D trunc).
Notation set_likelihood := (set_likelihood pdf logpdf).
Notation set_prior := (set_prior pdf uniform).
Notation bfit := (bfit pdf uniform ln).
Notation map_point := (map_point pdf uniform ln).
Notation bplot_param := (bplot_param pdf uniform ln).
Notation brun1 draw := (brun1 pdf logpdf uniform ln draw).
Notation brun draw := (brun pdf logpdf uniform ln draw).
Notation returns draw := (returns pdf logpdf uniform ln draw).
Notation default_prior := (default_prior uniform).
Notation xlog := (xlog ln).
Notation combine := (combine ln).
Notation nthx := (nth (NaN : xnum)).


Lemma bfit_ready s pr ll : b_pr s = Some pr -> b_ll s = Some ll ->
  (bfit s).2 = rmap (fun _ => tt) (ps <- combine (b_log s) pr ll ;;
             _ <- guard (size ps == dim (bX s) 0) AssertionError ;;
             _ <- guard (~~ xzero (xsum ps)) ValueError ;; Ok ps).
Proof. by move=> e1 e2; rewrite /bfit e1; cbn [sbind]; rewrite e2 e1 /=; case: (rbind _ _). Qed.

Lemma map_ready s pr ll : b_ps s = None -> b_pr s = Some pr -> b_ll s = Some ll ->
  (map_point s).2 = (ps <- combine (b_log s) pr ll ;;
             _ <- guard (size ps == dim (bX s) 0) AssertionError ;;
             _ <- guard (~~ xzero (xsum ps)) ValueError ;;
             m <- argmax ps ;; row_at (bX s) m).
Proof.
move=> e0 e1 e2; rewrite /map_point e0 /bfit e1; cbn [sbind]; rewrite e2 e1 /=.
case: (combine _ _ _) => [ps|] //=; case: (guard _ _) => //= _; by case: (guard _ _).
Qed.

Lemma sum_ge0_eq0 (s : seq R) : all (fun x => 0 <= x) s ->
  (\sum_(x <- s) x == 0) = all (fun x => x == 0) s.
Proof.
elim: s => [|x s ih] /=; first by rewrite big_nil eqxx.
move=> /andP [x0 s0]; rewrite big_cons paddr_eq0 // ?ih //.
by rewrite big_seq; apply: sumr_ge0 => y /(allP s0).
Qed.

(** ** C47: underflow *)
(** Plain mode, finite nonnegative values: the fit is rejected exactly when the posterior is
    zero at every sample. *)
Theorem C47_plain_exact (s : bprob) (p l : seq R) n :
  b_pr s = Some [seq Fin x | x <- p] -> b_ll s = Some [seq Fin x | x <- l] -> b_log s = false ->
  size p = n -> size l = n -> dim (bX s) 0 = n ->
  all (fun x => 0 <= x) p -> all (fun x => 0 <= x) l ->
  (bfit s).2 = if all (fun q => q.1 * q.2 == 0) (zip p l) then Err ValueError else Ok tt.
Proof.
move=> e1 e2 e3 sp sl sX p0 l0; rewrite (bfit_ready e1 e2) /combine e3.
rewrite xvbop_same ?size_map ?sp ?sl //; cbn [rbind].
rewrite size_map size_zip !size_map sp sl minnn sX eqxx; cbn [guard rbind].
have -> : [seq xmul q.1 q.2 | q <- zip [seq Fin x | x <- p] [seq Fin x | x <- l]]
        = [seq Fin x | x <- [seq q.1 * q.2 | q <- zip p l]].
  by elim: (p) (l) => [|a u ih] [|b v] //=; rewrite ih.
rewrite xsum_fin /xzero sum_ge0_eq0; last first.
  by elim: (p) (l) p0 l0 => [|a u ih] [|b v] //= /andP [a0 u0] /andP [b0 v0]; rewrite mulr_ge0 // ih.
by rewrite all_map /preim /=; case: (all _ _).
Qed.

(** Log mode: a posterior that vanishes everywhere is accepted and the first sample is
    returned. *)
Theorem C47_log_underflow_accepted (s : bprob) (l : seq R) n :
  b_ps s = None -> b_pr s = Some (nseq n (Fin 0)) -> b_ll s = Some [seq Fin x | x <- l] ->
  b_log s = true -> size l = n -> dim (bX s) 0 = n -> (0 < n)%N ->
  (map_point s).2 = Ok (nth [::] (rows (bX s)) 0).
Proof.
move=> e0 e1 e2 e3 sl sX n0; rewrite (map_ready e0 e1 e2) /combine e3.
rewrite xvbop_same ?size_map ?size_nseq ?sl //; cbn [rbind].
have -> : [seq xadd q.1 q.2 | q <- zip [seq xlog x | x <- nseq n (Fin 0)] [seq Fin x | x <- l]]
        = nseq n NInf.
  rewrite -sl; elim: (l) => [|a u ih] //=; rewrite ih eqxx //.
rewrite size_nseq sX eqxx; cbn [guard rbind].
case: n n0 {e1 sl} sX => [//|n] _ sX.
have -> : xzero (xsum (nseq n.+1 (NInf : xnum))) = false.
  have -> : xsum (nseq n.+1 (NInf : xnum)) = NInf; last by [].
  by rewrite /xsum; elim: n {sX} => //= n ->.
cbn [negb guard rbind].
have -> : argmax (nseq n.+1 (NInf : xnum)) = Ok 0%N.
  rewrite /=; congr Ok; elim: n 1%N {sX} => //= n ih i; exact: ih.
by cbn [rbind]; rewrite /row_at sX.
Qed.

(** ** C88: a flat prior gives the maximum likelihood point *)
Lemma xzero_scale c (x : xnum) : 0 < c -> xzero (xmul (Fin c) x) = xzero x.
Proof.
move=> c0; case: x => [a| | |]; rewrite ?scalePInf ?scaleNInf //=.
by rewrite mulf_eq0 gt_eqF.
Qed.

Theorem C88_flat_prior_plain (s : bprob) c (ll : seq xnum) n :
  b_ps s = None -> b_pr s = Some (nseq n (Fin c)) -> b_ll s = Some ll -> b_log s = false ->
  size ll = n -> dim (bX s) 0 = n -> 0 < c ->
  (map_point s).2 = if xzero (xsum ll) then Err ValueError else
                    (m <- argmax ll ;; row_at (bX s) m).
Proof.
move=> e0 e1 e2 e3 sl sX c0; rewrite (map_ready e0 e1 e2) /combine e3.
rewrite xvbop_same ?size_nseq ?sl //; cbn [rbind].
have -> : [seq xmul q.1 q.2 | q <- zip (nseq n (Fin c)) ll] = scale_all c ll.
  by rewrite -sl /scale_all; elim: (ll) => [|a u ih] //=; rewrite ih.
rewrite size_map sl sX eqxx; cbn [guard rbind].
rewrite xsum_scale // xzero_scale // argmax_scale //; by case: (xzero _).
Qed.

Lemma xadd_fin_lt c (x y : xnum) : xlt (xadd (Fin c) x) (xadd (Fin c) y) = xlt x y.
Proof. by case: x y => [a| | |] [b| | |] //=; rewrite ltr_add2l. Qed.

Theorem C88_flat_prior_log (s : bprob) c (ll : seq xnum) n :
  b_ps s = None -> b_pr s = Some (nseq n (Fin c)) -> b_ll s = Some ll -> b_log s = true ->
  size ll = n -> dim (bX s) 0 = n -> 0 < c ->
  (map_point s).2 = if xzero (xsum [seq xadd (Fin (ln c)) x | x <- ll]) then Err ValueError else
                    (m <- argmax ll ;; row_at (bX s) m).
Proof.
move=> e0 e1 e2 e3 sl sX c0; rewrite (map_ready e0 e1 e2) /combine e3.
rewrite xvbop_same ?size_map ?size_nseq ?sl //; cbn [rbind].
have -> : [seq xadd q.1 q.2 | q <- zip [seq xlog x | x <- nseq n (Fin c)] ll]
   = [seq xadd (Fin (ln c)) x | x <- ll].
  by rewrite -sl; elim: (ll) => [|a u ih] //=; rewrite ih gt_eqF // c0.
rewrite size_map sl sX eqxx; cbn [guard rbind].
rewrite argmax_map; last exact: xadd_fin_lt; last by case.
by case: (xzero _).
Qed.

(** ** C89: numbers of samples *)
(** As many prior values as rows of X, [k] likelihood values. *)
Theorem C89_sample_counts (s : bprob) (pr ll : seq xnum) n :
  b_pr s = Some pr -> b_ll s = Some ll -> size pr = n -> dim (bX s) 0 = n ->
  size ll <> n -> size ll <> 1%N ->
  (bfit s).2 = if n == 1%N then Err AssertionError else Err ValueError.
Proof.
move=> e1 e2 sp sX h1 h2; rewrite (bfit_ready e1 e2) /combine.
have eb f (u : seq xnum) : size u = n -> xvbop f u ll = if n == 1%N then Ok [seq f (head NaN u) z | z <- ll] else Err ValueError.
  by move=> su; rewrite /xvbop su; case: eqP => [e|_]; [case: h1 | case: eqP => // _; case: eqP].
by case: (b_log s); rewrite eb ?size_map //; case: eqP => // n1; cbn [rbind];
  rewrite size_map sX; case: eqP.
Qed.

(** One row of y for several samples (a flat list of outputs is one row): the likelihood is
    the same everywhere and the estimate is the mode of the prior. *)
Theorem C89_one_output_row (s : bprob) (pr : seq xnum) l n :
  b_ps s = None -> b_pr s = Some pr -> b_ll s = Some [:: Fin l] -> b_log s = false ->
  size pr = n -> dim (bX s) 0 = n -> n <> 1%N -> 0 < l ->
  (map_point s).2 = if xzero (xsum pr) then Err ValueError else
                    (m <- argmax pr ;; row_at (bX s) m).
Proof.
move=> e0 e1 e2 e3 sp sX n1 l0; rewrite (map_ready e0 e1 e2) /combine e3.
rewrite /xvbop sp /=; case: eqP => // _; cbn [rbind].
have -> : [seq xmul x (Fin l) | x <- pr] = scale_all l pr by apply: eq_map => x; rewrite xmulC.
rewrite size_map sp sX eqxx; cbn [guard rbind].
rewrite xsum_scale // xzero_scale // argmax_scale //; by case: (xzero _).
Qed.

(** ** C90: constructor and plots *)
Theorem C90_given_domain (X y : nd) xi (d : nd) : ndim X = 2%N -> ndim y = 2%N -> ndim d = 2%N ->
  init X y xi (Some d) =
  if dim d 0 == dim X 1 then Ok (BP X y d None None None false None None) else Err AssertionError.
Proof.
move=> h1 h2 h3; rewrite /bayes_init /set_shape h1 h2 h3 /= /guard.
by case: ifP.
Qed.

(** A flat X and a flat y are one sample each. *)
Theorem C90_flat_input (xs ys : seq R) xi d :
  init (nd1 xs) (nd1 ys) xi d =
  init (Nd [:: 1%N; size xs] xs) (Nd [:: 1%N; size ys] ys) xi d.
Proof.
by rewrite /bayes_init /set_shape /ndim /= /np_reshape /wild /known /fill /= !dvd1n !divn1.
Qed.

(** The sample arrays and the domain never change, whatever is called. *)
Theorem C90_data_never_change draw (s : bprob) h :
  [/\ bX (brun draw s h) = bX s, by_ (brun draw s h) = by_ s & bdom (brun draw s h) = bdom s].
Proof.
have bp s1 d : BayesProps.base_eq (set_prior s1 d).1 s1.
  rewrite /set_prior; case: (match d with Some _ => _ | None => _ end) => [d'|e] //=.
  by case: (rbind _ _).
have bf s1 : BayesProps.base_eq (bfit s1).1 s1.
  rewrite /bfit.
  have : BayesProps.base_eq (match b_pr s1 with None => set_prior s1 None | Some _ => (s1, Ok tt) end).1 s1.
    by case: (b_pr s1).
  case: (match b_pr s1 with None => _ | Some _ => _ end) => s2 [x|e] //= b.
  by case: (b_ll s2) => [ll|] //=; case: (rbind _ _).
have bm s1 : BayesProps.base_eq (map_point s1).1 s1.
  rewrite /map_point; case: (b_ps s1) => //=; have := bf s1.
  by case: (bfit s1) => s2 [].
have bt (a b c : bprob) : BayesProps.base_eq a b -> BayesProps.base_eq b c -> BayesProps.base_eq a c.
  by case=> ? ? ?; case=> ? ? ?; split; congruence.
suff step s1 o : BayesProps.base_eq (brun1 draw s1 o).1 s1.
  suff [] : BayesProps.base_eq (brun draw s h) s by [].
  elim: h s => [//|o h ih] s; exact: (bt _ _ _ (ih _) (step s o)).
case: o => [d lg|d| | |a b c|a b] //=.
- by rewrite /set_likelihood; case: (lik_values _ _ _ _ _).
- rewrite /bplot_param /lift; case: (if a then _ else _) => //= _.
  have mm s2 k : BayesProps.base_eq (sbind (map_point s2) (fun s _ => (s, draw k s))).1 s2.
    by have := bm s2; case: (map_point s2) => s3 [].
  have m1 : BayesProps.base_eq (if b then sbind (map_point s1) (fun s _ => (s, draw 1%N s)) else (s1, Ok tt)).1 s1.
    by case: b.
  case: (if b then _ else _) m1 => s2 [x|e] //= m1.
  have m2 : BayesProps.base_eq (if c then sbind (map_point s2) (fun s _ => (s, draw 2%N s)) else (s2, Ok tt)).1 s2.
    by case: c.
  by case: (if c then _ else _) m2 => s3 [y|e] //= m2; apply: bt m2 m1.
Qed.

(** Asking again gives the same answer and changes nothing. *)
Theorem C90_map_point_idempotent s s1 x : map_point s = (s1, Ok x) -> map_point s1 = (s1, Ok x).
Proof.
have fup s2 s3 u : bfit s2 = (s3, Ok u) -> b_ps s3 <> None.
  rewrite /bfit; case: (match b_pr s2 with None => _ | Some _ => _ end) => s4 [v|e] //=.
  by case: (b_ll s4) => [ll|] //=; case: (rbind _ _) => [ps|e] //= [<-].
rewrite /map_point; case E: (b_ps s) => [u|] /=; first by move=> [<- e]; rewrite E /= e.
case Ef: (bfit s) => [s2 [x'|e]] //= [e1 e2]; rewrite -e1.
by have := fup _ _ _ Ef; case E2: (b_ps s2) e2 => [u|] //= e2 _; rewrite E2 /= e2.
Qed.

(** The default observable plot fails before a likelihood is set; it never changes the
    object. *)
Theorem C90_plot_obs (draw : nat -> bprob -> res unit) (s : bprob) b :
  (forall a, (bplot_obs draw s a b).1 = s) /\
  (b_ll s = None -> draw 4%N s = Ok tt -> (bplot_obs draw s true b).2 = Err ValueError).
Proof. by split=> // e1 e2; rewrite /bplot_obs /= e2 /= e1. Qed.
End BayesProps2.
