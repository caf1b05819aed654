(** Properties C113-C115: the boundary splines of the Poisson example. *)
Set Warnings "-notation-overridden,-ambiguous-paths".
From mathcomp Require Import all_ssreflect all_algebra.
From mathcomp.algebra_tactics Require Import ring.
From Verif Require Import Py Nd Spec LinAlg LgpTheory LinProps5 UtilModel UtilModel2 DensityModel PoisModel.
Set Implicit Arguments. Unset Strict Implicit. Unset Printing Implicit Defensive.
Import Order.Theory GRing.Theory Num.Theory.
Local Open Scope ring_scope.

Section PoisProps.
Variable R : rcfType.
Implicit Types (u lam xs ys : seq R) (x : R).

(** ** Specification *)
(** [x] lies on the k-th of the n equal segments of [0, 1). *)
Definition on_segment (n k : nat) x := (k%:R / n%:R <= x) && (x < k.+1%:R / n%:R).
(** Linear from [a] at the left end of segment k to [b] at its right end. *)
Definition linear_on (n k : nat) (a b x : R) : R := a + (x * n%:R - k%:R) * (b - a).
(** The k-th of the values at 0, 1/n, ..., 1 when the inner ones are [u] and the last is [e]. *)
Definition knot u (e : R) (k : nat) : R :=
  if k == 0%N then 0 else if (k <= size u)%N then nth 0 u k.-1 else e.

Lemma knotE u k : (k <= (size u).+1)%N -> nth 0 (yvals u) k = knot u 1 k.
Proof.
case: k => [//|k]; rewrite /knot /= nth_cat ltnS => h.
case: ltnP => // h2; have -> : k = size u by apply/eqP; rewrite eqn_leq h h2.
by rewrite subnn.
Qed.

Lemma segE n k x : on_segment n.+1 k x = (xval R n k <= x) && (x < xval R n k.+1).
Proof. by rewrite /on_segment /xval div1r. Qed.

Lemma seg_uniq n k l x : on_segment n.+1 k x -> on_segment n.+1 l x -> k = l.
Proof.
have n0 : 0 < n.+1%:R^-1 :> R by rewrite invr_gt0 ltr0n.
have lt i j : i%:R / n.+1%:R < j.+1%:R / n.+1%:R :> R -> (i <= j)%N by rewrite ltr_pmul2r // ltr_nat.
rewrite /on_segment => /andP [h1 h2] /andP [h3 h4]; apply/eqP; rewrite eqn_leq.
by rewrite (lt _ _ (le_lt_trans h1 h4)) (lt _ _ (le_lt_trans h3 h2)).
Qed.

Lemma termE u i x : term u i.+1 x =
  if on_segment (size u).+1 i x
  then linear_on (size u).+1 i (nth 0 (yvals u) i) (nth 0 (yvals u) i.+1) x else 0.
Proof.
rewrite /term segE /=; case: ifP => _; last by rewrite mul0r.
rewrite mul1r /xval /linear_on.
have n0 : (size u).+1%:R != 0 :> R by rewrite pnatr_eq0.
rewrite -[i.+1]addn1 natrD; move: (size u).+1%:R n0 (nth _ _ _) (nth _ _ _) => N n0 a b.
by field; rewrite n0 /= [X in X != 0](_ : _ = -1) ?oppr_eq0 ?oner_eq0 //; ring.
Qed.

(** ** C113 *)
(** On every segment the expression is the linear function between the neighbouring values, where
    the value at 0 is 0 and the one at 1 is 1; outside [0, 1) it is 0. *)
Theorem C113_piecewise_linear u d p :
  let n := (size u).+1 in let x := nth 0 p d in
  (forall k, (k < n)%N -> on_segment n k x ->
     piecewise_eval_from_vector u d p = linear_on n k (knot u 1 k) (knot u 1 k.+1) x) /\
  (x < 0 \/ 1 <= x -> piecewise_eval_from_vector u d p = 0).
Proof.
move=> n x; rewrite /piecewise_eval_from_vector -/x -/n.
have e : \sum_(i <- iota 1 n) term u i x = \sum_(i < n) term u i.+1 x.
  by rewrite -[1%N]addn0 iotaDl big_map -(big_mkord xpredT (fun i => term u i.+1 x)) /index_iota subn0.
rewrite e; split=> [k kn hk|out].
  rewrite (bigD1 (Ordinal kn)) //= big1 ?addr0 => [|i ik].
    by rewrite termE hk !knotE // ltnW.
  rewrite termE; case: ifP => // hi; case/eqP: ik; apply: val_inj; exact: seg_uniq hi hk.
have n0 : 0 < n%:R :> R by rewrite ltr0n.
apply: big1 => i _; rewrite termE; case: ifP => // /andP [h1 h2]; case: out => h.
  by have := le_lt_trans h1 h; rewrite ltNge divr_ge0 ?ler0n.
have := le_lt_trans h h2; rewrite ltr_pdivl_mulr // mul1r ltr_nat ltnNge.
by rewrite (ltn_ord i).
Qed.

(** It passes through the given values at k/(n+1), jumps: it tends to 1 at 1, where it is 0. *)
Theorem C113_interpolates u d p k :
  (nth 0 p d = k%:R / (size u).+1%:R -> (k <= size u)%N ->
   piecewise_eval_from_vector u d p = knot u 1 k) /\
  (nth 0 p d = 1 -> piecewise_eval_from_vector u d p = 0).
Proof.
have n0 : 0 < (size u).+1%:R :> R by rewrite ltr0n.
have [h1 h2] := C113_piecewise_linear u d p; split=> [e kn|e].
  rewrite (h1 k) //; last by rewrite /on_segment e lexx ltr_pmul2r ?invr_gt0 // ltr_nat ltnSn.
  by rewrite /linear_on e divfK ?gt_eqF // subrr mul0r addr0.
by apply: h2; right; rewrite e.
Qed.

Theorem C113_tends_to_one u d p :
  let n := (size u).+1 in let x := nth 0 p d in
  on_segment n (size u) x ->
  1 - piecewise_eval_from_vector u d p = n%:R * (1 - x) * (1 - knot u 1 (size u)).
Proof.
move=> n x hx; have [h1 _] := C113_piecewise_linear u d p.
rewrite (h1 (size u)) // /linear_on -/n -/x {2}/knot /= ltnn.
have -> : (size u)%:R = n%:R - 1 :> R by rewrite /n -addn1 natrD addrK.
ring.
Qed.

(** ** C114 *)
(** The height at [x] of the line drawn through the points (xs_i, ys_i). *)
Definition height xs ys x (v : R) := exists k,
  [/\ (k.+1 < size xs)%N, (nth 0 xs k <= x) && (x < nth 0 xs k.+1)
    & v = nth 0 ys k + (x - nth 0 xs k) / (nth 0 xs k.+1 - nth 0 xs k) * (nth 0 ys k.+1 - nth 0 ys k)].

Lemma splineE lam : exists xs ys, [/\ plot_solution_spline lam = Ok (xs, ys),
  size xs = (size lam).+2, size ys = (size lam).+2,
  forall i, (i < (size lam).+2)%N -> nth 0 xs i = i%:R / (size lam).+1%:R
  & forall i, (i < (size lam).+2)%N -> nth 0 ys i = knot lam 0 i].
Proof.
have n0 : (size lam).+1%:R != 0 :> R by rewrite pnatr_eq0.
exists (0 :: rcons [seq i%:R / (size lam).+1%:R | i <- iota 1 (size lam)] 1), (0 :: rcons lam 0).
split.
- rewrite /plot_solution_spline /linspace; cbn [rbind]; congr (Ok (_ :: rcons _ _, _)).
  rewrite size_map size_iota -map_take take_iota (minn_idPl _) ?add2n //=.
  by apply/eq_map => i; rewrite add0r subr0 mul1r.
- by rewrite /= size_rcons size_map size_iota.
- by rewrite /= size_rcons.
- case=> [|i] hi; first by rewrite mul0r.
  rewrite !ltnS in hi; rewrite /= nth_rcons size_map size_iota; case: ltnP => h1.
    by rewrite (nth_map 0%N) ?size_iota // nth_iota // add1n.
  have -> : i = size lam by apply/eqP; rewrite eqn_leq h1 hi.
  by rewrite eqxx divff.
case=> [|i] //; rewrite !ltnS => hi; rewrite /= nth_rcons /knot /=; case: ltnP => // h1.
by have -> : i = size lam by [apply/eqP; rewrite eqn_leq h1 andbT]; rewrite eqxx.
Qed.

(** The drawn line has the knots k/(n+1), the given values at the inner ones and 0 at both ends. *)
Theorem C114_drawn lam : exists xs ys, [/\ plot_solution_spline lam = Ok (xs, ys),
  size xs = (size lam).+2 /\ size ys = (size lam).+2,
  forall i, (i <= (size lam).+1)%N -> nth 0 xs i = i%:R / (size lam).+1%:R
                                      /\ nth 0 ys i = knot lam 0 i
  & forall k x, (k <= size lam)%N -> on_segment (size lam).+1 k x ->
      forall v, height xs ys x v <-> v = linear_on (size lam).+1 k (knot lam 0 k) (knot lam 0 k.+1) x].
Proof.
have [xs [ys [e s1 s2 hx hy]]] := splineE lam; exists xs, ys; split=> //.
  by move=> i hi; rewrite hx // hy.
move=> k x kn hk v.
have n0 : (size lam).+1%:R != 0 :> R by rewrite pnatr_eq0.
have at_k : nth 0 ys k + (x - nth 0 xs k) / (nth 0 xs k.+1 - nth 0 xs k) * (nth 0 ys k.+1 - nth 0 ys k)
    = linear_on (size lam).+1 k (knot lam 0 k) (knot lam 0 k.+1) x.
  have kn1 : (k < (size lam).+2)%N by rewrite ltnS leqW.
  rewrite (hx _ kn1) (hy _ kn1) (hx k.+1) // (hy k.+1) // /linear_on.
  have -> : k.+1%:R = k%:R + 1 :> R by rewrite -addn1 natrD.
  move: ((size lam).+1%:R) n0 (knot _ _ _) (knot _ _ _) => N n0 a b.
  by field; rewrite n0 /= [X in X != 0](_ : _ = 1) ?oner_eq0 //; ring.
have inx l : (l <= size lam)%N ->
    ((nth 0 xs l <= x) && (x < nth 0 xs l.+1)) = on_segment (size lam).+1 l x.
  by move=> hl; rewrite (hx l.+1) // hx // ltnS leqW.
split=> [[l [h1 h2 ->]]|->].
  rewrite s1 !ltnS in h1; rewrite inx // in h2.
  by rewrite -(seg_uniq hk h2) at_k.
by exists k; rewrite s1 !ltnS inx // at_k.
Qed.

(** The line drawn and the expression handed to the solver agree on all segments but the last,
    where the solver's is larger by x(n+1) - n: it rises to 1 where the drawn one ends at 0. *)
Theorem C114_differs lam d p xs ys k v :
  plot_solution_spline lam = Ok (xs, ys) -> (k <= size lam)%N ->
  on_segment (size lam).+1 k (nth 0 p d) -> height xs ys (nth 0 p d) v ->
  piecewise_eval_from_vector lam d p - v =
  if k == size lam then nth 0 p d * (size lam).+1%:R - (size lam)%:R else 0.
Proof.
move=> e kn hk hv; have [xs' [ys' [e' _ _ hh]]] := C114_drawn lam.
move: e' hh; rewrite e => -[<- <-] hh.
move/(hh k _ kn hk): hv => ->.
have [h1 _] := C113_piecewise_linear lam d p; rewrite (h1 k) //.
rewrite /linear_on; have -> : knot lam 1 k = knot lam 0 k by rewrite /knot kn.
case: eqP => [->|ne]; last first.
  have -> : knot lam 1 k.+1 = knot lam 0 k.+1; last by rewrite subrr.
  by rewrite /knot /= ltn_neqAle kn andbT; case: eqP.
rewrite ![knot _ _ (size lam).+1]/knot /= ltnn; ring.
Qed.

(** ** C115 *)
(** The hat function with its peak at c/3. *)
Definition hat (c x : R) : R := Num.max 0 (1 - `|3%:R * x - c|).
(** The reference boundary data 197.65032 x^2 (x - 1)^5. *)
Definition ref_data (x : R) : R := (197%:R + 65%:R / 100%:R + 32%:R / 10%:R ^+ 5) * x ^+ 2 * (x - 1) ^+ 5.
Lemma g_trueE x : g_true x = ref_data x.
Proof. by rewrite /g_true /a_true /ref_data -[10%:R ^+ 2]natrX. Qed.
(** The sum of squared deviations at the N points j/(N-1) of the spline with values a, b at 1/3
    and 2/3 from the reference boundary data. *)
Definition gap (N : nat) (a b : R) : R :=
  \sum_(j < N) (ref_data (j%:R / N.-1%:R) - (a * hat 1 (j%:R / N.-1%:R) + b * hat 2%:R (j%:R / N.-1%:R))) ^+ 2.

Lemma hat_lin c x : c - 1 <= 3%:R * x <= c -> hat c x = 3%:R * x - c + 1.
Proof.
case/andP=> h1 h2; rewrite /hat ler0_norm ?subr_le0 // opprB.
rewrite max_r; first ring.
by rewrite subr_ge0 ler_subl_addr -ler_subl_addl.
Qed.
Lemma hat_lin' c x : c <= 3%:R * x <= c + 1 -> hat c x = c + 1 - 3%:R * x.
Proof.
case/andP=> h1 h2; rewrite /hat ger0_norm ?subr_ge0 //.
rewrite max_r; first ring.
by rewrite subr_ge0 ler_subl_addr addrC.
Qed.
Lemma hat_out c x : 3%:R * x <= c - 1 \/ c + 1 <= 3%:R * x -> hat c x = 0.
Proof.
move=> h; rewrite /hat max_l // subr_le0; case: h => h.
  by rewrite -normrN opprB; apply: le_trans (ler_norm _); rewrite ler_subr_addr addrC -ler_subr_addr.
by apply: le_trans (ler_norm _); rewrite ler_subr_addr addrC.
Qed.

Lemma interp_hat a b x : 0 <= x <= 1 ->
  interp1d [:: 0; 1 / 3%:R; 2%:R / 3%:R; 1] [:: 0; a; b; 0] x = a * hat 1 x + b * hat 2%:R x.
Proof.
have t0 : 0 < 3%:R :> R by rewrite ltr0n.
case/andP=> x0 x1; have x3 : 3%:R * x <= 3%:R by rewrite ger_pmulr.
have x30 : 0 <= 3%:R * x by rewrite mulr_ge0 // ltW.
have c3 : (1 < x) = false by rewrite ltNge x1.
have e2 : (2%:R / 3%:R < x) = (2%:R < 3%:R * x) by rewrite ltr_pdivr_mulr // mulrC.
have e1 : (1 / 3%:R < x) = (1 < 3%:R * x) by rewrite ltr_pdivr_mulr // mulrC.
have d2 : 2%:R = 1 + 1 :> R by ring.
have d3 : 3%:R = 2%:R + 1 :> R by ring.
have one2 : 1 <= 2%:R :> R by rewrite ler1n.
rewrite /interp1d /= c3 e1 e2.
case: (ltrP 2%:R (3%:R * x)) => h2.
  have h1 : 1 < 3%:R * x by apply: le_lt_trans h2.
  have h0 : 0 < x by rewrite -(pmulr_rgt0 _ t0); apply: lt_trans h1.
  rewrite h1 h0 /= hat_out; last by right; rewrite -d2 ltW.
  rewrite hat_lin'; last by rewrite (ltW h2) -d3.
  by field; rewrite ?pnatr_eq0.
case: (ltrP 1 (3%:R * x)) => h1.
  have h0 : 0 < x by rewrite -(pmulr_rgt0 _ t0) (lt_trans ltr01 h1).
  rewrite h0 /= hat_lin'; last by rewrite (ltW h1) -d2 h2.
  rewrite hat_lin; last by rewrite h2 d2 addrK ltW.
  by field; rewrite ?pnatr_eq0.
have -> : minn (maxn (addn (0 < x)%R (addn false (addn false (addn false 0%N)))) 1) 3 = 1%N by case: (0 < x)%R.
rewrite /= hat_lin; last by rewrite subrr x30 h1.
rewrite hat_out; last by left; rewrite d2 addrK.
by field; rewrite ?pnatr_eq0.
Qed.

(** What the objective function returns. *)
Theorem C115_value lam aff :
  spline_objective_function_2d lam aff =
  match aff with
  | Negz _ => Err ValueError
  | Posz N => if (2 <= size lam)%N then Ok (Num.sqrt (gap N (nth 0 lam 0) (nth 0 lam 1))) else Err IndexError
  end.
Proof.
case: aff => // N; rewrite /spline_objective_function_2d /linspace; cbn [rbind]; rewrite (eq_map g_trueE).
case: ifP => //= hs.
have e0 j : 0 + j%:R * ((1 - 0) / N.-1%:R) = j%:R / N.-1%:R :> R by rewrite add0r subr0 mul1r.
have g0 j : (j < N)%N -> (0 <= 0 + j%:R * ((1 - 0) / N.-1%:R) :> R) && (0 + j%:R * ((1 - 0) / N.-1%:R) <= 1 :> R).
  move=> hj; rewrite !e0 divr_ge0 ?ler0n //=.
  case: N hj {e0} => [//|[|N]]; first by rewrite ltnS leqn0 => /eqP ->; rewrite mul0r ler01.
  by rewrite ltnS => hj; rewrite ler_pdivr_mulr ?ltr0n // mul1r ler_nat.
rewrite /interp_all /=; set X := [seq _ | i <- iota 0 N].
have -> : all (fun t => (0 <= t) && (t <= 1)) X.
  by apply/allP => t /mapP [j]; rewrite mem_iota add0n => /= hj ->; exact: (g0 j hj).
congr (Ok (Num.sqrt _)); rewrite /gap zip_map big_map big_map /X big_map.
rewrite -(big_mkord xpredT (fun j => (ref_data (j%:R / N.-1%:R) - (nth 0 lam 0 * hat 1 (j%:R / N.-1%:R)
   + nth 0 lam 1 * hat 2%:R (j%:R / N.-1%:R))) ^+ 2)) /index_iota subn0.
rewrite !big_seq; apply: eq_bigr => j; rewrite mem_iota add0n => /= hj.
by rewrite interp_hat ?g0 // e0.
Qed.

(** The objective at the values a, b with N points is v. *)
Definition objective (N : nat) (a b v : R) := spline_objective_function_2d [:: a; b] N = Ok v.

Lemma objectiveE N a b : objective N a b (Num.sqrt (gap N a b)).
Proof. by rewrite /objective C115_value. Qed.
Lemma objective_inj N a b v : objective N a b v -> v = Num.sqrt (gap N a b).
Proof. by rewrite /objective C115_value => -[->]. Qed.

(** The vector of deviations. *)
Definition dev (N : nat) (a b : R) : 'cV[R]_N :=
  \col_j (ref_data (j%:R / N.-1%:R) - (a * hat 1 (j%:R / N.-1%:R) + b * hat 2%:R (j%:R / N.-1%:R))).

Lemma gapE N a b : gap N a b = sqnorm (dev N a b).
Proof. by rewrite /gap /sqnorm /dotv; apply: eq_bigr => j _; rewrite !mxE expr2. Qed.

Lemma dev_comb N a b a' b' t :
  dev N ((1 - t) * a + t * a') ((1 - t) * b + t * b') = (1 - t) *: dev N a b + t *: dev N a' b'.
Proof. by apply/colP => j; rewrite !mxE; ring. Qed.

Lemma norm_triangle n (u v : 'cV[R]_n) :
  Num.sqrt (sqnorm (u + v)) <= Num.sqrt (sqnorm u) + Num.sqrt (sqnorm v).
Proof.
have h0 : 0 <= Num.sqrt (sqnorm u) + Num.sqrt (sqnorm v) by rewrite addr_ge0 ?sqrtr_ge0.
rewrite -(ler_pexpn2r (n := 2)) ?nnegrE ?sqrtr_ge0 // sqrrD !sqr_sqrtr ?sqnorm_ge0 //.
rewrite -quad1 quad_addv ?trmx1 // mulmx1 !quad1 ler_add2r ler_add2l.
rewrite ler_muln2r /= -sqrtrM ?sqnorm_ge0 //.
apply: (le_trans (ler_norm _)); rewrite -sqrtr_sqr ler_wsqrtr //.
by have := gen_CS u v (posdef1 R n); rewrite invmx1 !quad1.
Qed.

Lemma norm_scale n c (u : 'cV[R]_n) : 0 <= c -> Num.sqrt (sqnorm (c *: u)) = c * Num.sqrt (sqnorm u).
Proof. by move=> c0; rewrite -!quad1 quad_scalev sqrtrM ?sqr_ge0 // sqrtr_sqr ger0_norm. Qed.

(** The objective is a convex function of the two values. *)
Theorem C115_convex N a b a' b' t v v' : 0 <= t <= 1 -> objective N a b v -> objective N a' b' v' ->
  exists2 w, objective N ((1 - t) * a + t * a') ((1 - t) * b + t * b') w & w <= (1 - t) * v + t * v'.
Proof.
case/andP=> t0 t1 /objective_inj -> /objective_inj ->.
eexists; first exact: objectiveE.
rewrite !gapE dev_comb -!norm_scale ?subr_ge0 //; exact: norm_triangle.
Qed.

(** Values that no values in some neighbourhood of them beat are beaten by no values at all: the
    optimiser that plot_initial_solution starts at (-3, -1) cannot stop in a local minimum that
    is not a global one. *)
Theorem C115_local_is_global N a b v e : objective N a b v -> 0 < e ->
  (forall a' b' v', `|a' - a| < e -> `|b' - b| < e -> objective N a' b' v' -> v <= v') ->
  forall a' b' v', objective N a' b' v' -> v <= v'.
Proof.
move=> ho e0 hl a' b' v' ho'.
pose m := 1 + `|a' - a| + `|b' - b|.
have m1 : 1 <= m by rewrite /m -addrA ler_addl addr_ge0.
have m0 : 0 < m by apply: lt_le_trans m1.
pose t := Num.min 1 (e / (2%:R * m)).
have d0 : 0 < e / (2%:R * m) by rewrite divr_gt0 // mulr_gt0 // ltr0n.
have t0 : 0 < t by rewrite lt_minr ltr01 d0.
have t1 : t <= 1 by rewrite le_minl lexx.
have te d : `|d| <= m -> `|t * d| < e.
  move=> hd; rewrite normrM (gtr0_norm t0).
  apply: (@le_lt_trans _ _ (e / (2%:R * m) * m)).
    by apply: ler_pmul => //; [exact: ltW | rewrite /t le_minl lexx orbT].
  rewrite invfM mulrA -mulrA mulVf ?gt_eqF // mulr1 ltr_pdivr_mulr ?ltr0n //.
  by rewrite ltr_pmulr // ltr1n.
have t01 : 0 <= t <= 1 by rewrite (ltW t0).
have [w hw wle] := C115_convex t01 ho ho'.
have : v <= w.
  apply: hl hw.
    have -> : (1 - t) * a + t * a' - a = t * (a' - a) by ring.
    by apply: te; rewrite /m -addrA addrCA ler_addl addr_ge0.
  have -> : (1 - t) * b + t * b' - b = t * (b' - b) by ring.
  by apply: te; rewrite /m ler_addr addr_ge0.
move=> /le_trans /(_ wle); rewrite mulrBl mul1r -addrA ler_addl addrC subr_ge0.
by rewrite ler_pmul2l.
Qed.

(** *** The minimiser *)
Definition hats (N : nat) : 'M[R]_(N, 2) := \matrix_(j, k) hat k.+1%:R (j%:R / N.-1%:R).
Definition gvec (N : nat) : 'cV[R]_N := \col_j ref_data (j%:R / N.-1%:R).
Definition pair_col (a b : R) : 'cV[R]_2 := \col_k (if k == 0 then a else b).

Lemma gap_misfit N a b : gap N a b = misfit (hats N) 0 (gvec N) (pair_col a b).
Proof.
rewrite gapE /misfit (_ : dev N a b = - (hats N *m pair_col a b + 0 - gvec N));
  last by apply/colP => j; rewrite !mxE big_ord_recl big_ord1 !mxE /= [(bump 0 0).+1](_ : _ = 2%N) // ?mulr1n; ring.
rewrite /sqnorm /dotv; apply: eq_bigr => j _; rewrite !mxE; ring.
Qed.

Lemma pair_colE (x : 'cV[R]_2) : x = pair_col (x 0 0) (x 1 0).
Proof. by apply/colP => k; rewrite mxE; case: k => [[|[|k]] hk] //=; congr (x _ _); apply/val_inj. Qed.

Lemma hatsM N (x : 'cV[R]_2) (j : 'I_N) :
  (hats N *m x) j 0 = hat 1 (j%:R / N.-1%:R) * x 0 0 + hat 2%:R (j%:R / N.-1%:R) * x 1 0.
Proof.
rewrite mxE big_ord_recl big_ord1 !mxE /= mulr1n; congr (_ + _ * x _ _); apply: val_inj => //.
Qed.

(** Values that minimise the objective exist; they are unique exactly for four or more points. *)
Theorem C115_minimiser N :
  exists a b v, [/\ objective N a b v,
    forall a' b' v', objective N a' b' v' -> v <= v' &
    (4 <= N)%N <-> (forall a' b', objective N a' b' v -> a' = a /\ b' = b)].
Proof.
pose x := lsx (hats N) 0 (gvec N).
have hb : best_fit (hats N) 0 (gvec N) x by exact: ls_best.
exists (x 0 0), (x 1 0), (Num.sqrt (gap N (x 0 0) (x 1 0))).
split; first exact: objectiveE.
  move=> a' b' v' /objective_inj ->; apply: ler_wsqrtr.
  rewrite !gap_misfit -pair_colE; exact: hb.
split=> [hN a' b' /objective_inj | hu].
  move/(congr1 (fun z => z ^+ 2)); rewrite !sqr_sqrtr ?gapE ?sqnorm_ge0 // -!gapE !gap_misfit -pair_colE => he.
  have hb' : best_fit (hats N) 0 (gvec N) (pair_col a' b') by move=> z; rewrite -he; apply: hb.
  have /colP h := best_same (ls_normal (hats N) 0 (gvec N)) hb'.
  have n1 : (0 < N.-1)%N by case: N hN {x hb he hb' h} => [|[|N]].
  have i1 : (1 < N)%N by apply: leq_trans hN.
  have i2 : (N.-2 < N)%N by case: N hN {x hb he hb' h n1 i1} => [|[|N]] //= _; apply/ltnW.
  have n0 : 0 < N.-1%:R :> R by rewrite ltr0n.
  have n3 : 3%:R <= N.-1%:R :> R by rewrite ler_nat -ltnS prednK // (ltn_trans _ i1).
  have e1 : 3%:R * (1 / N.-1%:R) <= 1 :> R by rewrite mulrA mulr1 ler_pdivr_mulr // mul1r.
  have e0 : 0 < 3%:R * (1 / N.-1%:R) :> R by rewrite mulrA mulr1 divr_gt0 // ltr0n.
  have e2 : N.-2%:R / N.-1%:R = 1 - 1 / N.-1%:R :> R.
    have nz : N.-1%:R != 0 :> R by rewrite gt_eqF.
    have -> : N.-2%:R = N.-1%:R - 1 :> R by rewrite -[N.-1 in RHS](prednK n1) -[N.-1.-1.+1]addn1 natrD addrK.
    by rewrite mulrBl divff.
  rewrite -/x in h.
  split.
    have := h (Ordinal i1); rewrite !hatsM /= ?mulr1n.
    rewrite [hat 2%:R _]hat_out ?mul0r ?addr0; last by left; rewrite [leRHS](_ : _ = 1) //; ring.
    rewrite hat_lin ?subrr ?(ltW e0) // addrNK !mxE /=; exact/mulfI/lt0r_neq0.
  have := h (Ordinal i2); rewrite !hatsM /= !e2.
  have f : 3%:R * (1 - 1 / N.-1%:R) = 3%:R - 3%:R * (1 / N.-1%:R) :> R by ring.
  rewrite [hat 1 _]hat_out ?mul0r ?add0r; last first.
    by right; rewrite f ler_subr_addl -ler_subr_addr (le_trans e1) // -subr_ge0; rewrite [X in 0 <= X](_ : _ = 0) //; ring.
  rewrite hat_lin'; last first.
    have d3 : 3%:R = 2%:R + 1 :> R by ring.
    by rewrite f {1 3}d3 -addrA ler_addl subr_ge0 e1 /= ler_add2l ger_addl oppr_le0 ltW.
  rewrite f !mxE /= => /mulfI; apply; rewrite gt_eqF //.
  have d3 : 2%:R + 1 = 3%:R :> R by ring.
  by rewrite d3 opprB addrC addrNK.
case: (leqP 4 N) => // hN.
have hk : objective N (x 0 0 + 1) (x 1 0 - 1) (Num.sqrt (gap N (x 0 0) (x 1 0))).
  rewrite (_ : gap N (x 0 0) (x 1 0) = gap N (x 0 0 + 1) (x 1 0 - 1)); first exact: objectiveE.
  rewrite /gap; apply: eq_bigr => j _; congr ((_ - _) ^+ 2).
  have -> : hat 1 (j%:R / N.-1%:R) = hat 2%:R (j%:R / N.-1%:R).
    have t0 : 0 < 3%:R :> R by rewrite ltr0n.
    case: N hN j {hu x hb} => [|[|[|[|N]]]] //= _ [[|[|[|j]]] hj] //=.
    - by rewrite mul0r !hat_out //; left; rewrite mulr0 ?subrr // subr_ge0 ler1n.
    - by rewrite mul0r !hat_out //; left; rewrite mulr0 ?subrr // subr_ge0 ler1n.
    - by rewrite divr1 !hat_out //; right; rewrite mulr1 -?(natrD _ 1 1) -?(natrD _ 2 1) ler_nat.
    - by rewrite mul0r !hat_out //; left; rewrite mulr0 ?subrr // subr_ge0 ler1n.
    - rewrite hat_lin' ?hat_lin; first by field.
        by rewrite mulrA mulr1 ler_pdivl_mulr ?ltr0n // ler_pdivr_mulr ?ltr0n // mulrBl mul1r -natrM; apply/andP; split;
          rewrite ?ler_subl_addr -?natrD ler_nat.
      by rewrite mulrA mulr1 ler_pdivl_mulr ?ltr0n // ler_pdivr_mulr ?ltr0n // mul1r -(natrD _ 1 1) -natrM !ler_nat.
    - by rewrite divff ?pnatr_eq0 // !hat_out //; right; rewrite mulr1 -?(natrD _ 1 1) -?(natrD _ 2 1) ler_nat.
  ring.
have [/eqP h _] := hu _ _ hk.
by move: h; rewrite -subr_eq0 addrAC subrr add0r oner_eq0.
Qed.
End PoisProps.
