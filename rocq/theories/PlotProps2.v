(** More about plot_dist (C66): normalisation, which parameter is drawn, errors. *)
Set Warnings "-notation-overridden,-ambiguous-paths".
From mathcomp Require Import all_ssreflect all_algebra.
From Coq Require Import String.
From Verif Require Import Py Nd LinAlg Dmx LgpModel UtilModel UtilModel2 PlotModel PlotProps.
Set Implicit Arguments. Unset Strict Implicit. Unset Printing Implicit Defensive.
Import Order.Theory GRing.Theory Num.Theory.
Local Open Scope ring_scope.

Section PlotDist.
Variable R : realFieldType.
Variable pdf : seq (seq R) -> res (seq (seq R)).
Variable kde : seq (seq R) -> res (seq R).
Notation plot_dist := (plot_dist pdf kde).
Notation has_density := (has_density pdf kde).
Implicit Types (dom : seq (R * R)) (f : seq R -> R).

(** C66: the drawn values have Riemann sum one over the drawn abscissae (whose spacing is
    |hi - lo|/(aff - 1)), unless the density vanishes on the whole grid. *)
Theorem C66_normalised dom k src (aff : nat) f xs ys : (k < size dom)%N -> (2 < aff)%N -> has_density src f ->
  let iv := nth (0, 0) dom k in
  iv.1 <> iv.2 -> \sum_(t <- tuples (nseq (size dom) aff.-1)) f (grid_point dom aff t) <> 0 ->
  plot_dist dom k src aff = Ok (xs, ys) ->
  [/\ size xs = aff.-1, size ys = aff.-1,
      forall i, (i.+1 < aff.-1)%N -> nth 0 xs i.+1 - nth 0 xs i = (iv.2 - iv.1) / aff.-1%:R &
      \sum_(y <- ys) y * (`|iv.2 - iv.1| / aff.-1%:R) = 1].
Proof.
move=> hk ha hf iv lh nz; rewrite (C66_plot_dist hk ha hf) -/iv => -[<- <-].
set c := drawn src (size dom) k.
have hc : (c < size dom)%N.
  rewrite /c /drawn; case: ifP => _; apply: other_lt => //.
  by rewrite ltn_subrL /= (leq_ltn_trans (leq0n k) hk).
rewrite !size_map size_iota; split=> //.
  move=> i hi; rewrite !(nth_map 0%N) ?size_iota ?(ltnW hi) // !nth_iota ?(ltnW hi) // /tick !add0n.
  by rewrite opprD addrACA subrr add0r -mulrBl -natrB // subSnn mul1r.
set S := slice_sum dom aff f c; set dx := _ / _.
have dx0 : dx != 0.
  rewrite /dx mulf_neq0 ?invr_eq0 ?normr_eq0 ?subr_eq0 ?pnatr_eq0 //.
    by rewrite eq_sym; apply/eqP.
  by case: (aff) ha => [|[|]].
have SE : \sum_(i <- iota 0 aff.-1) S i = \sum_(t <- tuples (nseq (size dom) aff.-1)) f (grid_point dom aff t).
  rewrite /S /slice_sum (exchange_big_dep xpredT) //= big_seq [RHS]big_seq; apply: eq_bigr => t ht.
  have lt := nth_tuple ht (k := c); rewrite size_nseq nth_nseq hc in lt.
  rewrite -big_filter (_ : filter _ _ = [:: nth 0%N t c]) ?big_seq1 //.
  have -> : filter (fun i => nth 0%N t c == i) (iota 0 aff.-1) = filter (pred1 (nth 0%N t c)) (iota 0 aff.-1).
    by apply: eq_filter => i; rewrite /= eq_sym.
  by rewrite filter_pred1_uniq ?iota_uniq // mem_iota /= add0n lt.
rewrite big_map -!mulr_suml -/S SE mulrAC mulfV // mulf_neq0 //; exact/eqP.
Qed.

(** ** Sums of products over a product grid *)
Lemma sum_prod_tuples (ns : seq nat) (F : nat -> nat -> R) :
  \sum_(t <- tuples ns) \prod_(k <- iota 0 (size ns)) F k (nth 0%N t k) =
  \prod_(k <- iota 0 (size ns)) \sum_(j <- iota 0 (nth 0%N ns k)) F k j.
Proof.
elim: ns F => [|n ns ih] F; first by rewrite /= big_seq1 !big_nil.
rewrite [size _]/= [iota 0 _.+1]/= big_cons -[iota 1 _]/(iota (1 + 0) _) iotaDl big_map.
rewrite -(ih (fun k => F k.+1)) big_flatten big_map big_distrl; apply: eq_bigr => i _ /=.
by rewrite big_map big_distrr; apply: eq_bigr => t _ /=; rewrite big_cons big_map.
Qed.

Lemma slice_prod (ns : seq nat) (F : nat -> nat -> R) c i : (c < size ns)%N -> (i < nth 0%N ns c)%N ->
  \sum_(t <- tuples ns | nth 0%N t c == i) \prod_(k <- iota 0 (size ns)) F k (nth 0%N t k) =
  F c i * \prod_(k <- iota 0 (size ns) | k != c) \sum_(j <- iota 0 (nth 0%N ns k)) F k j.
Proof.
move=> hc hi; rewrite big_mkcond /=.
have cin : c \in iota 0 (size ns) by rewrite mem_iota.
pose G k j := if k == c then (if j == i then F c i else 0) else F k j.
transitivity (\sum_(t <- tuples ns) \prod_(k <- iota 0 (size ns)) G k (nth 0%N t k)).
  apply: eq_bigr => t _; rewrite (bigD1_seq c) ?iota_uniq //= [RHS](bigD1_seq c) ?iota_uniq //= /G eqxx.
  case: ifP => [/eqP ->|_]; last by rewrite mul0r.
  by congr (_ * _); apply: eq_bigr => k /negbTE ->.
rewrite sum_prod_tuples (bigD1_seq c) ?iota_uniq //=; congr (_ * _).
  rewrite /G eqxx -big_mkcond /= -big_filter (_ : filter _ _ = [:: i]) ?big_seq1 //.
  by rewrite filter_pred1_uniq ?iota_uniq // mem_iota.
by apply: eq_bigr => k /negbTE kc; apply: eq_bigr => j _; rewrite /G kc.
Qed.

Lemma drawn_lt src d k : (k < d)%N -> (drawn src d k < d)%N.
Proof.
move=> hk; rewrite /drawn; case: ifP => _; apply: other_lt => //.
by rewrite ltn_subrL /= (leq_ltn_trans (leq0n k) hk).
Qed.

(** The density is a product of functions of one parameter each. *)
Definition separable (d : nat) (g : nat -> R -> R) (p : seq R) : R :=
  \prod_(k <- iota 0 d) g k (nth 0 p k).

Lemma slice_separable dom (aff : nat) (g : nat -> R -> R) c i : (c < size dom)%N -> (i < aff.-1)%N ->
  slice_sum dom aff (separable (size dom) g) c i =
  g c (tick (nth (0, 0) dom c).1 (nth (0, 0) dom c).2 aff i) *
  \prod_(k <- iota 0 (size dom) | k != c)
    \sum_(j <- iota 0 aff.-1) g k (tick (nth (0, 0) dom k).1 (nth (0, 0) dom k).2 aff j).
Proof.
move=> hc hi; rewrite /slice_sum.
pose F k j := g k (tick (nth (0, 0) dom k).1 (nth (0, 0) dom k).2 aff j).
have := @slice_prod (nseq (size dom) aff.-1) F c i.
rewrite size_nseq nth_nseq hc => /(_ isT hi) E.
transitivity (\sum_(t <- tuples (nseq (size dom) aff.-1) | nth 0%N t c == i)
                \prod_(k <- iota 0 (size dom)) F k (nth 0%N t k)).
  apply: eq_bigr => t _; rewrite /separable big_seq [RHS]big_seq; apply: eq_bigr => k.
  rewrite mem_iota add0n => /andP[_ hk].
  by rewrite /grid_point (nth_map 0%N) ?size_iota // nth_iota.
rewrite E /F; congr (_ * _); rewrite big_seq_cond [RHS]big_seq_cond; apply: eq_bigr => k.
by rewrite mem_iota add0n => /andP[/andP[_ hk] _]; rewrite nth_nseq hk.
Qed.

(** C66: for a product density the curve is the density of one parameter, namely number
    [drawn src d k], at the ticks of that parameter, drawn against the ticks of parameter k
    and scaled to Riemann sum one. *)
Theorem C66_separable dom k src (aff : nat) (g : nat -> R -> R) :
  (k < size dom)%N -> (2 < aff)%N -> has_density src (separable (size dom) g) ->
  let T k i := tick (nth (0, 0) dom k).1 (nth (0, 0) dom k).2 aff i in
  let dx := `|(nth (0, 0) dom k).2 - (nth (0, 0) dom k).1| / aff.-1%:R in
  let c := drawn src (size dom) k in
  (forall k', (k' < size dom)%N -> k' <> c -> \sum_(j <- iota 0 aff.-1) g k' (T k' j) <> 0) ->
  plot_dist dom k src aff =
  Ok ([seq T k i | i <- iota 0 aff.-1],
      [seq g c (T c i) / (\sum_(j <- iota 0 aff.-1) g c (T c j) * dx) | i <- iota 0 aff.-1]).
Proof.
move=> hk ha hf T dx c nz; rewrite (C66_plot_dist hk ha hf) -/c -/dx; congr (Ok (_, _)).
have hc : (c < size dom)%N by apply: drawn_lt.
set C := \prod_(k <- iota 0 (size dom) | k != c) \sum_(j <- iota 0 aff.-1) g k (T k j).
have C0 : C != 0.
  rewrite /C big_seq_cond prodf_seq_neq0; apply/allP => k'; rewrite mem_iota add0n => /andP[_ h].
  by apply/implyP => /andP[_ /eqP ne]; apply/eqP; apply: nz.
have S i : (i < aff.-1)%N -> slice_sum dom aff (separable (size dom) g) c i = g c (T c i) * C.
  by move=> hi; rewrite slice_separable.
have D : \sum_(j <- iota 0 aff.-1) slice_sum dom aff (separable (size dom) g) c j * dx =
         C * \sum_(j <- iota 0 aff.-1) g c (T c j) * dx.
  rewrite mulr_sumr big_seq [RHS]big_seq; apply: eq_bigr => j; rewrite mem_iota add0n => /andP[_ hj].
  by rewrite S // [_ * C]mulrC mulrA.
apply/eq_in_map => i; rewrite mem_iota add0n => /andP[_ hi].
by rewrite D S // [_ * C]mulrC -mulf_div mulfV // mul1r.
Qed.

Lemma py_index_ok n (i : int) : - n%:Z <= i < n%:Z -> exists k, py_index n i = Ok k /\ (k < n)%N.
Proof.
case: i => k /=; first by rewrite ltz_nat => /andP[_ h]; exists k; rewrite h.
rewrite NegzE ler_opp2 lez_nat => /andP[h _]; exists (n - k.+1)%N; rewrite h; split=> //.
by rewrite ltn_subrL /= (leq_ltn_trans (leq0n k) h).
Qed.

(** C66: errors.  A source other than pdf and kde: ValueError; fewer than three points: the
    spacing cannot be read off, IndexError; a parameter that does not exist: IndexError. *)
Theorem C66_plot_dist_errors dom (idx : int) src (aff : nat) f : dom != [::] ->
  [/\ ~~ ((- (size dom)%:Z <= idx) && (idx < (size dom)%:Z)) -> plot_dist dom idx src aff = Err IndexError,
      - (size dom)%:Z <= idx < (size dom)%:Z -> src <> "pdf"%string -> src <> "kde"%string ->
        plot_dist dom idx src aff = Err ValueError,
      - (size dom)%:Z <= idx < (size dom)%:Z -> has_density src f -> (aff < 3)%N ->
        plot_dist dom idx src aff = Err IndexError &
      forall n, plot_dist dom idx src (Negz n) = Err ValueError].
Proof.
move=> d0; have [mesh [grid [h1 h2 h3 h4 h5]]] := buildE aff d0.
split.
- rewrite /PlotModel.plot_dist h1; cbn [rbind]; case: idx => k /=.
    case: ltnP => // lt; rewrite ltz_nat lt andbT => /negP[].
    by apply: (@le_trans _ _ 0); rewrite ?oppr_le0.
  by case: ltnP => // lt; rewrite NegzE ler_opp2 lez_nat lt.
- move=> ok n1 n2; rewrite /PlotModel.plot_dist h1; cbn [rbind].
  have [k [-> hk]] := py_index_ok ok; cbn [rbind]; rewrite ticksE; cbn [rbind].
  by move/String.eqb_neq: n1 => ->; move/String.eqb_neq: n2 => ->.
- move=> ok hf ha; rewrite /PlotModel.plot_dist h1; cbn [rbind].
  have [k [-> hk]] := py_index_ok ok; cbn [rbind]; rewrite ticksE; cbn [rbind fst snd]; rewrite h3 // h5.
  set ns := nseq _ _.
  have re : reshape1 [seq f p | p <- grid_columns dom aff] ns = Ok (Nd ns [seq f p | p <- grid_columns dom aff]).
    by rewrite /reshape1 !size_map size_tuples eqxx.
  have sz (a b : R) : (size [seq tick a b aff i | i <- iota 0 aff.-1] < 2)%N.
    by rewrite size_map size_iota; case: (aff) ha => [|[|[]]].
  case: hf => -[-> hf].
    have -> : ("pdf" =? "pdf")%string = true by [].
    have [V [-> eV]] := hf (grid_columns dom aff).
    by cbn [rbind]; rewrite eV re; cbn [rbind]; rewrite sz.
  have -> : ("kde" =? "pdf")%string = false by []; have -> : ("kde" =? "kde")%string = true by [].
  by rewrite hf; cbn [rbind]; rewrite re; cbn [rbind]; rewrite sz.
- by move=> n; rewrite /PlotModel.plot_dist C66_grid_errors //; right.
Qed.
End PlotDist.

(** ** Which parameter is drawn *)
Section Which.
Variable R : realFieldType.
Implicit Types (dom : seq (R * R)).

(** What a reader of the plot expects: against the ticks of parameter k, the sums of the
    density over all grid points with that tick, scaled to Riemann sum one. *)
Definition marginal_curve dom (aff : nat) (f : seq R -> R) (k : nat) : seq R * seq R :=
  let iv := nth (0, 0) dom k in
  let S i := slice_sum dom aff f k i in
  ([seq tick iv.1 iv.2 aff i | i <- iota 0 aff.-1],
   [seq S i / (\sum_(j <- iota 0 aff.-1) S j * (`|iv.2 - iv.1| / aff.-1%:R)) | i <- iota 0 aff.-1]).

Definition right_parameter (src : string) (d k : nat) : bool :=
  if (src =? "pdf")%string then (d < 2)%N || (1 < k)%N
  else (d < 3)%N || ((1 < k)%N && (k.*2.+1 == d)).

Lemma drawn_right src d k : (k < d)%N -> (drawn src d k == k) = right_parameter src d k.
Proof.
move=> hk; rewrite /drawn /right_parameter /other; case: (src =? "pdf")%string.
  by case: d k hk => [|[|d]] [|[|k]] //= _; rewrite eqxx.
case: d hk => [|[|[|d]]] hk //; [by case: k hk | by case: k hk => [|[]] | rewrite [RHS]/=].
have e := subnK hk; move: (d.+3 - k.+1)%N e => e E.
have -> : (k.*2.+1 == d.+3) = (e == k) by rewrite -E -addnn addnS eqSS eqn_add2r eq_sym.
case: e k E hk => [|[|e]] [|[|k]] E hk //=.
Qed.

(** C66: plot_dist shows the marginal of the parameter asked for, for every density, exactly
    when [right_parameter]: source pdf draws parameters 0 and 1 exchanged as soon as there are
    two parameters, source kde draws the parameters of three or more in reverse order (with
    exchanged ends). *)
Theorem C66_right_parameter_iff dom k src (aff : nat) : (k < size dom)%N -> (2 < aff)%N ->
  src = "pdf"%string \/ src = "kde"%string -> all (fun p : R * R => p.1 < p.2) dom ->
  (forall pdf kde f, has_density pdf kde src f ->
     plot_dist pdf kde dom k src aff = Ok (marginal_curve dom aff f k)) <->
  right_parameter src (size dom) k.
Proof.
move=> hk ha hs al; split; last first.
  by rewrite -drawn_right // => /eqP e pdf kde f hf; rewrite (C66_plot_dist hk ha hf) e.
rewrite -drawn_right // => H.
pose lo := (nth (0, 0) dom k).1; pose hi := (nth (0, 0) dom k).2.
have /(allP al) lt : nth (0, 0) dom k \in dom by apply: mem_nth.
pose g k' x := if k' == k then x - lo + 1 else 1.
pose f := separable (size dom) g.
pose kde pts := Ok [seq f p | p <- pts]; pose pdf pts := Ok [seq [:: f p] | p <- pts].
have hf : has_density pdf kde src f.
  case: hs => ->; [left | right]; split=> // pts; exists [seq [:: f p] | p <- pts]; split=> //.
  by rewrite -map_comp; apply/eq_map => p /=; rewrite big_seq1.
have E := H _ _ _ hf; case: eqP => // ne; exfalso.
have a1 : (1 < aff.-1)%N by case: (aff) ha => [|[|[]]].
have a0 : (0 : R) < aff.-1%:R by rewrite ltr0n (leq_ltn_trans (leq0n 1)).
pose T k' j := tick (nth (0, 0) dom k').1 (nth (0, 0) dom k').2 aff j.
have T0 j : 0 <= T k j - lo.
  by rewrite /T /tick -/lo addrC addKr mulr_ge0 ?divr_ge0 ?ler0n ?subr_ge0 // ltW.
have g0 k' j : 0 < g k' (T k' j).
  rewrite /g; case: (k' =P k) => [->|_]; last exact: ltr01.
  apply: (@lt_le_trans _ _ 1); first exact: ltr01.
  by rewrite ler_addr.
have pos k' : 0 < \sum_(j <- iota 0 aff.-1) g k' (T k' j).
  rewrite -(prednK (leq_ltn_trans (leq0n 1) a1)) [iota _ _]/= big_cons ltr_paddr //.
  by apply: sumr_ge0 => j _; apply: ltW.
set c := drawn src (size dom) k in ne.
have hc : (c < size dom)%N by apply: drawn_lt.
move: E; rewrite (C66_separable hk ha hf); last by move=> k' _ _; apply/eqP; rewrite gt_eqF // pos.
case=> E.
have nthm (F : nat -> R) i : (i < aff.-1)%N -> nth 0 [seq F j | j <- iota 0 aff.-1] i = F i.
  by move=> h; rewrite (nth_map 0%N) ?size_iota // nth_iota.
have E0 := congr1 (fun s => nth 0 s 0) E; have E1 := congr1 (fun s => nth 0 s 1) E.
rewrite !nthm ?(leq_ltn_trans (leq0n 1) a1) // in E0; rewrite !nthm // in E1.
have gc x : g c x = 1 by rewrite /g; case: eqP.
rewrite gc in E0; rewrite gc E0 in E1; move: E1.
set D := \sum_(_ <- _) _; rewrite !slice_separable // ?(leq_ltn_trans (leq0n 1) a1) //.
set C := \prod_(_ <- _ | _) _.
have C0 : 0 < C by rewrite /C; apply: prodr_gt0 => k' _; apply: pos.
have D0 : 0 < D.
  rewrite /D -mulr_suml mulr_gt0 ?divr_gt0 ?normr_gt0 ?subr_eq0 ?gt_eqF //.
  under eq_big_seq => j.
    rewrite mem_iota add0n => /andP[_ hj]; rewrite slice_separable //; over.
  by rewrite -mulr_suml mulr_gt0 ?pos.
move/(mulIf (invr_neq0 (lt0r_neq0 D0)))/(mulIf (lt0r_neq0 C0)).
rewrite /g eqxx => /addIr/addIr/eqP; rewrite /tick mul0r addr0 mul1r -subr_eq0 opprD addNKr oppr_eq0.
by rewrite mulf_eq0 invr_eq0 (gt_eqF a0) orbF subr_eq0 gt_eqF.
Qed.
End Which.
