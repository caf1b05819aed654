(** Properties C142 and C143: the figures of run_wme_covariance and run_high_dim_linear. *)
Set Warnings "-notation-overridden,-ambiguous-paths".
From Coq Require Import String.
From mathcomp Require Import all_ssreflect all_algebra.
From mathcomp Require Import zify.
From mathcomp.algebra_tactics Require Import ring.
From Verif Require Import Py Nd Spec LinAlg Dmx DmxProofs LgpModel LgpTheory LgpProofs UtilModel2
  LinExModel LinExProps2 LinExProps4 LinExProps5 LinExProps6 LinExProps9 PoisExModel PoisExProps2 CompProps2 EigTheory LinFigModel.
Set Implicit Arguments. Unset Strict Implicit. Unset Printing Implicit Defensive.
Import Order.Theory GRing.Theory Num.Theory.
Local Open Scope ring_scope.

(** ** The labels *)
(** C142: the label of a curve is the number of observations to one digit: a digit d and an
    exponent e with |N - d 10^e| at most half a unit of the digit. *)
Lemma sci_parts_spec N : (0 < N)%N -> exists d e,
  [/\ sci_parts N = (d, e), (1 <= d <= 9)%N, (2 * N <= (2 * d + 1) * 10 ^ e)%N
    & ((2 * d - 1) * 10 ^ e <= 2 * N)%N].
Proof.
move=> N0; have [h1 h2] := andP (trunc_log_bounds (isT : (1 < 10)%N) N0).
rewrite /sci_parts; set e := trunc_log 10 N in h1 h2 *; rewrite /sci_digit.
have E := divn_eq N (10 ^ e); have M := ltn_pmod N (expn_gt0 10 e : (0 < 10 ^ e)%N = _).
have {}M : (N %% 10 ^ e < 10 ^ e)%N by rewrite M.
move: E M h1 h2; set q := (N %/ 10 ^ e)%N; set r := (N %% 10 ^ e)%N; rewrite expnS; move: (10 ^ e)%N => t E M h1 h2.
have q1 : (1 <= q)%N by case: q E h1 => // E; move: M; lia.
have q9 : (q <= 9)%N by nia.
have t0 : (0 < t)%N by lia.
case c: (_ || _).
- have {}c : (t <= 2 * r)%N by case/orP: c => [|/andP []]; lia.
  case: eqP => [q10|n10].
    exists 1%N, e.+1; split=> //; rewrite expnS; last by nia.
    by nia.
  exists q.+1, e; split=> //; nia.
have {}c : (2 * r <= t)%N by move/negbT: c; rewrite negb_or; lia.
have -> : (q == 10)%N = false by lia.
exists q, e; split=> //; nia.
Qed.

(** The text: the digit, "E+", the exponent with at least two digits. *)
Definition sci_text (d e : nat) : string :=
  if (e < 10)%N then (str_int (Posz d) ++ "E+0" ++ str_int (Posz e))%string
  else (str_int (Posz d) ++ "E+" ++ str_int (Posz e))%string.
Lemma sciE N d e : sci_parts N = (d, e) -> sci N = sci_text d e.
Proof. by rewrite /sci /sci_text => ->; case: ifP. Qed.

Theorem C142_labels N : (0 < N)%N -> exists d e,
  [/\ sci N = sci_text d e, (1 <= d <= 9)%N, (2 * N <= (2 * d + 1) * 10 ^ e)%N
    & ((2 * d - 1) * 10 ^ e <= 2 * N)%N].
Proof. by move=> N0; have [d [e [/sciE h h1 h2 h3]]] := sci_parts_spec N0; exists d, e. Qed.

(** Exact for a digit followed by zeros. *)
Theorem C142_label_exact d e : (1 <= d <= 9)%N -> sci (d * 10 ^ e) = sci_text d e.
Proof.
move=> hd; apply: sciE; rewrite /sci_parts.
have p0 : (0 < 10 ^ e)%N by rewrite expn_gt0.
have -> : trunc_log 10 (d * 10 ^ e) = e.
  by apply: trunc_log_eq => //; rewrite expnS; nia.
rewrite /sci_digit mulnK // modnMl muln0 ltn0 /=.
have -> : (0 == 10 ^ e)%N = false by lia.
by have -> : (d == 10)%N = false by lia.
Qed.
(** One digit does not tell the curves apart. *)
Theorem C142_labels_distinct_refuted : exists N N', N != N' /\ sci N = sci N'.
Proof. by exists 15%N, 25%N; split. Qed.

Section Wme.
Variable R : rcfType.
Variable svdvals : dmx R -> seq R.
Variables (G : Type) (reseed : int -> res G) (randn rand : nat -> G -> seq R * G).
Hypothesis rand_size : forall n g, size (rand n g).1 = n.
Hypothesis rand_unit : forall n g x, x \in (rand n g).1 -> 0 <= x < 1.
Notation rwc := (run_wme_covariance reseed randn rand).
Notation figure := (wme_covariance_figure svdvals reseed randn rand).

(** The places 1, 2, ..., n. *)
Definition places (n : nat) : seq R := mkseq (fun i => i.+1%:R) n.
Lemma index_valuesE n : index_values R n = places n.
Proof. by apply: eq_map => i; rewrite -addn1 natrD. Qed.

(** The two artists of the curve number k: rings and a line through the same points. *)
Definition curve_of (f : lfig R) (k : nat) (pts : seq R * seq R) (lbl style : string) : Prop :=
  nth (LNote "" 0 0) (lf_art f) (2 * k) = LScatter pts.1 pts.2 /\
  nth (LNote "" 0 0) (lf_art f) (2 * k).+1 = LLine pts.1 pts.2 lbl style "k".

Lemma nth_pairs A (x0 : A) (a b : nat -> A) n k : (k < n)%N ->
  nth x0 (flatten [seq [:: a j; b j] | j <- iota 0 n]) (2 * k) = a k /\
  nth x0 (flatten [seq [:: a j; b j] | j <- iota 0 n]) (2 * k).+1 = b k.
Proof.
have gen m : (k < n)%N -> nth x0 (flatten [seq [:: a j; b j] | j <- iota m n]) (2 * k) = a (m + k)%N /\
  nth x0 (flatten [seq [:: a j; b j] | j <- iota m n]) (2 * k).+1 = b (m + k)%N.
  elim: n m k => // n ih m [|k] kn; first by rewrite muln0 addn0.
  by have [h1 h2] := ih m.+1 k kn; rewrite mulnS /= h1 h2 addSnnS.
exact: gen.
Qed.

(** C142: for every draw of the generator, a curve per number of observations: the singular values
    of the updated covariance, all positive, so that all appear on the logarithmic axis; the curve
    for more observations is nowhere higher; at least dim_input - dim_output of the values stay
    above 1/2 whatever the number of observations; the others fall at least as fast as 1/N. *)
Theorem C142_figure di do_ sigma Ns seed sp cl g g0 :
  seeded reseed seed g = Ok g0 -> (0 < do_)%N -> Ns != [::] -> all (fun N => 0 < N)%N Ns ->
  (10%:R ^+ 14)^-1 < sigma ->
  (* svdvals is right on the updated covariances *)
  (forall U : 'M[R]_di, (if (rwc di do_ sigma Ns seed g).2 is Ok (_, Us) then List.In (Dmx U) Us else False) ->
     singular_values U (svdvals (Dmx U))) ->
  let mx := foldr maxn 0%N Ns in
  let gl := (rand di g0).2 in
  let gM := gen_at randn rand "norm" (do_ * di) (nseq do_ mx) (randn di gl).2 in
  let M : 'M[R]_(do_, di) := \matrix_(i, j) nth 0 (rand (do_ * di) (gM i)).1 j in
  exists g' p Us f (S : nat -> seq R),
  [/\ rwc di do_ sigma Ns seed g = (g', Ok (p, Us)), figure di do_ sigma Ns seed sp cl g = (g', Ok (p, f)),
      size (lf_art f) = (2 * size Ns)%N /\ (forall k, (k < size Ns)%N ->
        (exists2 U : 'M[R]_di, nth (dzeros 0 0) Us k = Dmx U & singular_values U (S k)) /\
        curve_of f k (places di, S k) ("$N=" ++ sci (nth 0%N Ns k) ++ "$")
          (nth "" [:: "solid"; "dashed"; "dashdot"; "dotted"] (k %% 4))%string),
      [/\ lf_logy f, lf_ticks f = Some (places di), lf_legend f = ByLabel,
          lf_file f = omap (fun d => in_dir d "lin-meas-cov-sd-convergence.png") sp
        & lf_closed f = isSome sp && cl]
    & [/\ forall k j, (k < size Ns)%N -> (j < di)%N -> 0 < nth 0 (S k) j,
          forall k l j, (k < size Ns)%N -> (l < size Ns)%N -> (nth 0 Ns k <= nth 0 Ns l)%N -> (j < di)%N ->
            nth 0 (S l) j <= nth 0 (S k) j,
          forall k j, (k < size Ns)%N -> (j < di - do_)%N -> 2%:R^-1 <= nth 0 (S k) j
        & forall m k j, 0 < m -> (forall z : 'cV[R]_do_, m * sqnorm z <= sqnorm (M^T *m z)) ->
            (k < size Ns)%N -> (di - do_ <= j < di)%N ->
            nth 0 (S k) j <= sigma ^+ 2 / (m * (nth 0%N Ns k)%:R)]].
Proof.
move=> es q0 nN pN hs sv mx gl gM M.
have [g' [p [Us [C [e sU hC _ [hU hm _]]]]]] :=
  @C112_covariances R G reseed randn rand rand_size rand_unit di do_ sigma Ns seed g g0 es q0 nN pN hs.
rewrite -/mx -/gl -/gM -/M in hU; rewrite e /= in sv.
have svdvalsP k (U : 'M[R]_di) : (k < size Ns)%N -> nth (dzeros 0 0) Us k = Dmx U -> singular_values U (svdvals (Dmx U)).
  move=> kN eU; apply: sv; rewrite -eU -sU in kN *; elim: (Us) k kN {eU} => // V s ih [|k] kN; first by left.
  by right; apply: ih.
exists g', p, Us, (wme_cov_fig svdvals di Ns Us sp cl), (fun k => svdvals (nth (dzeros 0 0) Us k)).
have np k : (k < size Ns)%N -> (0 < nth 0 Ns k)%N by move=> kN; exact: (all_nthP 0%N pN).
split=> //.
- by rewrite /wme_covariance_figure e.
- split.
    rewrite /wme_cov_fig /= /wme_cov_art; move: (iota _ _) (size_iota 0 (size Ns)) => s <-.
    by elim: s => //= a s ->; lia.
  move=> k kN; split; first by have [U [eU _ _ _]] := hU k kN; exists U => //; rewrite eU; exact: svdvalsP kN eU.
  rewrite /curve_of /wme_cov_fig /wme_cov_art; cbn [lf_art fst snd].
  by have [-> ->] := @nth_pairs _ (LNote "" (0 : R) 0) (fun j => LScatter (index_values R di) (svdvals (nth (dzeros 0 0) Us j)))
     (fun j => LLine (index_values R di) (svdvals (nth (dzeros 0 0) Us j)) ("$N=" ++ sci (nth 0%N Ns j) ++ "$")%string
                 (nth ""%string wme_styles (j %% 4)) "k") _ _ kN; rewrite index_valuesE.
- rewrite /wme_cov_fig /lsave; cbn [lf_logy lf_ticks lf_legend lf_file lf_closed].
  rewrite index_valuesE; split=> //; case: sp => [d|] //=; congr Some.
  by rewrite /path_join /in_dir; case: (d =? "")%string; case: (d =? ".")%string.
split.
- move=> k j kN jd; have [U [eU pU _ _]] := hU k kN; rewrite eU; exact: singular_pos pU (svdvalsP _ _ kN eU) jd.
- move=> k l j kN lN kl jd; have [U [U' [e1 e2 hp]]] := hm k l kN lN kl.
  have [V [e3 pU _ _]] := hU k kN; have [V' [e4 pU' _ _]] := hU l lN.
  have {e3}? : V = U by apply: Dmx_inj; rewrite -e3.
  have {e4}? : V' = U' by apply: Dmx_inj; rewrite -e4.
  subst V V'; rewrite e1 e2.
  apply: singular_monotone (posdef_psd pU) (posdef_psd pU') (svdvalsP _ _ kN e1) (svdvalsP _ _ lN e2) _ jd => x.
  by case: hp => _ /(_ x); rewrite /quad mulmxBr mulmxBl !mxE subr_ge0.
- move=> k j kN jd; have [U [eU pU hk _]] := hU k kN; rewrite eU.
  apply: (singular_lower (posdef_psd pU) (svdvalsP _ _ kN eU) (P := M *m C) _ jd) => x hx; rewrite hk //.
  case: hC => d -> [hd _]; rewrite quad_diag mulr_sumr; apply: ler_sum => i _.
  by rewrite expr2 ler_wpmul2r -?expr2 ?sqr_ge0 //; case/andP: (hd i).
move=> m k j m0 hM kN jd; have [U [eU pU _ hp]] := hU k kN; rewrite eU.
have inj (z : 'cV[R]_do_) : M^T *m z = 0 -> z = 0.
  move=> hz; apply: sqnorm_eq0P; apply/eqP; rewrite eq_le EigTheory.sqnorm_ge0 andbT.
  by rewrite -(pmulr_rle0 _ m0); apply: le_trans (hM z) _; rewrite hz sqnormE mulmx0 mxE.
have fM : row_free M.
  rewrite -kermx_eq0; apply/rowV0P => v /sub_kermxP hv; apply: trmx_inj; rewrite trmx0; apply: inj.
  by rewrite -trmx_mul hv trmx0.
apply: (singular_upper (posdef_psd pU) (svdvalsP _ _ kN eU) inj _ jd) => z.
have -> : quad U (M^T *m z) = sigma ^+ 2 / (nth 0%N Ns k)%:R * sqnorm z.
  rewrite /quad trmx_mul trmxK -!mulmxA [M *m _]mulmxA [M *m U *m _]mulmxA hp //.
  by rewrite mul_scalar_mx -scalemxAr mxE -sqnormE.
have c0 : 0 < sigma ^+ 2 / (nth 0%N Ns k)%:R.
  by rewrite divr_gt0 ?ltr0n ?np // exprn_gt0 // (lt_trans _ hs) // invr_gt0 exprn_gt0 // ltr0n.
have -> : sigma ^+ 2 / (m * (nth 0%N Ns k)%:R) = sigma ^+ 2 / (nth 0%N Ns k)%:R / m.
  by rewrite invfM mulrA mulrAC.
by rewrite -[X in _ <= X]mulrA ler_pmul2l // -(ler_pmul2l m0) mulrA mulfV ?mul1r // gt_eqF.
Qed.
End Wme.

Section Rate.
Variable R : rcfType.

Lemma inverse_bound n (G : 'M[R]_n) (z : 'cV[R]_n) : posdef G -> sqnorm z <= \tr (invmx G) * quad G z.
Proof.
move=> pG; have uG := posdef_unit pG; have pH := posdef_inv pG; set H := invmx G in pH *.
rewrite mulr_suml; apply: ler_sum => i _; rewrite -expr2.
pose v : 'cV[R]_n := delta_mx i 0; have v0 : v != 0.
  by apply/eqP => /colP/(_ i); rewrite !mxE !eqxx => /eqP; rewrite oner_eq0.
have eH : quad H v = H i i by rewrite /quad /v trmx_delta -rowE -colE !mxE.
have h0 : 0 < H i i by rewrite -eH; case: pH => _; apply.
pose t := z i 0 / H i i; have := (posdef_psd pG).2 (z + - t *: (H *m v)).
have [sG _] := pG; have [sH _] := pH.
have e1 : G *m (H *m v) = v by rewrite mulmxA mulmxV // mul1mx.
have trZ (w : 'cV[R]_n) : (- t *: w)^T = - t *: w^T by apply/matrixP => a b; rewrite !mxE.
have -> : quad G (z + - t *: (H *m v)) = quad G z - t * z i 0.
  rewrite quad_addv // -scalemxAr -mulmxA e1 mxE -colE !mxE.
  have -> : quad G (- t *: (H *m v)) = t ^+ 2 * H i i.
    rewrite /quad trZ -!scalemxAl -scalemxAr scalerA mulrNN -mulmxA e1 trmx_mul sH mxE expr2; congr (_ * _).
    by rewrite -[RHS]eH.
  have alg (h y q : R) : h != 0 -> q + (- (y / h) * y) *+ 2 + (y / h) ^+ 2 * h = q - y / h * y by move=> hn; field.
  by apply: alg; rewrite gt_eqF.
rewrite subr_ge0 /t mulrAC ler_pdivr_mulr // mulrC => h; apply: le_trans h _; exact: lexx.
Qed.

(** Operators with independent rows meet the condition of C142_figure, with an explicit constant:
    the values fall below sigma^2 trace((M M^T)^-1) / N. *)
Theorem C142_rate q n (M : 'M[R]_(q, n)) : (0 < q)%N -> row_free M ->
  let m := (\tr (invmx (M *m M^T)))^-1 in
  0 < m /\ forall z : 'cV[R]_q, m * sqnorm z <= sqnorm (M^T *m z).
Proof.
move=> q0 fM m; have pG : posdef (M *m M^T).
  by have := posdef_sandwich fM (posdef1 R n); rewrite mulmx1.
have [_ pH] := posdef_inv pG.
have t0 : 0 < \tr (invmx (M *m M^T)).
  have h i : 0 < invmx (M *m M^T) i i.
    have := pH (delta_mx i 0); rewrite /quad trmx_delta -rowE -colE !mxE; apply.
    by apply/eqP => /colP/(_ i); rewrite !mxE !eqxx => /eqP; rewrite oner_eq0.
  rewrite /mxtrace (bigD1 (Ordinal q0)) //=; apply: ltr_paddr; last exact: h.
  by apply: sumr_ge0 => i _; apply: ltW.
split; first by rewrite invr_gt0.
move=> z; rewrite mulrC ler_pdivr_mulr // mulrC; apply: le_trans (inverse_bound z pG) _.
by rewrite -[M *m M^T]/(M *m M^T) -[X in X *m M^T]mulmx1 quad_mulT quad1.
Qed.
End Rate.

Section HighDim.
Variable R : rcfType.
Variables (G : Type) (reseed : int -> res G) (randn rand : nat -> G -> seq R * G).
Variable svd : forall m n, 'M[R]_(m, n) -> svd_out R m n.
Notation rhd := (run_high_dim_linear reseed randn rand svd).
Notation figures := (high_dim_figures reseed randn rand svd).
Hypothesis rand_size : forall n g, size (rand n g).1 = n.
Hypothesis rand_unit : forall n g x, x \in (rand n g).1 -> 0 <= x < 1.
Hypothesis svd_size : forall m n (A : 'M[R]_(m, n)), size (sv_s (svd A)) = minn m n.

(** The line of the errors of method j (0 MUD, 1 MAP, 2 least squares) for scaling number a. *)
Definition err_line (t : seq (seq (seq R))) (n a j : nat) : lart R :=
  let pts := mkseq (fun k => entry t a k j) n in
  match j with
  | 0 => LLine (places R n) pts "MUD" "-" "k"
  | 1 => LLine (places R n) pts "MAP" "--" "r"
  | _ => LLine (places R n) pts "LSQ" "-" "xkcd:light blue"
  end.
(** The note beside the end of the MAP line for scaling number a: at the place 100, at the height
    of the last error but not lower than 1/100. *)
Definition err_note (t : seq (seq (seq R))) (n a : nat) (text : string) : lart R :=
  LNote text 100%:R (if entry t a n.-1 1 < 100%:R^-1 then 100%:R^-1 else entry t a n.-1 1).

Lemma dims_axisE n : dims_axis R n = places R n.
Proof.
rewrite /dims_axis /places /mkseq -[1%N]addn0 iotaDl -map_comp; apply: eq_map => i /=.
by rewrite add1n.
Qed.
Lemma err_colE (t : seq (seq (seq R))) n a j : size (nth [::] t a) = n -> err_col t a j = mkseq (fun k => entry t a k j) n.
Proof.
move=> h; apply: (@eq_from_nth _ 0); rewrite size_map ?size_mkseq // h => k hk.
by rewrite (nth_map [::]) ?h // nth_mkseq.
Qed.
Lemma err_noteE (t : seq (seq (seq R))) n a text : (0 < n)%N -> size (nth [::] t a) = n ->
  LNote text 100%:R (Num.max (last 0 (err_col t a 1)) (100%:R^-1)) = err_note t n a text.
Proof.
by move=> n0 h; rewrite (err_colE _ h) -nth_last size_mkseq nth_mkseq ?prednK // /err_note maxEge leNgt; case: ltP.
Qed.

(** C143: what the two figures show, for every draw of the generator.  The names in the legends
    are given to the first three lines drawn: in the first figure least squares is called MAP and
    MAP is called Least Squares; in the second MAP is called MUD and MUD is called MAP. *)
Theorem C143_figures n seed sp cl g g0 : (0 < n)%N -> seeded reseed seed g = Ok g0 ->
  exists g' de re f1 f2,
  [/\ rhd n n seed g = (g', Ok (de, re)), figures n n seed sp cl g = (g', Ok ((de, re), (f1, f2))),
      [/\ lf_art f1 = [:: err_line de n 0 0; err_line de n 0 2;
                          err_line de n 0 1; err_note de n 0 "$\alpha$=1.00E+00";
                          err_line de n 1 1; err_note de n 1 "$\alpha$=1.00E-01";
                          err_line de n 2 1; err_note de n 2 "$\alpha$=1.00E-03"]%string,
          legend_entries f1 = [:: ("MUD", err_line de n 0 0); ("MAP", err_line de n 0 2);
                                  ("Least Squares", err_line de n 0 1)]%string
        & lf_file f1 = omap (fun d => in_dir d "lin-dim-cov-convergence.png") sp],
      [/\ lf_art f2 = [:: err_line re n 0 1; err_note re n 0 "$\alpha$=1.00E+00";
                          err_line re n 1 0; err_line re n 1 2;
                          err_line re n 1 1; err_note re n 1 "$\alpha$=1.00E-01";
                          err_line re n 2 1; err_note re n 2 "$\alpha$=1.00E-03"]%string,
          legend_entries f2 = [:: ("MUD", err_line re n 0 1); ("MAP", err_line re n 1 0);
                                  ("Least Squares", err_line re n 1 2)]%string
        & lf_file f2 = omap (fun d => in_dir d "lin-rank-cov-convergence.png") sp]
    & forall f, f = f1 \/ f = f2 -> [/\ lf_ylim f = Some (0, 1), lf_logy f = false, lf_ticks f = None
        & lf_closed f = isSome sp && cl]].
Proof.
move=> n0 es; have [g' [p [A [b [lam [C [de [re [_ _ e [sd hd] _]]]]]]]]] :=
  @C105_dimension_errors R G reseed randn rand svd rand_size rand_unit svd_size n seed g g0 n0 es.
have [g'' [p' [A' [b' [lam' [C' [de' [re' [_ _ e' [sr hr] _]]]]]]]]] :=
  @C106_rank_errors R G reseed randn rand svd rand_size rand_unit svd_size n seed g g0 n0 es.
move: e'; rewrite e => -[_ _ ?]; subst re'.
have {}hd a : (a < 3)%N -> size (nth [::] de a) = n by move=> ha; have [] := hd a 0%N ha n0.
have {}hr a : (a < 3)%N -> size (nth [::] re a) = n by move=> ha; have [] := hr a 0%N ha n0.
have J d m : path_join d m = in_dir d m by rewrite /path_join /in_dir; case: (d =? "")%string; case: (d =? ".")%string.
exists g', de, re, (high_dim_fig 0 "lin-dim-cov-convergence.png" n de sp cl), (high_dim_fig 1 "lin-rank-cov-convergence.png" n re sp cl).
split=> //.
- by rewrite /high_dim_figures e.
- have ea : lf_art (high_dim_fig 0 "lin-dim-cov-convergence.png" n de sp cl) =
     [:: err_line de n 0 0; err_line de n 0 2;
                          err_line de n 0 1; err_note de n 0 "$\alpha$=1.00E+00";
                          err_line de n 1 1; err_note de n 1 "$\alpha$=1.00E-01";
                          err_line de n 2 1; err_note de n 2 "$\alpha$=1.00E-03"]%string.
    by rewrite /= !(err_noteE _ n0 (hd 0%N isT)) !(err_noteE _ n0 (hd 1%N isT)) !(err_noteE _ n0 (hd 2%N isT)) !(err_colE _ (hd 0%N isT)) !(err_colE _ (hd 1%N isT)) !(err_colE _ (hd 2%N isT)) dims_axisE.
  split=> //; first by rewrite /legend_entries /lines_of ea.
  by rewrite /= /lsave; case: sp {ea} => [d|] //=; rewrite J.
- have ea : lf_art (high_dim_fig 1 "lin-rank-cov-convergence.png" n re sp cl) =
     [:: err_line re n 0 1; err_note re n 0 "$\alpha$=1.00E+00";
                          err_line re n 1 0; err_line re n 1 2;
                          err_line re n 1 1; err_note re n 1 "$\alpha$=1.00E-01";
                          err_line re n 2 1; err_note re n 2 "$\alpha$=1.00E-03"]%string.
    by rewrite /= !(err_noteE _ n0 (hr 0%N isT)) !(err_noteE _ n0 (hr 1%N isT)) !(err_noteE _ n0 (hr 2%N isT)) !(err_colE _ (hr 0%N isT)) !(err_colE _ (hr 1%N isT)) !(err_colE _ (hr 2%N isT)) dims_axisE.
  split=> //; first by rewrite /legend_entries /lines_of ea.
  by rewrite /= /lsave; case: sp {ea} => [d|] //=; rewrite J.
by move=> f [] ->; split=> //; rewrite /= /lsave; case: sp.
Qed.

(** The first figure draws the MUD and least-squares errors once: they are the same for the three
    scalings; the least-squares line is inside the axis and never rises. *)
Theorem C143_first_figure n seed sp cl g g0 : (0 < n)%N -> seeded reseed seed g = Ok g0 ->
  exists g' de re f1 f2, figures n n seed sp cl g = (g', Ok ((de, re), (f1, f2))) /\
  (forall a j, (a < 3)%N -> j = 0%N \/ j = 2%N -> err_line de n a j = err_line de n 0 j) /\
  (forall k, (k < n)%N -> 0 <= entry de 0 k 2 <= 1 /\ ((k.+1 < n)%N -> entry de 0 k.+1 2 <= entry de 0 k 2)).
Proof.
move=> n0 es; have [g' [p [A [b [lam [C [de [re [_ _ e _ [h1 h2 _ _]]]]]]]]]] :=
  @C105_dimension_errors R G reseed randn rand svd rand_size rand_unit svd_size n seed g g0 n0 es.
have [g'' [de' [re' [f1 [f2 [e' ef _ _ _]]]]]] := C143_figures sp cl n0 es.
move: e'; rewrite e => -[? ? ?]; subst g'' de' re'; exists g', de, re, f1, f2; split=> //; split.
- move=> a j ha hj; have E : mkseq (fun k => entry de a k j) n = mkseq (fun k => entry de 0 k j) n.
    by apply/eq_in_map => k; rewrite mem_iota add0n => hk; have [h0 h0'] := h1 a 0%N k ha isT hk; case: hj => ->.
  by rewrite /err_line E.
move=> k hk; have [/andP [-> _] ->] := h2 0%N k k isT (leqnn k) hk; split=> // hk'.
by have [/andP []] := h2 0%N k k.+1 isT (leqnSn k) hk'.
Qed.

(** Only square problems are drawn. *)
Theorem C143_square_only di do_ seed sp cl g g0 : seeded reseed seed g = Ok g0 ->
  ~~ ((0 < di)%N && (di == do_)) -> (figures di do_ seed sp cl g).2 = Err IndexError.
Proof.
move=> es h; have [_ /(_ h)] := @C105_square_only R G reseed randn rand svd rand_size rand_unit svd_size di do_ seed g g0 es.
by rewrite /high_dim_figures; case: (rhd _ _ _ _) => g' [[de re]|er] //= [->].
Qed.
End HighDim.
