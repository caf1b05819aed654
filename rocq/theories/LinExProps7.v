(** Properties C109 (what the MUD point of a LinearWMEProblem is) and C110 (how its updated
    covariance depends on the number of observations). *)
Set Warnings "-notation-overridden,-ambiguous-paths".
From mathcomp Require Import all_ssreflect all_algebra.
From mathcomp.algebra_tactics Require Import ring.
From Coq Require Import String.
From Verif Require Import Py Nd Spec LinAlg Dmx DmxProofs LgpModel LgpTheory LgpProofs
  FunctionalProofs LinProps LinProps2 LinProps3 LinProps4 LinProps5 WmeModel WmeProps WmeProps2 UtilModel2
  LinExModel LinExProps LinExProps2.
Set Implicit Arguments. Unset Strict Implicit. Unset Printing Implicit Defensive.
Import Order.Theory GRing.Theory Num.Theory.
Local Open Scope ring_scope.

Section C109.
Variable R : rcfType.
Variables (ops : seq (dmx R)) (datas : seq (seq R)) (sigma : stdlist R).
Hypothesis ops1 : all (fun op => (0 < dr op)%N) ops.
Notation k := (nqoi ops datas sigma).

(** The entries of a parameter vector. *)
Definition coords n (x : 'cV[R]_n) (j : nat) : R := dget (Dmx x) j 0.

Lemma coordsE n (x : 'cV[R]_n) (j : 'I_n) : coords x j = x j 0.
Proof. by rewrite /coords -[0%N]/(nat_of_ord (0 : 'I_1)) dgetE. Qed.

(** Weighted mean error of quantity [i] at the parameters [x]; their sum of squares. *)
Definition wme_at n (x : 'cV[R]_n) (i : nat) : R :=
  let d := nth [::] datas i in
  @wme_spec R (size d) (predict (nth (dzeros 0 0) ops i) (coords x)) (fun j => nth 0 d j)
    (std_of (std_at sigma i)).
Definition total_wme n (x : 'cV[R]_n) : R := \sum_(i < k) wme_at x i ^+ 2.

(** The covariance argument. *)
Definition covarg_is n (ci : option (dmx R)) (C : 'M[R]_n) : Prop :=
  if ci is Some c then c = Dmx C else C = 1%:M.

Lemma wme_inputs n mean ci co al p (mu : 'cV[R]_n) (C : 'M[R]_n) :
  lwme_init ops datas sigma None mean ci co al = Ok p ->
  mean_is mean mu -> covarg_is ci C -> dc (nth (dzeros 0 0) ops 0) = n ->
  exists (A : 'M[R]_(k, n)) (b : 'cV[R]_k),
    inputs p A b 0 mu C (odflt 1 al) /\
    forall (x : 'cV[R]_n) (i : 'I_k), (A *m x + b) i 0 = wme_at x i.
Proof.
move=> ip hm hc hn.
have es := C28_lwme_same_as_setup ops1 ip.
have [k0 rA rb cb hrow] := C28_one_row_per_qoi ops1 es.
have cA : dc (lA p) = n by rewrite (hrow _ k0).1.
case EA: (lA p) rA cA => [m' n' A] /= e1 e2; subst m' n'.
case Eb: (lb p) rb cb => [m' n' b] /= e1 e2; subst m' n'.
exists A, b; split; last first.
  move=> x i; have [_ /(_ (coords x))] := hrow i (ltn_ord i).
  rewrite /wme_at => <-; rewrite EA Eb !mxE; congr (_ + _).
    by apply: eq_bigr => j _; rewrite dgetE coordsE.
  by rewrite -[0%N]/(nat_of_ord (0 : 'I_1)) dgetE.
have := C28_lwme_default_y datas sigma mean ci co al ops1.
rewrite es ip EA => -[_ _ /= ey]; split; rewrite // ?EA // ?ey.
move: ip; rewrite lwmeE.
case: (rmapM _ _) => [rs|] //=; case: (vstack _) => [A0|] //=; case: (vstack _) => [B|] //=.
rewrite /lgp_init /ndim /= dmx_of_nd eqxx /= => -[ep]; move: EA; rewrite -ep /= => EA.
split=> //.
  case: (mean) hm => [v|->] /=; first by exact: dcol_holds.
  by rewrite EA.
by case: (ci) hc => [c|->] //=; rewrite EA.
Qed.

(** The MUD point minimises the sum of the squared weighted mean errors over all parameters; of
    all minimisers it is the one closest to the initial mean, in the norm of the initial
    covariance. *)
Theorem C109_minimises_wme n mean ci co al p (mu : 'cV[R]_n) (C : 'M[R]_n) :
  lwme_init ops datas sigma None mean ci co al = Ok p ->
  mean_is mean mu -> covarg_is ci C -> dc (nth (dzeros 0 0) ops 0) = n ->
  posdef C -> 0 < odflt 1 al ->
  exists x : 'cV[R]_n,
  [/\ answer p "mud" x, forall x' : 'cV[R]_n, total_wme x <= total_wme x' &
      forall x' : 'cV[R]_n, total_wme x' <= total_wme x ->
        mahal C mu x <= mahal C mu x' /\ (mahal C mu x' <= mahal C mu x -> x' = x)].
Proof.
move=> ip hm hc hn pC a0; have [A [b [hi hw]]] := wme_inputs ip hm hc hn.
have e (x : 'cV[R]_n) : total_wme x = misfit A b 0 x.
  rewrite /total_wme /misfit /sqnorm /dotv; apply: eq_bigr => i _.
  by rewrite subr0 hw expr2.
have [x [ax bx cx]] := C03_mud_closest_best_fit hi pC a0.
exists x; split=> // [x'|x' hx']; rewrite ?e //; apply: cx => x2.
by apply: le_trans (bx x2); rewrite -!e.
Qed.

(** If the weighted mean errors can all be made zero, they are zero at the MUD point. *)
Theorem C109_zero_wme n mean ci co al p (mu : 'cV[R]_n) (C : 'M[R]_n) :
  lwme_init ops datas sigma None mean ci co al = Ok p ->
  mean_is mean mu -> covarg_is ci C -> dc (nth (dzeros 0 0) ops 0) = n ->
  posdef C -> 0 < odflt 1 al ->
  (exists x : 'cV[R]_n, forall i, (i < k)%N -> wme_at x i = 0) ->
  exists2 x : 'cV[R]_n, answer p "mud" x & forall i, (i < k)%N -> wme_at x i = 0.
Proof.
move=> ip hm hc hn pC a0 [x0 h0].
have [x [ax mx _]] := C109_minimises_wme ip hm hc hn pC a0; exists x => // i ik.
have t0 : total_wme x0 = 0 by rewrite /total_wme big1 // => j _; rewrite h0 // expr0n.
have : total_wme x = 0.
  by apply/eqP; rewrite eq_le -{1}t0 mx /=; apply: sumr_ge0 => j _; apply: sqr_ge0.
move/eqP; rewrite psumr_eq0 => [/allP /(_ (Ordinal ik)) |j _]; last exact: sqr_ge0.
by rewrite mem_index_enum => /(_ isT); rewrite sqrf_eq0 => /eqP.
Qed.

(** A quantity observed several times through one row: its weighted mean error is zero exactly
    where the prediction is the mean of the observations. *)
Definition data_mean (d : seq R) : R := (\sum_(j < size d) nth 0 d j) / (size d)%:R.

Lemma wme_at_repeated n (x : 'cV[R]_n) i s :
  dr (nth (dzeros 0 0) ops i) = 1%N -> std_at sigma i = SNum s -> s != 0 ->
  (0 < size (nth [::] datas i))%N ->
  (wme_at x i == 0) =
  (predict (nth (dzeros 0 0) ops i) (coords x) 0 == data_mean (nth [::] datas i)).
Proof.
move=> r1 es s0; set d := nth [::] datas i => d0; rewrite /wme_at /wme_spec -/d es /=.
have N0 : (size d)%:R != 0 :> R by rewrite pnatr_eq0 -lt0n.
rewrite mulf_eq0 invr_eq0 sqrtr_eq0 leNgt ltr0n d0 /= -mulr_suml mulf_eq0 invr_eq0 (negbTE s0) orbF.
rewrite sumrB subr_eq0 /data_mean /predict r1 eqxx sumr_const card_ord -mulr_natr.
by apply/eqP/eqP => [<-|->]; rewrite ?mulfK ?divfK.
Qed.

(** One row per quantity, observed any number of times: if some parameter predicts the mean of
    the observations of each quantity, the MUD point does. *)
Theorem C109_predicts_means n mean ci co al p (mu : 'cV[R]_n) (C : 'M[R]_n) :
  lwme_init ops datas sigma None mean ci co al = Ok p ->
  mean_is mean mu -> covarg_is ci C -> dc (nth (dzeros 0 0) ops 0) = n ->
  posdef C -> 0 < odflt 1 al ->
  (forall i, (i < k)%N -> dr (nth (dzeros 0 0) ops i) = 1%N /\ (0 < size (nth [::] datas i))%N) ->
  let explains (x : 'cV[R]_n) := forall i, (i < k)%N ->
    predict (nth (dzeros 0 0) ops i) (coords x) 0 = data_mean (nth [::] datas i) in
  (exists x, explains x) -> exists2 x, answer p "mud" x & explains x.
Proof.
move=> ip hm hc hn pC a0 h1 explains [x0 hx0].
have es := C28_lwme_same_as_setup ops1 ip.
have hs i : (i < k)%N -> exists2 s, std_at sigma i = SNum s & s != 0.
  move=> ik; have := C28_succeeds_iff datas sigma ops1; rewrite es /= => /esym /and3P [_ /allP h _].
  have := h i; rewrite mem_iota add0n => /(_ ik); rewrite C27_accepts_iff (h1 _ ik).1 /=.
  by case: (std_at _ _) => // s hs; exists s => //; rewrite gt_eqF // (lt_trans (tiny_gt0 R)).
have hw (x : 'cV[R]_n) i : (i < k)%N -> (wme_at x i == 0) =
    (predict (nth (dzeros 0 0) ops i) (coords x) 0 == data_mean (nth [::] datas i)).
  by move=> ik; have [s e s0] := hs i ik; have [r1 d0] := h1 i ik; apply: wme_at_repeated e s0 d0.
have [|x ax wx] := C109_zero_wme ip hm hc hn pC a0.
  by exists x0 => i ik; apply/eqP; rewrite hw //; apply/eqP/hx0.
by exists x => // i ik; apply/eqP; rewrite -hw // wx.
Qed.
End C109.

(** ** C110 *)
Section C110.
Variable R : rcfType.

Lemma gain_coord m n (A : 'M[R]_(m, n)) C (L : 'M[R]_m) : row_free A -> posdef C -> L \in unitmx ->
  gain (L *m A) C = gain A C *m invmx L.
Proof.
move=> fA pC uL.
have uP := predcov_unit fA pC.
have fLA : row_free (L *m A).
  case/row_freeP: fA => B hB; apply/row_freeP; exists (B *m invmx L).
  by rewrite mulmxA -(mulmxA L) hB mulmx1 mulmxV.
have eP : predcov (L *m A) C = L *m predcov A C *m L^T by rewrite !predcovE trmx_mul !mulmxA.
have uLt : L^T \in unitmx by rewrite unitmx_tr.
rewrite !gainE pinv_unit ?predcov_unit // (pinv_unit uP) eP trmx_mul.
apply: (can_inj (mulmxK (_ : L *m predcov A C *m L^T \in unitmx))).
  by rewrite !unitmx_mul uL uP uLt.
by rewrite mulmxKV ?unitmx_mul ?uL ?uP ?uLt // !mulmxA (mulmxKV uL) (mulmxKV uP).
Qed.

Lemma upcov_coord m n (A : 'M[R]_(m, n)) C S (L : 'M[R]_m) : row_free A -> posdef C -> L \in unitmx ->
  upcov (L *m A) C (L *m S *m L^T) = upcov A C S.
Proof.
move=> fA pC uL; have uLt : L^T \in unitmx by rewrite unitmx_tr.
have e : predcov (L *m A) C - L *m S *m L^T = L *m (predcov A C - S) *m L^T.
  by rewrite !predcovE trmx_mul mulmxBr mulmxBl !mulmxA.
rewrite /upcov gain_coord // e trmx_mul trmx_inv; congr (_ - _).
by rewrite !mulmxA (mulmxKV uL) (mulmxK uLt).
Qed.

Variables (ops : seq (dmx R)) (sigma : stdlist R) (sd : nat -> R).
Hypothesis ops1 : forall i, (i < size ops)%N -> dr (nth (dzeros 0 0) ops i) = 1%N.

(** One row per quantity of interest; the rows together. *)
Definition stacked_rows k n : 'M[R]_(k, n) := \matrix_(i, j) dget (nth (dzeros 0 0) ops i) 0 j.
(** The variance of the mean of the observations of each quantity. *)
Definition mean_variances (datas : seq (seq R)) k : 'rV[R]_k :=
  \row_(i < k) (sd i ^+ 2 / (size (nth [::] datas i))%:R).

Lemma ops_pos : all (fun op => (0 < dr op)%N) ops.
Proof. by apply/(all_nthP (dzeros 0 0)) => i hi; rewrite ops1. Qed.

Lemma wme_updated_cov_any datas k n mean ci al p (mu : 'cV[R]_n) (C : 'M[R]_n) :
  lwme_init ops datas sigma None mean ci None al = Ok p ->
  mean_is mean mu -> covarg_is ci C -> dc (nth (dzeros 0 0) ops 0) = n ->
  nqoi ops datas sigma = k ->
  (forall i, (i < k)%N -> std_at sigma i = SNum (sd i) /\ (0 < size (nth [::] datas i))%N) ->
  let d : 'rV[R]_k := \row_(i < k) (Num.sqrt (size (nth [::] datas i))%:R / sd i) in
  (forall i, (i < k)%N -> 0 < sd i) /\
  lgp_updated_cov p None None None = Ok (Dmx (upcov (diag_mx d *m stacked_rows k n) C 1%:M)).
Proof.
move=> ip hm hc hn ek hs; subst k; set k := nqoi ops datas sigma.
have [A [b [hi hw]]] := wme_inputs ops_pos ip hm hc hn.
have es := C28_lwme_same_as_setup ops_pos ip.
have [_ rA _ _ hrow] := C28_one_row_per_qoi ops_pos es.
have hk i : (i < k)%N -> (i < size ops)%N by rewrite /k /nqoi leq_min => /andP [].
have s0 i : (i < k)%N -> 0 < sd i.
  move=> ik; have := C28_succeeds_iff datas sigma ops_pos; rewrite es /= => /esym /and3P [_ /allP h _].
  have := h i; rewrite mem_iota add0n => /(_ ik); rewrite C27_accepts_iff ops1 ?hk //= (hs _ ik).1.
  exact/lt_trans/tiny_gt0.
pose N (i : nat) : R := (size (nth [::] datas i))%:R.
have N0 i : (i < k)%N -> 0 < N i by move=> ik; rewrite ltr0n (hs _ ik).2.
pose d : 'rV[R]_k := \row_(i < k) (Num.sqrt (N i) / sd i).
have eA : A = diag_mx d *m stacked_rows k n.
  apply/matrixP => i j; rewrite mul_diag_mx !mxE.
  have h (x : 'cV[R]_n) : (A *m x) i 0 = Num.sqrt (N i) / sd i * (stacked_rows k n *m x) i 0.
    have -> : (A *m x) i 0 = wme_at ops datas sigma x i - wme_at ops datas sigma (0 : 'cV[R]_n) i.
      by rewrite -!hw mulmx0 add0r [(_ + b) i 0]mxE addrK.
    have pr (z : 'cV[R]_n) m : predict (nth (dzeros 0 0) ops i) (coords z) m = (stacked_rows k n *m z) i 0.
      rewrite /predict ops1 ?hk //= -(hrow i (ltn_ord i)).1.
      have -> : dc (lA p) = n by case: hi => ->.
      by rewrite mxE; apply: eq_bigr => l _; rewrite coordsE !mxE.
    rewrite /wme_at /wme_spec (hs _ (ltn_ord i)).1 /=.
    rewrite -!mulr_suml !sumrB -mulrBr -mulrBl opprB addrA subrK.
    have sp (z : 'cV[R]_n) : \sum_(l < size (nth [::] datas i)) predict (nth (dzeros 0 0) ops i) (coords z) l
        = N i * (stacked_rows k n *m z) i 0.
      by rewrite (eq_bigr (fun=> (stacked_rows k n *m z) i 0)) // sumr_const card_ord mulr_natl.
    rewrite !sp mulmx0 [X in _ - N i * X]mxE mulr0 subr0.
    rewrite -/(N i) !mulrA; have -> : (Num.sqrt (N i))^-1 * N i = Num.sqrt (N i) by apply: sqrtn2.
    by rewrite mulrAC.
  by have := h (delta_mx j 0); rewrite -!colE !mxE.
have [_ _ hU] := updated_covE A C 1%:M.
have [iA _ _ [_ iC _]] := hi.
move=> d'; split=> //; rewrite -[diag_mx d' *m _]eA; apply: (hU p iA iC).
move: iA ip; rewrite lwmeE; clear; move=> iA.
case: (rmapM _ _) => [rs|] //=; case: (vstack _) => [A0|] //=; case: (vstack _) => [B|] //=.
rewrite /lgp_init /ndim /= dmx_of_nd eqxx /= => -[ep].
by move: iA; rewrite -ep /= => ->.
Qed.

Lemma wme_updated_cov datas k n mean ci al p (mu : 'cV[R]_n) (C : 'M[R]_n) :
  lwme_init ops datas sigma None mean ci None al = Ok p ->
  mean_is mean mu -> covarg_is ci C -> dc (nth (dzeros 0 0) ops 0) = n ->
  nqoi ops datas sigma = k ->
  (forall i, (i < k)%N -> std_at sigma i = SNum (sd i) /\ (0 < size (nth [::] datas i))%N) ->
  row_free (stacked_rows k n) -> posdef C ->
  lgp_updated_cov p None None None
  = Ok (Dmx (upcov (stacked_rows k n) C (diag_mx (mean_variances datas k)))).
Proof.
move=> ip hm hc hn ek hs fM pC; have [s0 ->] := wme_updated_cov_any ip hm hc hn ek hs.
pose N (i : nat) : R := (size (nth [::] datas i))%:R.
have N0 i : (i < k)%N -> 0 < N i by move=> ik; rewrite ltr0n (hs _ ik).2.
set d := \row_(i < k) _.
have uD : diag_mx d \in unitmx.
  rewrite unitmxE det_diag unitfE; apply/prodf_neq0 => i _.
  by rewrite mxE mulf_neq0 // ?invr_eq0 gt_eqF ?sqrtr_gt0 ?N0 ?s0.
have e1 : diag_mx d *m diag_mx (mean_variances datas k) *m (diag_mx d)^T = 1%:M.
  rewrite tr_diag_mx !mulmx_diag; apply/matrixP => i j; rewrite !mxE.
  case: (i == j) => //; rewrite !mulr1n -/(N i).
  have hN : Num.sqrt (N i) ^+ 2 = N i by rewrite sqr_sqrtr // ltW ?N0.
  have n0 : N i != 0 by rewrite gt_eqF ?N0.
  have z0 : sd i != 0 by rewrite gt_eqF ?s0.
  rewrite -{2}hN; have q0 : Num.sqrt (N i) != 0 by rewrite gt_eqF ?sqrtr_gt0 ?N0.
  by field; rewrite z0 q0.
by rewrite -e1 (upcov_coord _ fM pC uD).
Qed.

(** One deviation and one number of observations for all the quantities: no condition on the rows. *)
Lemma upcov_scale m n (A : 'M[R]_(m, n)) C S a : a != 0 -> upcov (a *: A) C (a ^+ 2 *: S) = upcov A C S.
Proof.
move=> a0; have trZ p q (B : 'M[R]_(p, q)) c : (c *: B)^T = c *: B^T by apply/matrixP => i j; rewrite !mxE.
have eP : predcov (a *: A) C = a ^+ 2 *: predcov A C.
  by rewrite !predcovE trZ -!scalemxAl -scalemxAr scalerA expr2.
have eK : gain (a *: A) C = a^-1 *: gain A C.
  rewrite !gainE eP pinv_scale ?expf_neq0 // trZ -[C *m (a *: _)]scalemxAr -!scalemxAl -!scalemxAr !scalerA.
  by congr (_ *: _); field.
rewrite /upcov eK eP -scalerBr trZ -!scalemxAr -!scalemxAl !scalerA; congr (_ - _).
by rewrite -[RHS]scale1r -?scalemxAl ?scalerA; congr (_ *: _); field.
Qed.

Lemma wme_updated_cov_uniform datas k n mean ci al p (mu : 'cV[R]_n) (C : 'M[R]_n) s N :
  lwme_init ops datas sigma None mean ci None al = Ok p ->
  mean_is mean mu -> covarg_is ci C -> dc (nth (dzeros 0 0) ops 0) = n ->
  nqoi ops datas sigma = k -> (0 < N)%N -> 0 < s ->
  (forall i, (i < k)%N -> [/\ std_at sigma i = SNum (sd i), sd i = s & size (nth [::] datas i) = N]) ->
  lgp_updated_cov p None None None = Ok (Dmx (upcov (stacked_rows k n) C (s ^+ 2 / N%:R)%:M)).
Proof.
move=> ip hm hc hn ek N0 s0 hs.
have [i hi|_ ->] := wme_updated_cov_any ip hm hc hn ek; first by have [-> _ ->] := hs i hi.
set d := \row_(i < k) _; pose a := Num.sqrt (N%:R : R) / s.
have q0 : Num.sqrt (N%:R : R) != 0 by rewrite gt_eqF // sqrtr_gt0 ltr0n.
have a0 : a != 0 by rewrite mulf_neq0 ?invr_eq0 // gt_eqF.
have -> : diag_mx d *m stacked_rows k n = a *: stacked_rows k n.
  by apply/matrixP => i j; rewrite mul_diag_mx !mxE; have [_ -> ->] := hs i (ltn_ord i).
rewrite -[in RHS](upcov_scale _ _ _ a0) scale_scalar_mx.
have -> : a ^+ 2 * (s ^+ 2 / N%:R) = 1 :> R.
  rewrite /a expr_div_n sqr_sqrtr ?ler0n // mulrA divfK ?expf_neq0 ?gt_eqF // mulfV // pnatr_eq0.
  by rewrite -lt0n.
by [].
Qed.

(** The updated covariance predicts, for each quantity, the variance of the mean of its
    observations, and no correlation between quantities. *)
Theorem C110_predicted_variance datas n mean ci al p (mu : 'cV[R]_n) (C : 'M[R]_n) :
  let k := nqoi ops datas sigma in
  lwme_init ops datas sigma None mean ci None al = Ok p ->
  mean_is mean mu -> covarg_is ci C -> dc (nth (dzeros 0 0) ops 0) = n ->
  (forall i, (i < k)%N -> std_at sigma i = SNum (sd i) /\ (0 < size (nth [::] datas i))%N) ->
  row_free (stacked_rows k n) -> posdef C ->
  exists2 U, lgp_updated_cov p None None None = Ok (Dmx U) &
    forall i j : 'I_k, (stacked_rows k n *m U *m (stacked_rows k n)^T) i j
      = if i == j then sd i ^+ 2 / (size (nth [::] datas i))%:R else 0.
Proof.
move=> k ip hm hc hn hs fM pC.
eexists; first exact: (wme_updated_cov ip hm hc hn erefl hs fM pC).
by move=> i j; rewrite upcov_push // !mxE; case: (i == j).
Qed.

(** More observations of some quantities never give a larger updated covariance. *)
Theorem C110_more_data datas datas' n mean mean' ci al al' p p' (mu mu' : 'cV[R]_n) (C : 'M[R]_n) :
  let k := nqoi ops datas sigma in
  lwme_init ops datas sigma None mean ci None al = Ok p ->
  lwme_init ops datas' sigma None mean' ci None al' = Ok p' ->
  mean_is mean mu -> mean_is mean' mu' -> covarg_is ci C -> dc (nth (dzeros 0 0) ops 0) = n ->
  size datas' = size datas ->
  (forall i, (i < k)%N -> std_at sigma i = SNum (sd i) /\
     (0 < size (nth [::] datas i) <= size (nth [::] datas' i))%N) ->
  row_free (stacked_rows k n) -> posdef C ->
  exists U U' : 'M[R]_n,
  [/\ lgp_updated_cov p None None None = Ok (Dmx U),
      lgp_updated_cov p' None None None = Ok (Dmx U') & psd (U - U')].
Proof.
move=> k ip ip' hm hm' hc hn ed hs fM pC.
have hs1 i : (i < k)%N -> std_at sigma i = SNum (sd i) /\ (0 < size (nth [::] datas i))%N.
  by move=> ik; have [-> /andP []] := hs i ik.
have hs2 i : (i < k)%N -> std_at sigma i = SNum (sd i) /\ (0 < size (nth [::] datas' i))%N.
  by move=> ik; have [-> /andP [h1 h2]] := hs i ik; split=> //; apply: leq_trans h2.
have ek : nqoi ops datas' sigma = k by rewrite /k /nqoi /nstd ed.
have := wme_updated_cov ip hm hc hn erefl hs1 fM pC; rewrite -/k => eU.
have eU' := wme_updated_cov ip' hm' hc hn ek hs2 fM pC.
exists (upcov (stacked_rows k n) C (diag_mx (mean_variances datas k))).
exists (upcov (stacked_rows k n) C (diag_mx (mean_variances datas' k))); split; [exact: eU|exact: eU'|].
have h : psd (diag_mx (mean_variances datas k) - diag_mx (mean_variances datas' k)).
  rewrite -linearB /=; split; first by rewrite tr_diag_mx.
  move=> u; rewrite /quad mul_mx_diag mxE; apply: sumr_ge0 => i _; rewrite !mxE mulrAC.
  rewrite -expr2; apply: mulr_ge0; first exact: sqr_ge0.
  have [_ /andP [d0 d1]] := hs i (ltn_ord i).
  rewrite subr_ge0 ler_wpmul2l ?sqr_ge0 // lef_pinv ?posrE ?ltr0n ?ler_nat //.
  exact: leq_trans d1.
have [U1 [U2 [r1 r2]]] := C80_updated_cov_monotone (stacked_rows k n) C h.
have [f1 _ _] := @updated_covE R k n (stacked_rows k n) C (diag_mx (mean_variances datas' k)).
have [f2 _ _] := updated_covE (stacked_rows k n) C (diag_mx (mean_variances datas k)).
case: r1 r2 => r1 _ _ [r2 _ _]; rewrite r1 in f1; rewrite r2 in f2.
have g1 := Dmx_inj (Ok_inj f1); have g2 := Dmx_inj (Ok_inj f2).
by rewrite -g1 -g2.
Qed.
End C110.
