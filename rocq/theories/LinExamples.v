(** Non-vacuity witnesses and refutations for C01-C24. *)
Set Warnings "-notation-overridden,-ambiguous-paths".
From mathcomp Require Import all_ssreflect all_algebra.
From mathcomp.algebra_tactics Require Import ring.
From Coq Require Import String.
From Verif Require Import Py Nd Spec LinAlg Dmx DmxProofs LgpModel LgpTheory LgpProofs
  FunctionalProofs LinProps LinProps2 LinProps3.
Set Implicit Arguments. Unset Strict Implicit. Unset Printing Implicit Defensive.
Import Order.Theory GRing.Theory Num.Theory.
Local Open Scope ring_scope.

Section Small.
Variable R : realFieldType.

(** a 2 x 2 symmetric matrix *)
Definition sym2 (a b c : R) : 'M[R]_2 :=
  \matrix_(i, j) (if i == 0 then (if j == 0 then a else b) else (if j == 0 then b else c)).

Lemma quad_sym2 a b c (u : 'cV[R]_2) :
  quad (sym2 a b c) u = a * u 0 0 ^+ 2 + b * u 0 0 * u 1 0 *+ 2 + c * u 1 0 ^+ 2.
Proof.
rewrite /quad /sym2 !mxE !big_ord_recl big_ord0 !mxE !big_ord_recl !big_ord0 !mxE /=.
have -> : lift ord0 ord0 = 1 :> 'I_2 by apply: val_inj.
by rewrite /= -[u ord0 0]/(u 0 0); ring.
Qed.

Lemma posdef_sym2 a b c : 0 < a -> b ^+ 2 < a * c -> posdef (sym2 a b c).
Proof.
move=> a0 h; split; first by apply/matrixP=> i j; rewrite !mxE; do 2 case: eqP.
move=> u u0; rewrite -(pmulr_rgt0 _ a0) quad_sym2.
have -> : a * (a * u 0 0 ^+ 2 + b * u 0 0 * u 1 0 *+ 2 + c * u 1 0 ^+ 2)
  = (a * u 0 0 + b * u 1 0) ^+ 2 + (a * c - b ^+ 2) * u 1 0 ^+ 2 by ring.
case: (eqVneq (u 1 0) 0) => [e1|n1].
  rewrite e1 mulr0 addr0 expr0n mulr0 addr0 exprn_even_gt0 //=.
  apply: mulf_neq0; first by rewrite gt_eqF.
  apply: contra_neq u0 => e0; apply/matrixP=> i j; rewrite mxE (ord1 j).
  case: i => [[|[|//]] hi]; [rewrite -[RHS]e0 | rewrite -[RHS]e1];
  by congr (u _ _); apply: val_inj.
by rewrite ltr_paddl ?sqr_ge0 // mulr_gt0 ?subr_gt0 // exprn_even_gt0.
Qed.

Lemma posdef_scalar1 (c : R) : 0 < c -> posdef (c%:M : 'M_1).
Proof. by move=> c0; rewrite -scalemx1; apply: posdefZ => //; exact: posdef1. Qed.

End Small.

Notation rat_rF := rat_realFieldType.
(** ** A non-trivial problem meeting every hypothesis used in C01-C16, C20-C24 *)
Definition exA : 'M[rat]_(1, 2) := \matrix_(i, j) (if j == 0 then 1 else 2%:R).
Definition exb : 'cV[rat]_1 := const_mx (1 / 2%:R).
Definition exy : 'cV[rat]_1 := const_mx 3%:R.
Definition exmu : 'cV[rat]_2 := \matrix_(i, j) (if i == 0 then 1 else -1).
Definition exC : 'M[rat]_2 := sym2 2%:R 1 2%:R.
Definition exS : 'M[rat]_1 := (1 / 4%:R)%:M.

Lemma exA_full : row_free exA.
Proof.
apply/row_freeP; exists (\matrix_(i, j) (if i == 0 then 1 else 0)).
apply/matrixP=> i j; rewrite !mxE !big_ord_recl big_ord0 !mxE (ord1 i) (ord1 j) /=.
by rewrite mulr0 !addr0 mulr1.
Qed.

Example ex_problem : exists p : lgp rat_rF,
  [/\ lgp_init (Nd [:: 1; 2]%N [:: 1; 2%:R]) (Some (nd0 (1 / 2%:R))) (Some (nd1 [:: 3%:R]))
        (Some (Nd [:: 2; 1]%N [:: 1; -1])) (Some (Dmx exC)) (Some (Dmx exS)) (Some 2%:R) = Ok p,
      inputs p exA exb exy exmu exC 2%:R, lcovo p = Dmx exS
    & [/\ row_free exA, posdef exC, posdef exS & 0 < 2%:R :> rat]].
Proof.
have h2 : holds2 (Nd [:: 1; 2]%N [:: 1; 2%:R]) exA.
  split=> // i j; rewrite (ord1 i) mxE; case: j => [[|[|//]] hj] //.
have hb : holds1 (nd0 (1 / 2%:R)) exb by split=> // i; rewrite (ord1 i) mxE.
have hy : holds1 (nd1 [:: 3%:R]) exy by split=> // i; rewrite (ord1 i) mxE.
have hm : holds1 (Nd [:: 2; 1]%N [:: 1; -1]) exmu.
  by split=> // i; rewrite mxE; case: i => [[|[|//]] hj].
have [p [e ip eS]] := C21_init_inputs exC exS 2%:R h2 hb hy hm.
exists p; split=> //; split=> //.
- exact: exA_full.
- by apply: posdef_sym2.
- exact: posdef_scalar1.
Qed.

(** The theorems applied to it. *)
Example ex_C01 : exists p x, inputs p exA exb exy exmu exC 2%:R /\ answer p "mud" x
  /\ exA *m x + exb = exy.
Proof.
have [p [_ ip _ [fA pC _ a0]]] := ex_problem.
have [x h1 h2] := C01_mud_reproduces_data ip fA pC a0.
by exists p, x.
Qed.

(** ** Refutations *)

(** C06 fails for rank-deficient A: two rows, one parameter, correlated data. *)
Definition ceA : 'M[rat]_(2, 1) := \matrix_(i, j) (if i == 0 then 1 else 0).
Definition ceS : 'M[rat]_2 := sym2 2%:R 1 2%:R.
Definition cey : 'cV[rat]_2 := \matrix_(i, j) (if i == 0 then 1 else 0).

Lemma ce_pinv : pinv (predcov ceA 1%:M) = ceA *m ceA^T.
Proof.
have e : ceA^T *m ceA = 1%:M.
  apply/matrixP=> i j; rewrite !mxE !big_ord_recl big_ord0 !mxE /= (ord1 i) (ord1 j).
  by rewrite !mulr0 !addr0 mulr1.
have e2 : ceA *m ceA^T *m (ceA *m ceA^T) = ceA *m ceA^T.
  by rewrite mulmxA -[_ *m ceA]mulmxA e mulmx1.
by apply: pinv_unique; rewrite predcovE mulmx1; split; rewrite !e2 // trmx_mul trmxK.
Qed.

Theorem C06_mud_alt_agrees_refuted : exists (p : lgp rat_rF) (x x' : 'cV[rat]_1),
  [/\ inputs p ceA 0 cey 0 1%:M 1, lcovo p = Dmx ceS, posdef ceS,
      answer p "mud" x & answer p "mud_alt" x' /\ x <> x'].
Proof.
pose p := @Lgp rat_rF (Dmx ceA) (Dmx (0 : 'cV_2)) (Dmx cey) (Dmx (0 : 'cV_1)) (Dmx (1%:M : 'M_1))
  (Dmx ceS) 1 None None None None None None.
have ip : inputs p ceA 0 cey 0 1%:M 1 by [].
have pS : posdef ceS by apply: posdef_sym2.
have eS : lcovo p = Dmx ceS by [].
exists p, (mudx ceA 0 cey 0 1%:M), (mudaltx ceA 0 cey 0 1%:M ceS).
split=> //; first exact: (mud_answer ip).
split.
  by rewrite /answer (solve_mud_altE ip (truncate_none_co ip eS) (posdef_unit pS)) /= scale1r.
have e : ceA^T *m ceA = 1%:M.
  apply/matrixP=> i j; rewrite !mxE !big_ord_recl big_ord0 !mxE /= (ord1 i) (ord1 j).
  by rewrite !mulr0 !addr0 mulr1.
have eG : gain ceA 1%:M = ceA^T.
  by rewrite gainE ce_pinv mul1mx mulmxA e mul1mx.
have eU : upcov ceA 1%:M ceS = 2%:R%:M.
  rewrite /upcov eG trmxK predcovE mulmx1 mulmxBr mulmxBl !mulmxA e mul1mx e opprB addrCA subrr addr0.
  apply/matrixP=> i j; rewrite !mxE !big_ord_recl big_ord0 !mxE !big_ord_recl !big_ord0 !mxE.
  by rewrite (ord1 i) (ord1 j).
have eI : invmx ceS = sym2 (2%:R / 3%:R) (- 1 / 3%:R) (2%:R / 3%:R).
  apply: invmx_unique; apply/matrixP=> i j.
  rewrite !mxE !big_ord_recl big_ord0 !mxE.
  by case: i => [[|[|//]] hi]; case: j => [[|[|//]] hj].
rewrite /mudx /mudaltx eG eU eI residE mulmx0 !subr0 => /matrixP /(_ 0 0).
rewrite !mxE !big_ord_recl !big_ord0 !mxE !big_ord_recl !big_ord0 !mxE.
rewrite !big_ord_recl !big_ord0 !mxE /=.
by [].
Qed.

(** C17 fails when b is not zero: the code compares A x + b with y - b. *)
Definition one1 (c : rat) : 'M[rat]_1 := c%:M.
Definition p17 : lgp rat_rF := @Lgp rat_rF (Dmx (one1 1)) (Dmx (one1 1)) (Dmx (one1 1))
  (Dmx (one1 0)) (Dmx (one1 1)) (Dmx (one1 1)) 1 None None None None None None.

Lemma one1_unit c : c != 0 -> one1 c \in unitmx.
Proof. by move=> c0; rewrite unitmxE det_scalar1 unitfE. Qed.
Lemma one1_inv c : c != 0 -> invmx (one1 c) = one1 c^-1.
Proof. by move=> c0; rewrite invmx_scalar. Qed.
Lemma quad_one1 c (u : rat) : quad (one1 c) (one1 u) = u * c * u.
Proof. by rewrite /quad tr_scalar_mx -!scalar_mxM mxE eqxx mulr1n. Qed.
Lemma one1M a b : one1 a *m one1 b = one1 (a * b).
Proof. by rewrite -scalar_mxM. Qed.
Lemma one1D a b : one1 a + one1 b = one1 (a + b).
Proof. by rewrite /one1 raddfD. Qed.
Lemma one1B a b : one1 a - one1 b = one1 (a - b).
Proof. by rewrite /one1 raddfB. Qed.
Lemma one1T a : (one1 a)^T = one1 a.
Proof. exact: tr_scalar_mx. Qed.
Lemma one1_full c : c != 0 -> row_free (one1 c).
Proof. by move=> c0; rewrite row_free_unit one1_unit. Qed.

Lemma cf_one (p : lgp rat_rF) a b y mu c s al x : inputs p (one1 a) (one1 b) (one1 y) (one1 mu)
    (one1 c) al -> lcovo p = Dmx (one1 s) -> a != 0 -> c != 0 -> s != 0 ->
  let d := (a * x + b - (y - b)) * s^-1 * (a * x + b - (y - b)) in
  let r := al * ((x - mu) * c^-1 * (x - mu)) in
  compute_functionals p (Dmx (one1 x)^T) "bayes" = Ok (FArr [:: d + r])
  /\ compute_functionals p (Dmx (one1 x)^T) "dc" = Ok (FArr [:: d]).
Proof.
move=> ip eS a0 c0 s0 d r.
have eP : one1 a *m one1 c *m (one1 a)^T = one1 (a * c * a) by rewrite one1T !one1M.
have p0 : a * c * a != 0 by rewrite !mulf_neq0.
have uP : one1 a *m one1 c *m (one1 a)^T \in unitmx by rewrite eP one1_unit.
have := cf_allE (one1 x)^T ip eS (one1_unit s0) (one1_unit c0) uP.
case=> _ _ -> ->; rewrite !samplewise1 eP !one1_inv // !one1M !(one1D, one1B) !one1M !quad_one1.
split; congr (Ok (FArr [:: _])); rewrite -/d -/r // -addrA; apply/eqP.
rewrite -subr_eq0 [d + _]addrC addrK subr_eq0 /r -subr_eq0 -mulrBr mulf_eq0.
apply/orP; right; rewrite subr_eq0; apply/eqP; field.
by rewrite a0 c0.
Qed.

Theorem C17_dc_minimised_refuted :
  exists (p : lgp rat_rF) (x x' : 'cV[rat]_1) v v',
  [/\ inputs p (one1 1) (one1 1) (one1 1) (one1 0) (one1 1) 1, lcovo p = Dmx (one1 1),
      answer p "mud" x
    & [/\ compute_functionals p (Dmx x^T) "dc" = Ok (FArr [:: v]),
          compute_functionals p (Dmx x'^T) "dc" = Ok (FArr [:: v']) & v' < v]].
Proof.
have ip : inputs p17 (one1 1) (one1 1) (one1 1) (one1 0) (one1 1) 1 by [].
exists p17, (one1 0), (one1 (-1)); do 2 eexists; split=> //.
- rewrite (_ : one1 0 = invmx (one1 1) *m (one1 1 - one1 1)); last first.
    by rewrite subrr mulmx0; apply/matrixP=> i j; rewrite !mxE mul0rn.
  have h : posdef (one1 1) by apply: posdef_scalar1.
  by case: (C14_invertible_map ip erefl (one1_unit _) h h ltr01).
split.
- by have [_ ->] := cf_one 0 ip erefl isT isT isT.
- by have [_ ->] := cf_one (-1) ip erefl isT isT isT.
by [].
Qed.

(** C18 fails when alpha is not 1: the code multiplies the prior misfit by alpha
    while solve('map') scales the prior covariance by alpha. *)
Definition p18 : lgp rat_rF := @Lgp rat_rF (Dmx (one1 1)) (Dmx (one1 0)) (Dmx (one1 1))
  (Dmx (one1 0)) (Dmx (one1 1)) (Dmx (one1 1)) 2%:R None None None None None None.

Theorem C18_bayes_minimised_refuted :
  exists (p : lgp rat_rF) (x x' : 'cV[rat]_1) v v',
  [/\ inputs p (one1 1) (one1 0) (one1 1) (one1 0) (one1 1) 2%:R, lcovo p = Dmx (one1 1),
      answer p "map" x
    & [/\ compute_functionals p (Dmx x^T) "bayes" = Ok (FArr [:: v]),
          compute_functionals p (Dmx x'^T) "bayes" = Ok (FArr [:: v']) & v' < v]].
Proof.
have ip : inputs p18 (one1 1) (one1 0) (one1 1) (one1 0) (one1 1) 2%:R by [].
have h : posdef (one1 1) by apply: posdef_scalar1.
exists p18, (one1 (2%:R / 3%:R)), (one1 (1 / 3%:R)); do 2 eexists; split=> //.
- have := map_answer ip erefl h h (ltr0n _ 2).
  suff -> : mapx (one1 1) (one1 0) (one1 1) (one1 0) (2%:R *: one1 1) (one1 1)
    = one1 (2%:R / 3%:R) by [].
  have eZ : 2%:R *: one1 1 = one1 2%:R by rewrite /one1 scale_scalar_mx mulr1.
  rewrite /mapx /covp /precis residE eZ one1T !(one1_inv, one1M, one1D, one1B) //.
split.
- by have [-> _] := cf_one (2%:R / 3%:R) ip erefl isT isT isT.
- by have [-> _] := cf_one (1 / 3%:R) ip erefl isT isT isT.
by [].
Qed.

(** C22 fails for b: one entry is broadcast over two rows, extra entries are
    dropped; and for cov_o: an oversized one is cut down. *)
Theorem C22_bad_b_accepted_refuted :
  (exists p : lgp rat_rF,
     [/\ lgp_init (Nd [:: 2; 1]%N [:: 1; 1]) (Some (nd1 [:: 5%:R])) (Some (nd1 [:: 1; 2%:R]))
           None None None None = Ok p,
         dr (lb p) = 1%N, dr (lA p) = 2%N & is_ok (solve p "mud" None).2])
  /\ (exists p : lgp rat_rF,
     [/\ lgp_init (Nd [:: 2; 1]%N [:: 1; 1]) (Some (nd1 [:: 5%:R; 6%:R; 7%:R]))
           (Some (nd1 [:: 1; 2%:R])) None None None None = Ok p,
         dr (lb p) = 3%N, dr (lA p) = 2%N & is_ok (solve p "mud" None).2]).
Proof.
split; eexists; split; try by [].
all: by rewrite C22_mud_accepts_iff.
Qed.

Theorem C22_oversized_cov_o_accepted_refuted : exists p : lgp rat_rF,
  [/\ inputs p exA exb exy exmu exC 2%:R, dr (lcovo p) = 2%N /\ dr (lA p) = 1%N
    & is_ok (solve p "map" None).2].
Proof.
pose p := @Lgp rat_rF (Dmx exA) (Dmx exb) (Dmx exy) (Dmx exmu) (Dmx exC)
  (Dmx (1%:M : 'M_2)) 2%:R None None None None None None.
have ip : inputs p exA exb exy exmu exC 2%:R by [].
exists p; split=> //.
have e : tco (truncate p None) = Dmx (1%:M : 'M_1).
  apply: dbuildE => i j; rewrite -[nat_of_ord i]/(nat_of_ord (widen_ord (isT : 1 <= 2)%N i)).
  rewrite -[nat_of_ord j]/(nat_of_ord (widen_ord (isT : 1 <= 2)%N j)) dgetE !mxE.
  by rewrite (ord1 i) (ord1 j).
have pC : posdef (2%:R *: exC) by apply: posdefZ => //; apply: posdef_sym2.
rewrite (solve_mapE ip e) ?unitmx1 ?posdef_unit //.
exact/precis_posdef/posdef1.
Qed.
