(** Property C106: the errors run_high_dim_linear reports for growing rank. *)
Set Warnings "-notation-overridden,-ambiguous-paths".
From mathcomp Require Import all_ssreflect all_algebra.
From Coq Require Import String.
From Verif Require Import Py Nd Spec LinAlg Dmx DmxProofs LgpModel LgpTheory LgpProofs
  FunctionalProofs LinProps LinProps2 LinProps3 WmeModel WmeProps WmeProps2 UtilModel2 UtilProps3
  LinExModel LinExProps LinExProps2 LinExProps3 LinExProps4.
Set Implicit Arguments. Unset Strict Implicit. Unset Printing Implicit Defensive.
Import Order.Theory GRing.Theory Num.Theory.
Local Open Scope ring_scope.

Section Masked.
Variable R : rcfType.
Variables (n : nat) (U V : 'M[R]_n) (e : 'rV[R]_n).
Hypothesis uU : U^T *m U = 1%:M.
Hypothesis uV : V *m V^T = 1%:M.
Let B := U *m diag_mx e *m V^T.

Lemma sqnorm_orth u : sqnorm (V^T *m u) = sqnorm u.
Proof. by rewrite -!quad1 -[LHS]quad_mul trmxK mulmx1 uV. Qed.

Lemma masked_err b lam : sqnorm (lsx B b (B *m lam + b) - lam) =
  \sum_(i | e 0 i == 0) ((V^T *m lam) i 0) ^+ 2.
Proof.
set x := lsx _ _ _; rewrite -sqnorm_orth /sqnorm /dotv.
have hx i : (V^T *m (x - lam)) i 0 = if e 0 i == 0 then - (V^T *m lam) i 0 else 0.
  case: eqP => [e0|/eqP e0].
    rewrite mulmxBr mxDE mxNE [X in X - _](_ : _ = 0) ?sub0r //.
    rewrite /x ls_as_mud /mudx add0r gainE mul1mx /B !trmx_mul trmxK tr_diag_mx !mulmxA.
    have -> : V^T *m V = 1%:M by exact: mulmx1C.
    by rewrite mul1mx -![diag_mx e *m _ *m _]mulmxA mul_diag_mx mxE e0 mul0r.
  have : B *m (x - lam) = 0.
    by rewrite mulmxBr /x ls_as_mud consistent_fit ?subrr //; apply: posdef1.
  move/(congr1 (mulmx U^T)); rewrite mulmx0 /B !mulmxA uU mul1mx -!mulmxA mul_diag_mx.
  by move/matrixP/(_ i 0); rewrite !mxE => /eqP; rewrite mulf_eq0 (negbTE e0) /= => /eqP.
rewrite [RHS]big_mkcond /=; apply: eq_bigr => i _; rewrite hx.
by case: ifP => _; rewrite ?mulrNN ?mulr0 // expr2.
Qed.
End Masked.

Section Ranks.
Variable R : rcfType.
Variables (G : Type) (reseed : int -> res G) (randn rand : nat -> G -> seq R * G).
Variable svd : forall m n, 'M[R]_(m, n) -> svd_out R m n.
Notation rlp := (random_linear_problem reseed randn rand).
Notation rhd := (run_high_dim_linear reseed randn rand svd).
Hypothesis rand_size : forall n g, size (rand n g).1 = n.
Hypothesis rand_unit : forall n g x, x \in (rand n g).1 -> 0 <= x < 1.
Hypothesis svd_size : forall m n (A : 'M[R]_(m, n)), size (sv_s (svd A)) = minn m n.

(** The terms in "rank" problem number k: only the first for k = 0, otherwise the terms 1 to k. *)
Definition in_rank (k i : nat) : bool := if k == 0%N then i == 0%N else (0 < i <= k)%N.

(** The coordinate of [lam] along column [i] of the matrix [V]. *)
Definition coord n (V : 'M[R]_n) (lam : 'cV[R]_n) (i : 'I_n) : R := \sum_j V j i * lam j 0.

Lemma sum_term n (d : svd_out R n n) (s : 'I_n -> bool) :
  \sum_(i | s i) term d (leqnn n) i =
  sv_u d *m diag_mx (\row_i (if s i then nth 0 (sv_s d) i else 0)) *m (sv_vh d)^T.
Proof.
apply/matrixP => a b; rewrite summxE mxE [LHS]big_mkcond; apply: eq_bigr => i _.
rewrite mul_mx_diag !mxE; case: ifP => _; last by rewrite mulr0 mul0r.
rewrite big_ord1 !mxE (_ : widen_ord _ i = i); last exact: val_inj.
by rewrite mulrA [nth _ _ _ * _]mulrC.
Qed.

Theorem C106_rank_errors n seed g g0 : (0 < n)%N -> seeded reseed seed g = Ok g0 ->
  exists g' p (A : 'M[R]_n) b lam C de re,
  [/\ rlp n n None None seed g = (g', Ok (Dmx lam, p)),
      inputs p A b (A *m lam + b) 0 C 1, rhd n n seed g = (g', Ok (de, re)),
      size re = 3%N /\ (forall a k, (a < 3)%N -> (k < n)%N ->
        size (nth [::] re a) = n /\ size (nth [::] (nth [::] re a) k) = 3%N)
    & is_svd A (svd A) ->
      [/\ forall a a' k, (a < 3)%N -> (a' < 3)%N -> (k < n)%N ->
          entry re a k 0 = entry re a' k 0 /\ entry re a k 2 = entry re a' k 2,
        forall a k, (a < 3)%N -> (k < n)%N -> entry re a k 0 ^+ 2 <= 3%:R,
        (* least squares misses exactly the terms not in problem number k *)
        lam != 0 -> forall a k, (a < 3)%N -> (k < n)%N -> 0 <= entry re a k 2 /\
          entry re a k 2 ^+ 2 * sqnorm lam =
          \sum_(i < n | ~~ (in_rank k i && (nth 0 (sv_s (svd A)) i != 0)))
             coord (sv_vh (svd A)) lam i ^+ 2
      & (* so the errors decrease from the second problem on, and for an invertible operator the
           first and the last error are complementary: the last one is not 0 *)
        lam != 0 -> forall a, (a < 3)%N ->
          (forall k l, (0 < k <= l)%N -> (l < n)%N -> entry re a l 2 <= entry re a k 2) /\
          (A \in unitmx -> (1 < n)%N -> entry re a 0 2 ^+ 2 + entry re a n.-1 2 ^+ 2 = 1)]].
Proof.
move=> n0 es.
have [g' [p [A [b [lam [C [e ip hC eh]]]]]]] :=
  @rhdE R G reseed randn rand svd rand_size rand_unit n n seed g g0 es.
have [rs [er sr r0 rk]] := C54_terms (svd_size A) (leqnn n) n0.
have pC : posdef C by apply: (cov_is_posdef hC).
rewrite er in eh; cbn [rbind] in eh; rewrite sr leqnn in eh.
exists g', p, A, b, lam, C; do 2 eexists; split; try eassumption.
- by split=> // a k ha hk; rewrite (nth_map 0) // size_map size_iota (nth_map 0%N) ?size_iota.
move=> [eA uU vV ss [so s0]]; set d := svd A in rk r0 uU vV ss so s0 eA *.
pose E k : 'rV[R]_n := \row_i (if in_rank k i then nth 0 (sv_s d) i else 0).
have eB k : (k < n)%N -> nth 0 rs k = sv_u d *m diag_mx (E k) *m (sv_vh d)^T.
  move=> hk; rewrite /E -sum_term; case: k hk => [|k] hk; last by rewrite rk.
  rewrite (r0 (Ordinal n0)) // (bigD1 (Ordinal n0)) //= big1 ?addr0 // => i /andP [/eqP i0].
  by rewrite -val_eqE /= i0.
have eE k i : (E k 0 i == 0) = ~~ (in_rank k i && (nth 0 (sv_s d) i != 0)).
  by rewrite mxE; case: (in_rank k i); rewrite ?negbK // eqxx.
have key a k : (a < 3)%N -> (k < n)%N ->
    entry [seq [seq rank_row b lam 0 C rs a d | d <- iota 1 n] | a <- alphas R] a k 2
    = relerr lam (lsx (nth 0 rs k) b (nth 0 rs k *m lam + b)).
  by move=> ha hk; rewrite entryE.
have ge0 x : 0 <= relerr lam x by rewrite mulr_ge0 ?invr_ge0 ?sqrtr_ge0.
have co i : coord (sv_vh d) lam i = ((sv_vh d)^T *m lam) i 0.
  by rewrite mxE; apply: eq_bigr => j _; rewrite mxE.
have sq k : lam != 0 -> (k < n)%N ->
    relerr lam (lsx (nth 0 rs k) b (nth 0 rs k *m lam + b)) ^+ 2 * sqnorm lam =
    \sum_(i < n | ~~ (in_rank k i && (nth 0 (sv_s d) i != 0))) coord (sv_vh d) lam i ^+ 2.
  move=> l0 hk; have l0' : sqnorm lam != 0 by rewrite sqnorm_eq0.
  rewrite /relerr expr_div_n !sqr_sqrtr ?sqnorm_ge0 // divfK // eB // masked_err //.
  by apply: eq_big => [i|i _]; rewrite ?eE ?co.
split.
- by move=> a a' k ha ha' hk; rewrite !entryE.
- move=> a k ha hk; rewrite entryE //=; apply: relerr_le; first exact: ler0n.
  set x := mudx _ _ _ _ _; have h : mahal C lam x <= mahal C lam 0 := consistent_le _ _ _ _ pC.
  have [h1 _] := cov_is_equiv (x - lam) hC; have [_ h2] := cov_is_equiv (0 - lam) hC.
  have h3 := le_trans h1 (le_trans h h2).
  rewrite -(ler_pmul2l (_ : 0 < 2%:R / 3%:R :> R)) ?divr_gt0 ?ltr0n // mulrA divfK ?pnatr_eq0 //.
  by apply: le_trans h3 _; rewrite sub0r -!quad1 quadNv.
- by move=> l0 a k ha hk; rewrite key // sq.
move=> l0 a ha; have lp : 0 < sqnorm lam by rewrite sqnorm_gt0.
split=> [k l /andP [k0 kl] hl|uA n1].
  have hk := leq_ltn_trans kl hl; rewrite !key // -(ler_pexpn2r (_ : 0 < 2)%N) ?nnegrE //.
  rewrite -(ler_pmul2r lp) !sq // [X in X <= _]big_mkcond [X in _ <= X]big_mkcond /=.
  apply: ler_sum => i _; have -> : in_rank k i = (0 < i <= k)%N by rewrite /in_rank gtn_eqF.
  have -> : in_rank l i = (0 < i <= l)%N by rewrite /in_rank gtn_eqF // (leq_trans k0).
  case: (nth 0 (sv_s d) i != 0); rewrite ?andbF ?andbT //=.
  case: (0 < i)%N => //=; case: (leqP i k) => ik /=; first by rewrite (leq_trans ik kl).
  by case: (leqP i l) => //= _; apply: sqr_ge0.
have hn : (n.-1 < n)%N by rewrite prednK.
rewrite !key //; apply: (mulIf (lt0r_neq0 lp)); rewrite mul1r mulrDl !sq //.
have sn0 (i : 'I_n) : nth 0 (sv_s d) i != 0.
  apply: contraTneq uA => si; rewrite eA.
  suff : \det (sv_u d *m diag_of n n (sv_s d) *m sv_vh d) == 0 by rewrite unitmxE unitfE => ->.
  rewrite !det_mulmx; suff -> : \det (diag_of n n (sv_s d)) = 0 by rewrite mulr0 mul0r.
  have -> : diag_of n n (sv_s d) = diag_mx (\row_i nth 0 (sv_s d) i).
    by apply/matrixP => a1 a2; rewrite !mxE -val_eqE; case: eqP.
  by rewrite det_diag; apply/eqP/prodf_eq0; exists i; rewrite // mxE si.
rewrite -[RHS](sqnorm_orth vV) /sqnorm /dotv.
rewrite [RHS](bigID (fun i : 'I_n => i == Ordinal n0)) /= addrC; congr (_ + _).
  apply: eq_big => [i|i _]; last by rewrite co expr2.
  rewrite sn0 andbT /in_rank -val_eqE /=; case: eqP => [e1|_].
    by have := prednK n0; rewrite e1 => e2; move: (n1); rewrite -{1}e2.
  by case: (posnP i) => [->//|i0] /=; rewrite -ltnS prednK // ltn_ord.
by apply: eq_big => [i|i _]; [rewrite sn0 andbT /in_rank -val_eqE | rewrite co expr2].
Qed.
End Ranks.
