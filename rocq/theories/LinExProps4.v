(** Properties C105 and C106: what run_high_dim_linear returns. *)
Set Warnings "-notation-overridden,-ambiguous-paths".
From mathcomp Require Import all_ssreflect all_algebra.
From mathcomp.algebra_tactics Require Import ring.
From Coq Require Import String.
From Verif Require Import Py Nd Spec LinAlg Dmx DmxProofs LgpModel LgpTheory LgpProofs
  FunctionalProofs LinProps LinProps2 LinProps3 WmeModel WmeProps WmeProps2 UtilModel2 UtilProps3
  LinExModel LinExProps LinExProps2 LinExProps3.
Set Implicit Arguments. Unset Strict Implicit. Unset Printing Implicit Defensive.
Import Order.Theory GRing.Theory Num.Theory.
Local Open Scope ring_scope.

Section Bounds.
Variable R : rcfType.

Lemma relerr_mono n (lam x x' : 'cV[R]_n) : sqnorm (x - lam) <= sqnorm (x' - lam) ->
  relerr lam x <= relerr lam x'.
Proof. by move=> h; rewrite /relerr ler_wpmul2r ?invr_ge0 ?sqrtr_ge0 ?ler_wsqrtr. Qed.

Lemma relerr_le n (lam x : 'cV[R]_n) c : 0 <= c -> sqnorm (x - lam) <= c * sqnorm lam ->
  relerr lam x ^+ 2 <= c.
Proof.
move=> c0 h; rewrite /relerr expr_div_n !sqr_sqrtr ?sqnorm_ge0 //.
have := sqnorm_ge0 lam; rewrite le_eqVlt => /orP [/eqP <-|l0]; first by rewrite invr0 mulr0.
by rewrite ler_pdivr_mulr.
Qed.

Lemma relerr0 n (lam : 'cV[R]_n) : relerr lam lam = 0.
Proof. by rewrite /relerr subrr -quad1 quad0 sqrtr0 mul0r. Qed.

Lemma invmx_diag n (d : 'rV[R]_n) : (forall i, d 0 i != 0) ->
  invmx (diag_mx d) = diag_mx (\row_i (d 0 i)^-1).
Proof.
move=> d0; apply: invmx_unique; apply/matrixP => i j; rewrite mul_diag_mx !mxE.
by case: eqP => [->|_]; rewrite ?mulr1n ?mulfV ?mulr0n ?mulr0.
Qed.

Lemma quad_diag n (d : 'rV[R]_n) u : quad (diag_mx d) u = \sum_i d 0 i * u i 0 ^+ 2.
Proof.
rewrite /quad -mulmxA mul_diag_mx !mxE; apply: eq_bigr => i _.
by rewrite !mxE mulrCA expr2.
Qed.

(** With the default covariance the Mahalanobis length is the Euclidean one up to 2/3 and 2. *)
Lemma cov_is_equiv n (C : 'M[R]_n) u : cov_is None C ->
  2%:R / 3%:R * sqnorm u <= quad (invmx C) u /\ quad (invmx C) u <= 2%:R * sqnorm u.
Proof.
case=> d -> [hd _]; have d0 i : 0 < d 0 i.
  by apply: lt_le_trans (proj1 (andP (hd i))); rewrite invr_gt0 ltr0n.
rewrite invmx_diag => [|i]; last by rewrite gt_eqF.
rewrite quad_diag /sqnorm /dotv !mulr_sumr; split; apply: ler_sum => i _;
  rewrite mxE -expr2 ler_wpmul2r ?sqr_ge0 //; have /andP [h1 h2] := hd i.
  rewrite -[X in X <= _]invrK lef_pinv ?posrE ?invr_gt0 ?divr_gt0 ?ltr0n ?d0 // invf_div.
  apply/ltW/(lt_le_trans h2); have -> : 1 + 2%:R^-1 = 3%:R / 2%:R :> R by field.
  exact: lexx.
by rewrite -[X in _ <= X]invrK lef_pinv ?posrE ?invr_gt0 ?ltr0n ?d0.
Qed.
End Bounds.

Section HighDim.
Variable R : rcfType.
Variables (G : Type) (reseed : int -> res G) (randn rand : nat -> G -> seq R * G).
Variable svd : forall m n, 'M[R]_(m, n) -> svd_out R m n.
Notation rlp := (random_linear_problem reseed randn rand).
Notation rhd := (run_high_dim_linear reseed randn rand svd).
Hypothesis rand_size : forall n g, size (rand n g).1 = n.
Hypothesis rand_unit : forall n g x, x \in (rand n g).1 -> 0 <= x < 1.
Hypothesis svd_size : forall m n (A : 'M[R]_(m, n)), size (sv_s (svd A)) = minn m n.

(** The three scalings of the covariance the example tries. *)
Definition alphas : seq R := [:: 1; 10%:R^-1; 1000%:R^-1].

Lemma alphas_gt0 : all (fun a => 0 < a) alphas.
Proof. by rewrite /= ltr01 !invr_gt0 !ltr0n. Qed.

Lemma rhdE di do_ seed g g0 : seeded reseed seed g = Ok g0 ->
  exists g' p (A : 'M[R]_(do_, di)) b lam C,
  [/\ rlp di do_ None None seed g = (g', Ok (Dmx lam, p)),
      inputs p A b (A *m lam + b) 0 C 1, @cov_is R di None C
    & rhd di do_ seed g =
      (g', rs <- rank_decomposition (svd A) ;;
           if (do_ <= size rs)%N
           then Ok ([seq [seq dim_row A b lam 0 C a d | d <- iota 1 do_] | a <- alphas],
                    [seq [seq rank_row b lam 0 C rs a d | d <- iota 1 do_] | a <- alphas])
           else Err IndexError)].
Proof.
move=> es.
have [g' [p [A [b [lam [C [e ip io hC _]]]]]]] :=
  @C103_generates R G reseed randn rand rand_size rand_unit di do_ None None seed g g0 0 es
    erefl (fun c (h : None = Some c) => match h with end).
exists g', p, A, b, lam, C; split=> //.
have pC : posdef C by apply: (cov_is_posdef hC).
rewrite /run_high_dim_linear e; congr pair.
have [eA _ _ _] := ip; rewrite eA; cbn [dr dc dval].
case: (rank_decomposition (svd A)) => [rs|er] //; rewrite -/alphas; cbn [rbind].
by rewrite (alpha_loopE pC rs do_ ip io alphas_gt0) orbF.
Qed.

(** ** C105: it returns only for square problems. *)
Theorem C105_square_only di do_ seed g g0 : seeded reseed seed g = Ok g0 ->
  is_ok (rhd di do_ seed g).2 = (0 < di)%N && (di == do_) /\
  (~~ ((0 < di)%N && (di == do_)) -> (rhd di do_ seed g).2 = Err IndexError).
Proof.
move=> es; have [g' [p [A [b [lam [C [_ _ _ ->]]]]]]] := rhdE di do_ es.
have [h1 h2] := C54_succeeds_iff (svd_size A).
case c: (0 < di <= do_)%N.
  case/andP: c => d0 le; have [rs [-> sr _ _]] := C54_terms (svd_size A) le d0; rewrite /= sr d0 /=.
  rewrite eqn_leq le /=; by case: leqP.
rewrite h2 ?c //=; split=> //.
by apply/esym/negbTE; apply: contraFN c => /andP [-> /eqP ->] /=.
Qed.

(** The reported number: scaling number [a], problem number [k], method [j] (0 MUD, 1 MAP, 2 LS). *)
Definition entry (t : seq (seq (seq R))) (a k j : nat) : R := nth 0 (nth [::] (nth [::] t a) k) j.

Lemma entryE (f : R -> nat -> seq R) n a k j : (a < 3)%N -> (k < n)%N ->
  entry [seq [seq f al d | d <- iota 1 n] | al <- alphas] a k j = nth 0 (f (nth 0 alphas a) k.+1) j.
Proof.
move=> ha hk; rewrite /entry (nth_map 0) // (nth_map 0%N) ?size_iota // nth_iota //.
Qed.

(** What the errors for growing output dimension satisfy, for every draw. *)
Theorem C105_dimension_errors n seed g g0 : (0 < n)%N -> seeded reseed seed g = Ok g0 ->
  exists g' p (A : 'M[R]_n) b lam C de re,
  [/\ rlp n n None None seed g = (g', Ok (Dmx lam, p)),
      inputs p A b (A *m lam + b) 0 C 1, rhd n n seed g = (g', Ok (de, re)),
      (* shape 3 x n x 3 *)
      size de = 3%N /\ (forall a k, (a < 3)%N -> (k < n)%N ->
        size (nth [::] de a) = n /\ size (nth [::] (nth [::] de a) k) = 3%N)
    & [/\ (* MUD and least squares do not depend on the scaling *)
        forall a a' k, (a < 3)%N -> (a' < 3)%N -> (k < n)%N ->
          entry de a k 0 = entry de a' k 0 /\ entry de a k 2 = entry de a' k 2,
        (* least squares: at most 1 and never increasing *)
        forall a k l, (a < 3)%N -> (k <= l)%N -> (l < n)%N ->
          0 <= entry de a l 2 <= entry de a k 2 /\ entry de a k 2 <= 1,
        (* MUD: at most the square root of 3 *)
        forall a k, (a < 3)%N -> (k < n)%N -> entry de a k 0 ^+ 2 <= 3%:R
      & (* exact as soon as the rows used determine the parameter *)
        forall a k, (a < 3)%N -> (k < n)%N ->
          (forall u : 'cV[R]_n, (forall i : 'I_n, (i <= k)%N -> (A *m u) i 0 = 0) -> u = 0) ->
          entry de a k 0 = 0 /\ entry de a k 2 = 0]].
Proof.
move=> n0 es; have [g' [p [A [b [lam [C [e ip hC eh]]]]]]] := rhdE n n es.
have [rs [er sr _ _]] := C54_terms (svd_size A) (leqnn n) n0.
have pC : posdef C by apply: (cov_is_posdef hC).
rewrite er in eh; cbn [rbind] in eh; rewrite sr leqnn in eh; exists g', p, A, b, lam, C; do 2 eexists; split; try eassumption.
- by split=> // a k ha hk; rewrite (nth_map 0) // size_map size_iota (nth_map 0%N) ?size_iota.
have p1 := @posdef1 R n.
split.
- by move=> a a' k ha ha' hk; rewrite !entryE.
- move=> a k l ha kl hl; have hk := leq_ltn_trans kl hl; rewrite !entryE //=.
  have [D eD] := @rowsub_firsts R n n k.+1 l.+1 A kl.
  rewrite !ls_as_mud mulr_ge0 ?invr_ge0 ?sqrtr_ge0 //=; split.
    by apply: relerr_mono; rewrite -!mahal1; apply: nested_err eD.
  have := @relerr_le R n lam (mudx (rowsub (firsts k.+1) A) (rowsub (firsts k.+1) b)
    (rowsub (firsts k.+1) A *m lam + rowsub (firsts k.+1) b) 0 1%:M) 1 ler01.
  rewrite mul1r expr_le1 // ?mulr_ge0 ?invr_ge0 ?sqrtr_ge0 //; apply.
  rewrite -mahal1; apply: le_trans (consistent_le _ _ _ _ p1) _.
  by rewrite mahal1 sub0r -!quad1 quadNv.
- move=> a k ha hk; rewrite entryE //=; apply: relerr_le; first exact: ler0n.
  set x := mudx _ _ _ _ _; have h : mahal C lam x <= mahal C lam 0 := consistent_le _ _ _ _ pC.
  have [h1 _] := cov_is_equiv (x - lam) hC; have [_ h2] := cov_is_equiv (0 - lam) hC.
  have h3 := le_trans h1 (le_trans h h2).
  rewrite -(ler_pmul2l (_ : 0 < 2%:R / 3%:R :> R)) ?divr_gt0 ?ltr0n // mulrA divfK ?pnatr_eq0 //.
  by apply: le_trans h3 _; rewrite sub0r -!quad1 quadNv.
move=> a k ha hk inj; rewrite !entryE //= ls_as_mud.
have inj' (u : 'cV[R]_n) : rowsub (firsts k.+1) A *m u = 0 -> u = 0.
  rewrite mul_rowsub_mx => h; apply: inj => i ik.
  have hi : (i < minn k.+1 n)%N by rewrite leq_min ltnS ik /=.
  have /matrixP/(_ (Ordinal hi) 0) := h; rewrite !mxE => h0; rewrite -[RHS]h0.
  by apply: eq_bigr => j _; congr (A _ _ * _); apply: val_inj.
by rewrite !injective_recovers // relerr0.
Qed.
End HighDim.
