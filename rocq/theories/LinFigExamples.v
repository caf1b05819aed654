(** Concrete cases meeting the hypotheses of the theorems of LinFigProps. *)
Set Warnings "-notation-overridden,-ambiguous-paths".
From Coq Require Import String.
From mathcomp Require Import all_ssreflect all_algebra.
From mathcomp.algebra_tactics Require Import ring.
From Verif Require Import Py Nd Spec LinAlg Dmx DmxProofs LgpModel LgpTheory LgpProofs UtilModel2
  LinExModel LinExProps2 LinExProps4 LinExProps5 LinExProps6 LinExProps9 LinExExamples EigTheory LinFigModel LinFigProps.
Set Implicit Arguments. Unset Strict Implicit. Unset Printing Implicit Defensive.
Import Order.Theory GRing.Theory Num.Theory.
Local Open Scope ring_scope.

(** Labels: half to even, a carry, exact ones. *)
Example ex_C142_labels : [/\ sci 15 = "2E+01", sci 96 = "1E+02", sci 94 = "9E+01" & sci 7 = "7E+00"]%string.
Proof. by split. Qed.
Example ex_C142_label12 e : e = 12%N -> sci (1 * 10 ^ e) = "1E+12"%string.
Proof. by move=> he; rewrite C142_label_exact // he. Qed.

Section Ex.
Variable R : rcfType.

(** The singular values of a diagonal matrix in decreasing order. *)
Definition diag_vals (U : dmx R) : seq R := mkseq (fun i => dget U i i) (dr U).

Lemma ex_sing (c : R) : 0 <= c -> singular_values (c%:M : 'M[R]_2) (diag_vals (Dmx (c%:M : 'M[R]_2))).
Proof.
move=> c0; have e : diag_vals (Dmx (c%:M : 'M[R]_2)) = [:: c; c].
  rewrite /diag_vals /mkseq /=; congr [:: _; _].
    by rewrite -[0%N]/(nat_of_ord (0 : 'I_2)) dgetE mxE eqxx.
  by rewrite -[1%N]/(nat_of_ord (1 : 'I_2)) dgetE mxE eqxx.
rewrite e; split; rewrite /= ?lexx ?c0 //; exists 1%:M, 1%:M; rewrite trmx1 !mul1mx mulmx1; split=> //.
by apply/matrixP => i j; rewrite !mxE; case: i j => [[|[|//]] hi] [[|[|//]] hj].
Qed.

(** C142: the run of ex_C112: M = I / 2, the updated covariances are 4 I and 4/3 I. *)
Theorem C142_example : exists g' p f M,
  [/\ wme_covariance_figure diag_vals xseed (@xrandn R) (@xrand2 R) 2 2 1 [:: 1; 3]%N None (Some "out"%string) true 0%N = (g', Ok (p, f)),
      row_free (M : 'M[R]_2), size (lf_art f) = 4%N &
      lf_file f = Some "out/lin-meas-cov-sd-convergence.png"%string].
Proof.
have hs : (10%:R ^+ 14)^-1 < 1 :> R by rewrite invf_lt1 ?exprn_gt0 ?ltr0n // exprn_egt1 // ltr1n.
have [g' [p [Us [C [e sU _ _ [hU _ _]]]]]] := @C112_covariances R nat xseed (@xrandn R) (@xrand2 R) (@xrand2_size R) (@xrand2_unit R)
  2 2 1 [:: 1; 3]%N None 0%N 0%N erefl isT isT isT hs.
set M := (X in row_free X) in hU.
have eM : M = (2%:R^-1)%:M.
  by apply/matrixP => [[[|[|//]] hi] [[|[|//]] hj]]; rewrite !mxE /= ?mulr1n ?mulr0n.
have h2 : 2%:R != 0 :> R by rewrite pnatr_eq0.
have fM : row_free M by rewrite eM row_free_unit unitmxE det_scalar unitfE expf_neq0 // invr_eq0.
have eU k : (k < 2)%N -> exists2 c : R, 0 <= c & nth (dzeros 0 0) Us k = Dmx (c%:M : 'M[R]_2).
  move=> hk; have [U [-> _ _ h0]] := hU k hk.
  have h : M *m U *m M^T = (1 ^+ 2 / (nth 0%N [:: 1; 3]%N k)%:R)%:M := h0 fM.
  exists (4%:R / (nth 0%N [:: 1; 3]%N k)%:R).
    by rewrite mulr_ge0 ?invr_ge0 ?ler0n.
  congr Dmx; move: h; rewrite eM tr_scalar_mx mul_mx_scalar mul_scalar_mx scalerA => /(congr1 ( *:%R 4%:R)).
  rewrite scalerA scale_scalar_mx expr1n mul1r => <-; rewrite -[LHS]scale1r; congr (_ *: _); by field.
have [|g2 [p2 [Us2 [f [S [h1 h3 [h4 _] [_ _ _ h5 _] _]]]]]] := @C142_figure R diag_vals nat xseed (@xrandn R) (@xrand2 R) (@xrand2_size R) (@xrand2_unit R)
  2 2 1 [:: 1; 3]%N None (Some "out"%string) true 0%N 0%N erefl isT isT isT hs.
  move=> U; rewrite e /=; case: Us sU eU {e hU} => [|a [|b []]] //= _ eU [|[|//]] eq.
    have [c c0 /= ea] := eU 0%N isT; have -> : U = c%:M by apply: Dmx_inj; rewrite -eq.
    exact: ex_sing.
  have [c c0 /= ea] := eU 1%N isT; have -> : U = c%:M by apply: Dmx_inj; rewrite -eq.
  exact: ex_sing.
by exists g2, p2, f, M; split.
Qed.

(** C143: the seeded 2 x 2 problem of ex_rhd. *)
Example ex_C143 : is_ok (high_dim_figures xseed (@xrandn R) (@xrand R) (@xsvd R) 2 2 None (Some "out"%string) true 0%N).2.
Proof.
by have [g' [de [re [f1 [f2 [_ -> _ _ _]]]]]] := @C143_figures R nat xseed (@xrandn R) (@xrand R) (@xsvd R) (@xrand_size R)
  (@xrand_unit R) (@xsvd_size R) 2 None (Some "out"%string) true 0%N 0%N isT erefl.
Qed.
End Ex.
