(** Concrete cases for the theorems of PoisProps.v. *)
Set Warnings "-notation-overridden,-ambiguous-paths".
From mathcomp Require Import all_ssreflect all_algebra.
From mathcomp.algebra_tactics Require Import ring.
From Verif Require Import Py Nd Spec UtilModel UtilModel2 DensityModel PoisModel PoisProps.
Set Implicit Arguments. Unset Strict Implicit. Unset Printing Implicit Defensive.
Import Order.Theory GRing.Theory Num.Theory.
Local Open Scope ring_scope.

Section PoisEx.
Variable R : rcfType.

Lemma seg_mid : on_segment 3 1 (1 / 2%:R : R).
Proof.
have t0 n : 0 < n.+1%:R :> R by rewrite ltr0n.
apply/andP; split.
  by rewrite ler_pdivr_mulr // mulrC mulrA ler_pdivl_mulr // mulr1 mul1r ler_nat.
by rewrite ltr_pdivl_mulr // mulrC mulrA ltr_pdivr_mulr // mulr1 -natrM ltr_nat.
Qed.

(** C113, C114: the knots -3, -1 at the point (7, 1/2): the value is -2. *)
Lemma ex_piecewise : piecewise_eval_from_vector [:: - 3%:R; -1] 1 [:: 7%:R; 1 / 2%:R] = - 2%:R :> R.
Proof.
have [h _] := C113_piecewise_linear [:: - 3%:R; -1 : R] 1 [:: 7%:R; 1 / 2%:R].
by rewrite (h 1%N isT seg_mid) /linear_on /knot /=; field.
Qed.

Lemma ex_drawn : exists xs ys, plot_solution_spline [:: - 3%:R; -1 : R] = Ok (xs, ys) /\
  height xs ys (1 / 2%:R) (- 2%:R).
Proof.
have [xs [ys [e _ _ h]]] := C114_drawn [:: - 3%:R; -1 : R]; exists xs, ys; split=> //.
by apply/(h 1%N _ _ seg_mid) => //; rewrite /linear_on /knot /=; field.
Qed.

(** C115: with two points every spline has distance 0; with four, the interpolating one has and
    the spline that is 1 larger at 1/3 has distance 1. *)
Lemma ex_objective2 a b : objective 2 a b (0 : R).
Proof.
have -> : 0 = Num.sqrt (gap 2 a b); last exact: objectiveE.
rewrite /gap big_ord_recl big_ord1 /= mul0r divr1 /ref_data !hat_out.
- by rewrite [bump 0 0](_ : _ = 1%N) // -[LHS]sqrtr0; congr Num.sqrt; ring.
- by right; rewrite mulr1 -(natrD _ 2 1) ler_nat.
- by right; rewrite mulr1 -(natrD _ 1 1) ler_nat.
- by left; rewrite mulr0 subr_ge0 ler1n.
- by left; rewrite mulr0 subrr.
Qed.

Lemma ex_objective4 : exists a b : R, objective 4 a b 0 /\ objective 4 (a + 1) b 1.
Proof.
exists (ref_data (1 / 3%:R)), (ref_data (2%:R / 3%:R)).
have h0 : hat 1 0 = 0 :> R by rewrite hat_out //; left; rewrite mulr0 subrr.
have h0' : hat 2%:R 0 = 0 :> R by rewrite hat_out //; left; rewrite mulr0 subr_ge0 ler1n.
have h1 : hat 1 1 = 0 :> R by rewrite hat_out //; right; rewrite mulr1 -(natrD _ 1 1) ler_nat.
have h1' : hat 2%:R 1 = 0 :> R by rewrite hat_out //; right; rewrite mulr1 -(natrD _ 2 1) ler_nat.
have t : 3%:R * (1 / 3%:R) = 1 :> R by field.
have t' : 3%:R * (2%:R / 3%:R) = 2%:R :> R by field.
have ha : hat 1 (1 / 3%:R) = 1 :> R by rewrite hat_lin t ?subrr ?add0r // lexx ler01.
have hb : hat 2%:R (1 / 3%:R) = 0 :> R.
  by rewrite hat_out //; left; rewrite t ler_subr_addl -(natrD _ 1 1).
have ha' : hat 1 (2%:R / 3%:R) = 0 :> R by rewrite hat_out //; right; rewrite t' -(natrD _ 1 1).
have hb' : hat 2%:R (2%:R / 3%:R) = 1 :> R by rewrite hat_lin t' ?subrr ?add0r // lexx ger_addl oppr_le0 ler01.
have hg0 : ref_data (0 : R) = 0 by rewrite /ref_data; ring.
have hg1 : ref_data (1 : R) = 0 by rewrite /ref_data; ring.
have v a b : gap 4 a b = (ref_data (1 / 3%:R) - a) ^+ 2 + (ref_data (2%:R / 3%:R) - b) ^+ 2 :> R.
  rewrite /gap !big_ord_recl big_ord0 /= mul0r divff ?pnatr_eq0 // h0 h0' h1 h1' hg0 hg1.
  rewrite [X in ref_data X](_ : _ = 1 / 3%:R) // ha hb.
  rewrite [X in ref_data X - (a * hat 1 X + _)](_ : _ = 2%:R / 3%:R) // ha' hb'; ring.
split.
- have := @objectiveE R 4 (ref_data (1 / 3%:R)) (ref_data (2%:R / 3%:R)).
by rewrite v !subrr expr0n addr0 sqrtr0.
- set a := ref_data _; set b := ref_data _.
  have := objectiveE 4 (a + 1) b.
  by rewrite v -/a -/b subrr expr0n addr0 opprD addrA subrr add0r sqrrN expr1n sqrtr1.
Qed.
End PoisEx.
