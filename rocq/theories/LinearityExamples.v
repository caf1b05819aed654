(** Concrete cases for C159 and C160. *)
Set Warnings "-notation-overridden,-ambiguous-paths".
From mathcomp Require Import all_ssreflect all_algebra.
From Coq Require Import String.
From Verif Require Import Py Nd Spec LinAlg Dmx DmxProofs LgpModel LgpTheory LgpProofs LinProps LinProps3 LinExamples
  WmeModel WmeProps RotProps WmeOrderProps LinearityProps.
Set Implicit Arguments. Unset Strict Implicit. Unset Printing Implicit Defensive.
Import Order.Theory GRing.Theory Num.Theory.
Local Open Scope ring_scope.

(** Every choice of matrices is a problem the constructor builds, with nothing computed yet. *)
Lemma problem_built (R : rcfType) m n (A : 'M[R]_(m, n)) (C : 'M[R]_n) (S : 'M[R]_m) al b y (mu : 'cV[R]_n) : exists p,
  [/\ lgp_init (nd_of_dmx (Dmx A)) (Some (nd_of_dmx (Dmx b))) (Some (nd_of_dmx (Dmx y))) (Some (nd_of_dmx (Dmx mu)))
        (Some (Dmx C)) (Some (Dmx S)) (Some al) = Ok p,
      problem A C S al b y mu p, l_up_cov p = None & l_cov_p p = None].
Proof.
have [p [e ip eS]] := C21_init_inputs C S al (holds2_nd A) (holds1_nd b) (holds1_nd y) (holds1_nd mu).
exists p; split=> //; move: e; rewrite /lgp_init /ndim [size _]/= eqxx [rbind _ _]/= /dim;
  by case: ifP => // _ [<-].
Qed.

Section Ex.
Variable R : rcfType.
(** Two parameters, one datum, correlated parameters. *)
Definition lx_A : 'M[R]_(1, 2) := \row_j j.+1%:R.
Definition lx_C : 'M[R]_2 := sym2 2%:R 1 2%:R.
Definition lx_S : 'M[R]_1 := 3%:R%:M.
Lemma lx_pC : posdef lx_C. Proof. by apply: posdef_sym2; rewrite ?ltr0n // expr1n -natrM ltr1n. Qed.
Lemma lx_pS : posdef lx_S. Proof. by apply: posdef_scalar1; rewrite ltr0n. Qed.

(** Twice the first data minus the second: the map solutions combine in the same way, and exist. *)
Lemma C159_example (b1 y1 b2 y2 : 'cV[R]_1) (mu1 mu2 : 'cV[R]_2) : exists p1 p2 p3 (x1 x2 : 'cV[R]_2),
  [/\ problem lx_A lx_C lx_S 1 b1 y1 mu1 p1, problem lx_A lx_C lx_S 1 b2 y2 mu2 p2,
      problem lx_A lx_C lx_S 1 (2%:R *: b1 + -1 *: b2) (2%:R *: y1 + -1 *: y2) (2%:R *: mu1 + -1 *: mu2) p3
    & [/\ answer p1 "map" x1, answer p2 "map" x2 & answer p3 "map" (2%:R *: x1 + -1 *: x2)]].
Proof.
have [p1 [_ h1 _ _]] := problem_built lx_A lx_C lx_S 1 b1 y1 mu1.
have [p2 [_ h2 _ _]] := problem_built lx_A lx_C lx_S 1 b2 y2 mu2.
have [p3 [_ h3 _ _]] := problem_built lx_A lx_C lx_S 1 (2%:R *: b1 + -1 *: b2) (2%:R *: y1 + -1 *: y2) (2%:R *: mu1 + -1 *: mu2).
have a1 := map_answer h1.1 h1.2 lx_pC lx_pS ltr01; have a2 := map_answer h2.1 h2.2 lx_pC lx_pS ltr01.
by do 5!eexists; split; [exact: h1 | exact: h2 | exact: h3 | split; [exact: a1 | exact: a2 | apply: (C159_superposition _ h1 h2 h3 a1 a2)]].
Qed.

(** Both covariances times four: the same results; the updated covariance exists and is four times as large. *)
Lemma C160_example (b y : 'cV[R]_1) (mu : 'cV[R]_2) : exists p p' : lgp R,
  [/\ problem lx_A lx_C lx_S 1 b y mu p, problem lx_A (4%:R *: lx_C) (4%:R *: lx_S) 1 b y mu p', lcovi p <> lcovi p',
      (solve p' "all" None).2 = (solve p "all" None).2
    & exists a, l_up_cov (solve p "mud_alt" None).1 = Some a /\ l_up_cov (solve p' "mud_alt" None).1 = Some (dscale 4%:R a)].
Proof.
have c0 : (4%:R : R) != 0 by rewrite pnatr_eq0.
have [p [_ h u d]] := problem_built lx_A lx_C lx_S 1 b y mu.
have [p' [_ h' u' d']] := problem_built lx_A (4%:R *: lx_C) (4%:R *: lx_S) 1 b y mu.
exists p, p'; split=> //; last 2 first.
- exact: (C160_same_solutions c0 h h').
- have [r _ _] := C160_covariances c0 h h' u u' d d'; have uS : lx_S \in unitmx by apply: posdef_unit lx_pS.
  move: r; rewrite (alt_lin h) uS /=; case: (l_up_cov _) => //= a ->.
  by exists (Dmx (upcov lx_A (1 *: lx_C) lx_S)).
- case: h => -[_ _ _ [_ -> _]] _; case: h' => -[_ _ _ [_ -> _]] _ => /Dmx_inj /matrixP /(_ 0 0) /eqP.
  by rewrite !mxE /= -natrM eqr_nat.
Qed.
End Ex.
