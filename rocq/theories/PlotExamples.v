(** Concrete cases for the theorems about plot.py and preprocessing.py, and refuted readings. *)
Set Warnings "-notation-overridden,-ambiguous-paths".
From mathcomp Require Import all_ssreflect all_algebra all_real_closed.
From Coq Require Import String.
From Verif Require Import Py Nd LinAlg Dmx LgpModel UtilModel UtilModel2 PlotModel PlotProps PlotProps2
  PlotProps3 PrepModel PrepProps.
Set Implicit Arguments. Unset Strict Implicit. Unset Printing Implicit Defensive.
Import Order.Theory GRing.Theory Num.Theory.
Local Open Scope ring_scope.

Section Ex.
Definition dom2 : seq (rat * rat) := [:: (0, 1); (0, 2%:R)].
Definition one (p : seq rat) : rat := 1.
Definition kde1 (pts : seq (seq rat)) : res (seq rat) := Ok [seq one p | p <- pts].
Definition pdf1 (pts : seq (seq rat)) : res (seq (seq rat)) := Ok [seq [:: one p] | p <- pts].

Lemma one_density : has_density pdf1 kde1 "kde" one /\ has_density pdf1 kde1 "pdf" one.
Proof.
split; [right | left]; split=> // pts; exists [seq [:: one p] | p <- pts]; split=> //.
by rewrite -map_comp; apply/eq_map => p /=; rewrite big_seq1.
Qed.

(** The hypotheses of C66_normalised are met: the uniform density on two parameters. *)
Example C66_normalised_met : exists xs ys, plot_dist pdf1 kde1 dom2 0 "kde" 5 = Ok (xs, ys) /\
  \sum_(y <- ys) y * (`|1 - 0| / 4%:R) = 1.
Proof.
have [hk _] := one_density.
have [xs [ys E]] : exists xs ys, plot_dist pdf1 kde1 dom2 0 "kde" 5 = Ok (xs, ys).
  by eexists; eexists; apply: (C66_plot_dist (R := [realFieldType of rat]) (dom := dom2) (k := 0%N) isT (aff := 5) isT hk).
exists xs, ys; split; first exact: E.
have D : (nth (0, 0) dom2 0).1 <> (nth (0, 0) dom2 0).2 by apply/eqP.
have N : \sum_(t <- tuples (nseq (size dom2) 5.-1)) one (grid_point dom2 5 t) <> 0.
  by rewrite big_const_seq count_predT size_tuples iter_addr_0; apply/eqP; rewrite pnatr_eq0.
have [_ _ _ h] := C66_normalised (R := [realFieldType of rat]) (dom := dom2) (k := 0%N) isT (aff := 5) isT hk D N E.
exact: h.
Qed.

(** Two parameters, source pdf: the curve of parameter 0 is that of parameter 1. *)
Theorem C66_pdf_parameter_refuted :
  ~ (forall pdf kde f, has_density pdf kde "pdf" f ->
      plot_dist pdf kde dom2 0 "pdf" 5 = Ok (marginal_curve dom2 5 f 0)).
Proof.
have [H _] := @C66_right_parameter_iff [realFieldType of rat] dom2 0 "pdf" 5 isT isT (or_introl erefl) isT.
by move/H.
Qed.

(** Three parameters, source kde: no parameter is drawn correctly; one or two: all are. *)
Example C66_kde_parameters :
  [/\ right_parameter "kde" 3 0 = false, right_parameter "kde" 3 1 = false,
      right_parameter "kde" 3 2 = false & right_parameter "kde" 1 0 && right_parameter "kde" 2 0 && right_parameter "kde" 2 1].
Proof. by []. Qed.

(** ** plot_contours *)
(** The null space of the rows that occur below. *)
Definition ns2 (a : seq rat) : res (seq (seq rat)) :=
  if a == [:: 1; 0] then Ok [:: [:: 0; 1]] else if a == [:: 0; 1] then Ok [:: [:: 1; 0]]
  else Ok [:: [:: 1; 0]; [:: 0; 1]].

Example C97_lines_met : plot_contours ns2 [:: [:: 1; 0]; [:: 0; 1]] [:: 3%:R; 3%:R] None 1 =
  Ok [:: (([:: 3%:R; 3%:R], [:: 2%:R; 4%:R]), 1); (([:: 2%:R; 4%:R], [:: 3%:R; 3%:R]), 2)].
Proof. by vm_compute. Qed.

(** Reference point (1, 2), row (1, 0): the line does not go through the reference point; its
    ends are (1, 0) and (2, 3), not on the contour x = 1. *)
Theorem C97_through_reference_refuted :
  plot_contours ns2 [:: [:: 1; 0]] [:: 1; 2%:R] None 1 = Ok [:: (([:: 1; 2%:R], [:: 0; 3%:R]), 1)].
Proof. by vm_compute. Qed.

(** A zero row shifts the lines of the rows after it: the line labelled 2 is drawn with a null
    vector of row 1. *)
Theorem C97_zero_row_refuted :
  plot_contours ns2 [:: [:: 0; 0]; [:: 0; 1]] [:: 0; 0] None 1 =
  Ok [:: (([:: -1; 1], [:: 0; 0]), 1); (([:: 0; 0], [:: -1; 1]), 2)].
Proof. by vm_compute. Qed.
End Ex.

(** ** preprocessing *)
(** Celsius and Fahrenheit: the hypotheses of C101_change_of_units are met. *)
Section Units.
Variable R : rcfType.
Definition celsius : nd R := Nd [:: 2; 1]%N [:: 0; 100%:R].
Definition fahrenheit : nd R := Nd [:: 2; 1]%N [:: 32%:R; 212%:R].
Example C101_met (dec : nd R -> res (nd R)) : svd dec fahrenheit = svd dec celsius.
Proof.
have [] // := @C101_change_of_units R (nd R) (nd R) (fun X _ => dec X) dec celsius fahrenheit 0
  (fun=> 180%:R / 100%:R) (fun=> 32%:R).
  by move=> j _; rewrite divr_gt0 ?ltr0n.
move=> [|[|i]] [|j] // _ _; rewrite /entry /=; first by rewrite mulr0 add0r.
by rewrite divfK ?pnatr_eq0 // -natrD.
Qed.
Example C67_standardised_met : exists X, standardise celsius = Ok X /\
  \sum_(i <- iota 0 2) entry X i 0 = 0.
Proof.
have [|||X [_ e _ H]] := @C67_standardised R (nd R) (nd R) (fun X _ => Ok X) (fun X => Ok X) celsius 0 => //.
exists X; split; first by move: e; rewrite /svd [ndim _]/= eqxx; case: (standardise celsius).
by have [] := H 0%N isT.
Qed.
End Units.
