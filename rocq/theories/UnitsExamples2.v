(** A concrete case for C162: distributions that are uniform on boxes. *)
Set Warnings "-notation-overridden,-ambiguous-paths".
From mathcomp Require Import all_ssreflect all_algebra.
From Verif Require Import Py Nd Xnum XnumProofs UtilModel DensityModel NdProofs DensityProps2 DensityProps3 DensityProps4 BayesModel BayesProps2
  OrderProps UnitsProps UnitsProps2 UnitsExamples.
Set Implicit Arguments. Unset Strict Implicit. Unset Printing Implicit Defensive.
Import Order.Theory GRing.Theory Num.Theory.
Local Open Scope ring_scope.

Section Boxes.
Variable R : rcfType.
Notation nd := (nd R).
Notation box := (box R).
Definition bb_pdf (d : box) (A : nd) := bx_pdf d tt A.
Lemma bb_change n m (ux uy : units R) : positive ux -> positive uy ->
  bchange_of_units bb_pdf (@bx_uniform R) n m (size ux) (size uy) ux uy (jac ux) (jac uy) (bx_in ux) (bx_in uy).
Proof.
move=> hx hy; split.
- by have [h _ _ _ _] := bx_change 0 hx hy.
- by move=> d A; have [_ h _ _ _] := bx_change n hx hy; exact: h.
- by move=> d A; have [_ _ [h _] _ _] := bx_change m hx hy; exact: h.
- by have [_ _ _ h _] := bx_change 0 hx hy.
Qed.

(** The problem of C161_example, with one measurement of each sample. *)
Variables (ln trunc : R -> R).
Notation cv := (bconverted (ue_ux R) (ue_uy R) (jac (ue_ux R)) (jac (ue_uy R)) (bx_in (ue_ux R)) (bx_in (ue_uy R))).
Notation ub_init X y := (bayes_init box trunc X y false None).
Notation ub_lik := (set_likelihood bb_pdf bb_pdf).
Notation ub_map := (map_point bb_pdf (@bx_uniform R) ln).

Notation ub_prior := (set_prior bb_pdf (@bx_uniform R)).
Definition ub_box : box := [:: (1, 2%:R)].
Lemma ub_estimate s : ub_init (ue_X R) (ue_y R) = Ok s ->
  (ub_map (ub_lik (ub_prior s (Some ub_box)).1 (ue_box R) false).1).2 = Ok [:: 1].
Proof.
move=> [<-].
have h1 : height (0, 1) 0 = 1 :> R by rewrite /height /= lexx add0r ler01 /= invr1.
have h2 : height (0, 1) 2%:R = 0 :> R by rewrite /height /= add0r ler0n -[X in _ <= X]/(1%:R) ler_nat.
have h3 : height (1, 2%:R) 1 = 2%:R^-1 :> R by rewrite /height /= lexx ler_addl ler0n.
have h4 : height (1, 2%:R) 3%:R = 2%:R^-1 :> R by rewrite /height /= -[X in X <= _]/(1%:R) ler_nat /= -[X in X + _]/(1%:R) -natrD lexx.
rewrite /BayesModel.map_point /BayesModel.bfit /BayesModel.set_likelihood /BayesModel.set_prior /lik_values /bb_pdf /bx_pdf.
have -> : rows (ue_y R) = [:: [:: 0]; [:: 2%:R]] by [].
rewrite /= h1 h2 h3 h4 !mulr1 !mulr0 !addr0 invr_eq0 pnatr_eq0 /=.
have -> : (2%:R^-1 : R) < 0 = false by rewrite invr_lt0 ltrn0.
by [].
Qed.

Lemma C162_example : exists s s1 s2,
  [/\ ub_init (ue_X R) (ue_y R) = Ok s /\ ub_init (points_in (ue_ux R) (ue_X R)) (points_in (ue_uy R) (ue_y R)) = Ok (cv s),
      ub_prior s (Some ub_box) = (s1, Ok tt) /\ ub_prior (cv s) (Some (bx_in (ue_ux R) ub_box)) = (cv s1, Ok tt),
      ub_lik s1 (ue_box R) false = (s2, Ok tt) /\ ub_lik (cv s1) (bx_in (ue_uy R) (ue_box R)) false = (cv s2, Ok tt),
      (ub_map s2).2 = Ok [:: 1] & (ub_map (cv s2)).2 = Ok [:: 105%:R]].
Proof.
have [hx hy] := ue_positive R; have ch := bb_change 2 2 hx hy.
have [e h] := C162_constructor trunc ch (ue_rows _ _) (erefl : dim (ue_X R) 1 = 1%N) (ue_rows _ _) (erefl : dim (ue_y R) 1 = 1%N)
  (dom := None) I.
have [s es] : exists s, ub_init (ue_X R) (ue_y R) = Ok s by eexists; reflexivity.
have g := h s es; have E := ub_estimate es.
have [s1 e1] : exists s1, ub_prior s (Some ub_box) = (s1, Ok tt) by move: es => [<-]; eexists; reflexivity.
have [p1 g1] := prior_sim ch (Some ub_box) g.
rewrite e1 in p1 g1 E.
have [s2 e2] : exists s2, ub_lik s1 (ue_box R) false = (s2, Ok tt) by move: e1; move: es => [<-] [<-]; eexists; reflexivity.
have [p2 g2] := likelihood_sim bb_pdf ch (ue_box R) g1.
rewrite e2 in p2 g2 E.
have [E' _] := C162_estimate ln ch g2; have e3 := congr1 snd E'.
exists s, s1, s2; split; [by split; [| rewrite es in e] | by [] | by [] | by [] |].
rewrite e3 E /=; congr (Ok [:: _]).
by rewrite /to_unit /= mulr1 -natrD.
Qed.
End Boxes.
