(** Concrete cases for C153. *)
Set Warnings "-notation-overridden,-ambiguous-paths".
From mathcomp Require Import all_ssreflect all_algebra.
From Verif Require Import Py Nd Xnum XnumProofs UtilModel DensityModel NdProofs LinProps DensityProps
  DensityProps2 DensityExamples ZeroProps.
Set Implicit Arguments. Unset Strict Implicit. Unset Printing Implicit Defensive.
Import Order.Theory GRing.Theory Num.Theory.
Local Open Scope ring_scope.

Section Ex.
Variable R : rcfType.
Notation tab := (tab R).
Notation ex0 := (ex0 R). Notation tones := (tones R). Notation tunif := (@tunif R).
Notation tpdf := (@tpdf R). Notation tkde := (@tkde R). Notation tkde_pdf := (@tkde_pdf R). Notation nodraw := (@nodraw R).
Notation mud_point := (mud_point tpdf tt tt tunif tones tkde tkde_pdf).
Notation expected_ratio := (expected_ratio tpdf tt tt tunif tones tkde tkde_pdf).
Notation run := (run tpdf tt tt tunif tones tkde tkde_pdf id nodraw).
Notation all_return := (all_return tpdf tt tt tunif tones tkde tkde_pdf id nodraw).
Notation obs d := (OObserved R unit unit (Some d)).
Notation ini d := (OInitial R unit unit (Some d)).
Notation given d := (OPredicted (PA (R := R) (D := tab) (KW := unit) (BW := unit) (Some d) tt None tt)).
Notation mud := (OMud R tab unit unit).
(** The first of three samples has weight zero. *)
Definition w0 : nd R := Nd [:: 3%N] [:: 0; 1; 1].
Definition wts : dop R tab unit unit := OWeights tab unit unit (Some w0) false.
Definition hz : seq (dop R tab unit unit) := [:: wts; ini tones; given tones; obs (col [:: 2%:R; 1; 0])].
Lemma two_n0 : (2%:R : R) == 0 = false. Proof. by rewrite pnatr_eq0. Qed.

(** Its observed density is the largest, but it is ignored: the estimate is the second. *)
Example C153_ignored_met : [/\ all (@no_plot R tab unit unit) hz, all_return ex0 hz &
  (mud_point (run ex0 hz)).2 = Ok [:: 1]].
Proof.
split=> //; rewrite /= !big_seq1 /= !oner_eq0 !divr1.
by rewrite !mulr0 !mul0r !mulr1 /= ltr01 mulr0 ltr10.
Qed.
(** With a predicted density that vanishes there it is the estimate in spite of its weight. *)
Definition hf : seq (dop R tab unit unit) := [:: wts; ini tones; given (col [:: 0; 1; 1]); obs (col [:: 1; 1; 0])].
Theorem C153_zero_weight_estimated_refuted : all_return ex0 hf /\ (mud_point (run ex0 hf)).2 = Ok [:: 0].
Proof.
split=> //; rewrite /= !big_seq1 /= eqxx.
by rewrite !mulr1 mulr0 /xinf ltr01 /= /xinf ltxx.
Qed.
(** The expected ratio is the mean of the two others. *)
Example C153_ratio_met : (expected_ratio (run ex0 hz)).2 = Ok (Fin ((1 + 0) / 2%:R)).
Proof.
rewrite /= !big_seq1 /= !oner_eq0 !divr1 /np_average /=.
have -> : 0 + (1 + (1 + 0)) = 2%:R :> R by rewrite addr0 add0r -mulr2n.
by rewrite two_n0 mulr0 add0r !mulr1 !addr0.
Qed.
End Ex.
