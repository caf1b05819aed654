(** Concrete cases for the DensityProblem theorems: hypotheses met, and witnesses that the
    tempting stronger claims are false of the code. *)
Set Warnings "-notation-overridden,-ambiguous-paths".
From mathcomp Require Import all_ssreflect all_algebra.
From Verif Require Import Py Nd Xnum XnumProofs UtilModel DensityModel NdProofs LinProps DensityProps
  DensityProps2 DensityProps3 DensityProps4.
Set Implicit Arguments. Unset Strict Implicit. Unset Printing Implicit Defensive.
Import Order.Theory GRing.Theory Num.Theory.
Local Open Scope ring_scope.

Section Examples.
Variable R : rcfType.
Notation xnum := (xnum R).
(** A distribution is the table of its density values at the three samples. *)
Definition tab := seq (seq xnum).
Definition tpdf (d : tab) (_ : unit) (_ : nd R) : res (pdfval xnum) := Ok (P2 d).
Definition col (s : seq R) : tab := [seq [:: Fin x] | x <- s].
Definition tones := col [:: 1; 1; 1].
Definition tunif (_ _ : seq R) : tab := tones.
Definition tkde (_ : nd R) (_ : unit) (_ : seq xnum) : res tab := Ok tones.
Definition tkde_pdf (d : tab) (_ : nd R) : res (seq xnum) := Ok (flatten d).
Definition nodraw (_ : nat) (_ : dprob R tab) : res unit := Ok tt.

(** Three samples of one parameter and one observable. *)
Definition exX : nd R := Nd [:: 3; 1]%N [:: 0; 1; 2%:R].
Definition exdom : nd R := Nd [:: 1; 2]%N [:: 0; 2%:R].
Definition ex0 : dprob R tab :=
  DP exX exX exdom false (nseq 3 (Fin 1)) None None None None None None None None.

Notation mud_point := (mud_point tpdf tt tt tunif tones tkde tkde_pdf).
Notation expected_ratio := (expected_ratio tpdf tt tt tunif tones tkde tkde_pdf).
Notation run := (run tpdf tt tt tunif tones tkde tkde_pdf id nodraw).
Notation all_return := (all_return tpdf tt tt tunif tones tkde tkde_pdf id nodraw).
Notation dop := (dop R tab unit unit).
Notation obs d := (OObserved R unit unit (Some d)).
Notation ini d := (OInitial R unit unit (Some d)).
Notation given d := (OPredicted (PA (R := R) (D := tab) (KW := unit) (BW := unit) (Some d) tt None tt)).
Notation mud := (OMud R tab unit unit).

Example ex_init : density_init tab id exX exX false (Some exdom) false None true 0 = Ok ex0.
Proof. by []. Qed.

Lemma two_gt1 : (1 : R) < 2%:R. Proof. by rewrite ltr1n. Qed.
Lemma updE (b : R) : xmul (xmul (Fin 1) (Fin 1)) (xdiv (Fin b) (Fin 1)) = Fin b.
Proof. by rewrite /= oner_eq0 /= divr1 !mul1r. Qed.

(** Observed density largest at the second sample. *)
Definition peak1 := col [:: 0; 1; 0].
(** Observed density largest at the third sample. *)
Definition peak2 := col [:: 0; 0; 1].
Definition h1 : seq dop := [:: ini tones; given tones; obs peak1].

Ltac crunch := rewrite ?mulr1 ?mul1r ?oner_eq0 ?divr1 ?mulr0 ?mul0r ?ltxx ?ltr01 ?(lt_gtF ltr01) /=.

Lemma mud_h1 : (mud_point (run ex0 h1)).2 = Ok [:: 1].
Proof. by rewrite /=; do 3 crunch. Qed.

(** Hypotheses of C36/C37/C41/C42: a history of four calls that all return, not stale. *)
Example C37_hypotheses_met :
  [/\ all (@no_plot R tab unit unit) (rcons h1 mud), all_return ex0 (rcons h1 mud),
      ~~ stale (rcons h1 mud) & is_ok (mud_point (run ex0 (rcons h1 mud))).2].
Proof. by split=> //; rewrite /=; do 3 crunch. Qed.

(** C37: once a point has been computed, a new observed distribution is ignored: the estimate
    stays at the second sample, though the same settings give the third. *)
Theorem C37_stale_estimate_refuted :
  let h := h1 ++ [:: mud; obs peak2] in
  let h' := [:: ini tones; given tones; obs peak2] in
  [/\ all_return ex0 h, all_return ex0 h', stale h /\ ~~ stale h',
      [/\ t_w (track tt tt tunif tones ex0 h) = t_w (track tt tt tunif tones ex0 h'),
          t_in (track tt tt tunif tones ex0 h) = t_in (track tt tt tunif tones ex0 h'),
          t_pr (track tt tt tunif tones ex0 h) = t_pr (track tt tt tunif tones ex0 h')
        & t_ob (track tt tt tunif tones ex0 h) = t_ob (track tt tt tunif tones ex0 h')]
    & (mud_point (run ex0 h)).2 = Ok [:: 1] /\ (mud_point (run ex0 h')).2 = Ok [:: 2%:R]].
Proof. by split=> //; rewrite /=; do 3 crunch. Qed.

(** C42: the first sample, where observed and predicted density are both zero, beats the
    others although they have positive updated density. *)
Theorem C42_nan_wins_refuted :
  let h := [:: ini tones; given (col [:: 0; 1; 1]); obs (col [:: 0; 1; 1])] in
  all_return ex0 h /\ (mud_point (run ex0 h)).2 = Ok [:: 0].
Proof. by split=> //; rewrite /= /xinf mul0r eqxx ltxx /=. Qed.

(** C41: finite ratios 0, 1, 0 and unit weights. *)
Example C41_hypotheses_met :
  is_ok (expected_ratio (run ex0 h1)).2 /\
  t_w (t_step tt tt tunif tones ex0 (track tt tt tunif tones ex0 h1) mud)
   = [seq Fin x | x <- [:: 1; 1; 1 : R]].
Proof.
split=> //; rewrite /=; do 3 crunch.
rewrite /np_average /= addr0 -!mulr2n -mulrS pnatr_eq0 //.
Qed.

(** C39, C40: three weights. *)
Example C40_hypotheses_met :
  let s := (set_initial tpdf tt tunif ex0 (Some tones)).1 in
  [/\ d_in s <> None, size [:: 1; 2%:R; 3%:R : R] = n_samples s,
      has (fun x : R => x != 0) [:: 1; 2%:R; 3%:R] &
      all_return s (calls (nd1 [:: 1; 2%:R; 3%:R : R]) false
        (PA (KW := unit) (BW := unit) (Some tones) tt None tt) (Some peak1))].
Proof. by split=> //=; rewrite oner_eq0. Qed.
Example C39_hypotheses_met : holds2 (Nd [:: 2; 3]%N [:: 1; 2%:R; 3%:R; 4%:R; 5%:R; 6%:R : R])
   (\matrix_(i < 2, j < 3) (i * 3 + j).+1%:R) /\ n_samples ex0 = 3%N.
Proof.
split=> //; split=> // i j; rewrite mxE /=.
by case: i j => [[|[|]] // ?] [[|[|[|]]] // ?].
Qed.

(** C43 *)
Example C43_hypotheses_met : [/\ ndim exX = 2%N, nd_wf exX & (0 < dim exX 0)%N].
Proof. by []. Qed.

(** C44: one plot doubles the default interval when [p = 1/2]; [set_initial()] then gives a
    different distribution ([tpair] keeps the two arguments). *)
Definition tpair (lo w : seq R) : tab := [:: [seq Fin x | x <- lo]; [seq Fin x | x <- w]].
Theorem C44_plot_changes_default_refuted :
  let s := ex0 in
  let s' := (plot_param_space tpdf tt tt tunif tones tkde tkde_pdf id nodraw s false
               2%:R^-1 true true true true).1 in
  default_initial tpair s = Ok (tpair [:: 0] [:: 2%:R]) /\
  default_initial tpair s' = Ok (tpair [:: -1] [:: 4%:R]).
Proof.
have e2 : (2%:R^-1 * (2%:R - 0) : R) = 1 by rewrite subr0 mulVf // pnatr_eq0.
have e3 : (2%:R + 1 : R) = 3%:R by rewrite -[1]/(1%:R) -natrD.
have e4 : (3%:R + 1 : R) = 4%:R by rewrite -[1]/(1%:R) -natrD.
have le3 : (-1 : R) <= 3%:R by rewrite (le_trans (lerN10 _)) ?ler0n.
split.
  have := @default_rows R tab tpair ex0 (fun _ => 0) (fun _ => 2%:R) 1 erefl erefl.
  by rewrite /= subr0; apply=> j _; rewrite ler0n.
set s' := (plot_param_space _ _ _ _ _ _ _ _ _ _ _ _ _ _ _ _).1.
have := @default_rows R tab tpair s' (fun _ => -1) (fun _ => 3%:R) 1.
rewrite /= opprK e4; apply=> //.
by rewrite /s' /=; do 3 crunch; rewrite /= e2 e3 sub0r.
Qed.

(** C82: two observables at three samples. *)
Example C82_hypotheses_met :
  let tab2 := [:: [:: Fin 1; Fin 1]; [:: Fin 1; Fin 1]; [:: Fin 1; Fin (1 : R)]] in
  let s := run ex0 [:: ini tones; obs peak1] in
  [/\ size tab2 = 3%N, all (fun r => size r == 2%N) tab2, d_in s = Some (nseq 3 (Fin (1 * 1)))
    & exists ob, d_ob s = Some ob /\ size ob = 3%N].
Proof. by split=> //; eexists. Qed.

(** C83: one sample of three parameters, three outputs, largest updated value not first. *)
Theorem C83_flat_X_fails :
  let s0 := DP (Nd [:: 1; 3]%N [:: 0; 1; 2%:R : R]) exX (Nd [:: 3; 2]%N [::]) false
     [:: Fin 1] None None None None None None None None in
  let h := [:: ini (col [:: 1]); given tones; obs peak1] in
  [/\ all_return s0 h & (mud_point (run s0 h)).2 = Err IndexError].
Proof. by split=> //; rewrite /=; do 3 crunch. Qed.

(** C85: densities scaled by 2, 3 and 5. *)
Example C85_hypotheses_met :
  let s := run ex0 h1 in
  let s' := run ex0 [:: ini (col [:: 2%:R; 2%:R; 2%:R]); given (col [:: 5%:R; 5%:R; 5%:R]);
                        obs (col [:: 0; 3%:R; 0])] in
  exists iv ob pr, [/\ d_in s = Some iv, d_ob s = Some ob, d_pr s = Some pr &
   [/\ d_in s' = Some (scale_all 2%:R iv), d_ob s' = Some (scale_all 3%:R ob),
       d_pr s' = Some (scale_all 5%:R pr) & d_w s' = d_w s]].
Proof.
by do 3 eexists; split=> //; split=> //; rewrite /= ?mulr1 ?mulr0.
Qed.

(** C86: a computation after set_weights uses the kernel density estimate. *)
Example C86_hypotheses_met :
  let s := run ex0 [:: given peak1; ini tones; obs peak2] in
  [/\ d_up s = None, d_pr s = None & is_ok (mud_point s).2].
Proof. by split=> //; rewrite /=; do 3 crunch. Qed.

End Examples.
