(** Concrete cases for the BayesProblem theorems over the real numbers of the standard
    library, with its logarithm. *)
Set Warnings "-notation-overridden,-ambiguous-paths".
From Coq Require Import Reals Lra.
From mathcomp Require Import all_ssreflect all_algebra.
From Verif Require Import Py Nd Xnum XnumProofs UtilModel DensityModel NdProofs RealsStruct
  BayesModel BayesProps BayesProps2.
Set Implicit Arguments. Unset Strict Implicit. Unset Printing Implicit Defensive.
Import Order.Theory GRing.Theory Num.Theory.
Local Open Scope ring_scope.

Notation RR := R_rcfType.
Notation rln := Rpower.ln.

(** The hypotheses of C46 hold of the real logarithm. *)
Lemma rlnM (x y : RR) : 0 < x -> 0 < y -> rln (x * y) = rln x + rln y.
Proof. by move=> /RltP x0 /RltP y0; exact: Rpower.ln_mult. Qed.
Lemma rln_lt (x y : RR) : 0 < x -> 0 < y -> x < y -> rln x < rln y.
Proof. by move=> /RltP x0 _ /RltP xy; apply/RltP; exact: Rpower.ln_increasing. Qed.

Section Generic.
Variable F : rcfType.
Variable ln : F -> F.
(** A distribution: its table of density values, and whether its logpdf fails. *)
Definition dtab : Type := (seq (seq F) * bool)%type.
Definition epdf (d : dtab) (_ : nd F) : res (pdfval (xnum F)) :=
  Ok (P2 [seq [seq Fin x | x <- r] | r <- d.1]).
Definition elogpdf (d : dtab) (_ : nd F) : res (pdfval (xnum F)) :=
  if d.2 then Err OracleError else Ok (P2 [seq [seq Fin (ln x) | x <- r] | r <- d.1]).
Definition eunif (_ _ : seq F) : dtab := ([:: [:: 1]; [:: 1]], false).
Definition edraw (_ : nat) (_ : bprob F dtab) : res unit := Ok tt.

(** Two samples of one parameter. *)
Definition eX : nd F := Nd [:: 2; 1]%N [:: 0; 1].
Definition edom : nd F := Nd [:: 1; 2]%N [:: 0; 1].
Definition e0 : bprob F dtab := BP eX eX edom None None None false None None.
Example e0_init : bayes_init dtab id eX eX false (Some edom) = Ok e0.
Proof. by []. Qed.
Definition lik12 : dtab := ([:: [:: 1]; [:: 2%:R]], false).
(** C45/C48: hypotheses met by a history of returning calls. *)
Definition ones : dtab := eunif [::] [::].
Definition s1 : bprob F dtab := BP eX eX edom None (Some (nseq 2 (Fin 1))) None false None (Some ones).
Definition s2 : bprob F dtab := BP eX eX edom None (Some (nseq 2 (Fin 1)))
  (Some [:: Fin 1; Fin 2%:R]) false (Some lik12) (Some ones).
Definition s3 : bprob F dtab := BP eX eX edom (Some [:: Fin 1; Fin 2%:R]) (Some (nseq 2 (Fin 1)))
  (Some [:: Fin 1; Fin 2%:R]) false (Some lik12) (Some ones).
Lemma s1E : set_prior epdf eunif e0 (Some ones) = (s1, Ok tt).
Proof. by rewrite /set_prior /= !mulr1. Qed.
Lemma s2E : set_likelihood epdf elogpdf s1 lik12 false = (s2, Ok tt).
Proof. by rewrite /set_likelihood /= !mulr1. Qed.
Lemma l12 : (1 : F) < 2%:R. Proof. by rewrite ltr1n. Qed.
Lemma s3E : map_point epdf eunif ln s2 = (s3, Ok [:: 1]).
Proof.
have ef : bfit epdf eunif ln s2 = (s3, Ok tt).
  rewrite /bfit; cbn [s2 b_pr sbind b_ll b_log odflt oapp]; rewrite /combine /=.
  rewrite !mul1r addr0 (_ : (1 + 2%:R == 0 :> F) = false) //.
  by rewrite gt_eqF // addr_gt0 ?ltr01 ?ltr0n.
rewrite /map_point; cbn [s2 b_ps]; rewrite -/s2 ef; cbn [sbind s3 b_ps odflt oapp].
by rewrite /= l12.
Qed.
Lemma s3m : map_point epdf eunif ln s3 = (s3, Ok [:: 1]).
Proof. exact: C90_map_point_idempotent s3E. Qed.

Definition h5 : seq (bop dtab) := [:: BPrior (Some ones); BLik lik12 false; BMap dtab;
               BPlot dtab true true true; BPlotObs dtab true true].
Example C48_hypotheses_met :
  let oks := returns epdf elogpdf eunif ln edraw e0 h5 in
  [/\ oks = nseq 5 true, plots_return h5 oks, liks_return h5 oks
    & (map_point epdf eunif ln (brun epdf elogpdf eunif ln edraw e0 h5)).2 = Ok [:: 1]].
Proof.
have ep : bplot_param epdf eunif ln edraw s3 true true true = (s3, Ok tt).
  by rewrite /bplot_param; cbn [lift edraw sbind]; rewrite s3m; cbn [lift edraw sbind]; rewrite s3m.
have e : returns epdf elogpdf eunif ln edraw e0 h5 = nseq 5 true.
  rewrite /h5; cbn [returns brun1]; rewrite s1E; cbn [fst snd]; rewrite s2E; cbn [fst snd].
  by rewrite /bvoid s3E; cbn [fst snd]; rewrite ep.
rewrite e; split=> //; rewrite /h5 /brun; cbn [foldl brun1]; rewrite s1E; cbn [fst snd].
rewrite s2E; cbn [fst snd]; rewrite /bvoid s3E; cbn [fst snd]; rewrite ep; cbn [fst snd].
by rewrite /bplot_obs /lift; cbn [fst]; rewrite s3m.
Qed.
End Generic.
Notation rdtab := (dtab RR).
Notation repdf := (@epdf RR).
Notation relogpdf := (@elogpdf RR rln).
Notation reunif := (@eunif RR).
Notation redraw := (@edraw RR).
Notation re0 := (@e0 RR).
Notation rlik12 := (@lik12 RR).

(** The same with the prior set to ones. *)
Definition e1 : bprob RR rdtab := (set_prior repdf reunif re0 (Some (reunif [::] [::]))).1.
Lemma e1_pr : b_pr e1 = Some [seq Fin x | x <- [:: 1; 1]].
Proof. by rewrite /= !mulr1. Qed.

Definition likinv : rdtab := ([:: [:: 2%:R]; [:: 2%:R^-1]], false).

(** C46: all hypotheses met; the two modes agree. *)
Example C46_case :
  (map_point repdf reunif rln (set_likelihood repdf relogpdf e1 rlik12 true).1).2 =
  (map_point repdf reunif rln (set_likelihood repdf relogpdf e1 rlik12 false).1).2.
Proof.
have [_ ->] := @C46_log_mode RR rdtab repdf relogpdf reunif rln rlnM rln_lt e1 rlik12 [:: 1; 1] _ 2
  e1_pr erefl erefl erefl erefl erefl isT ltac:(by rewrite /= ltr01)
  ltac:(by rewrite /= ltr01 ltr0n).
set P := \prod_(_ <- _) _.
have -> : P = 2%:R by rewrite /P /= !big_cons !big_nil !mulr1 !mul1r.
by rewrite (_ : (2%:R == 1 :> RR) = false) // gt_eqF // ltr1n.
Qed.

(** C47: posterior values 2 and 1/2 are rejected in log mode and accepted in plain mode. *)
Theorem C47_log_rejects_usable_refuted :
  (map_point repdf reunif rln (set_likelihood repdf relogpdf e1 likinv true).1).2 = Err ValueError /\
  is_ok (map_point repdf reunif rln (set_likelihood repdf relogpdf e1 likinv false).1).2.
Proof.
have [-> ->] := @C46_log_mode RR rdtab repdf relogpdf reunif rln rlnM rln_lt e1 likinv [:: 1; 1] _ 2
  e1_pr erefl erefl erefl erefl erefl isT ltac:(by rewrite /= ltr01)
  ltac:(by rewrite /= invr_gt0 ltr0n).
set P := \prod_(_ <- _) _.
have -> : P = 1 by rewrite /P /= !big_cons !big_nil !mulr1 !mul1r divff // pnatr_eq0.
by rewrite eqxx.
Qed.

(** C48: a failing set_likelihood(log=True) after a plain one leaves the plain values but
    switches to log mode, and the next estimate mixes them: it is the first sample, while
    prior times likelihood is largest at the second. *)
Definition ppr : rdtab := ([:: [:: 1]; [:: exp 1]], false).
Definition plik : rdtab := ([:: [:: 6%:R]; [:: 3%:R]], false).
Definition pbad : rdtab := ([:: [:: 1]; [:: 1]], true).
Lemma exp_gt2 : (2%:R : RR) < exp 1.
Proof.
apply/RltP; have h : R1 <> R0 by lra.
have := exp_ineq1 1 h; have -> : (2%:R : RR) = Rplus 1 1 by []; lra.
Qed.
Theorem C48_failed_likelihood_mixes_refuted :
  let h := [:: BLik plik false; BLik pbad true; BPrior (Some ppr)] in
  let h' := [:: BLik plik false; BPrior (Some ppr)] in
  [/\ returns repdf relogpdf reunif rln redraw re0 h = [:: true; false; true],
      (map_point repdf reunif rln (brun repdf relogpdf reunif rln redraw re0 h)).2 = Ok [:: 0]
    & (map_point repdf reunif rln (brun repdf relogpdf reunif rln redraw re0 h')).2 = Ok [:: 1]].
Proof.
have e2 := exp_gt2.
have ep : (0 : RR) < exp 1 by apply: lt_trans e2; rewrite ltr0n.
have l1 : rln (1 : RR) = 0 by exact: Rpower.ln_1.
have le : rln (exp 1) = 1 :> RR by exact: Rpower.ln_exp.
split=> //.
- rewrite [brun _ _ _ _ _ _ _]/= !mulr1 (@map_ready RR rdtab repdf reunif rln _ [:: Fin 1; Fin (exp 1)] [:: Fin 6%:R; Fin 3%:R]) //.
  cbn [b_log]; rewrite /combine /= oner_eq0 ltr01 (gt_eqF ep) ep /= l1 le add0r addr0.
  have -> : (1 + 3%:R : RR) = 4%:R by rewrite -(natrD _ 1 3).
  rewrite -natrD pnatr_eq0 /=.
  have -> : ((6%:R : RR) < 4%:R) = false by rewrite ltr_nat.
  by [].
- rewrite [brun _ _ _ _ _ _ _]/= !mulr1 (@map_ready RR rdtab repdf reunif rln _ [:: Fin 1; Fin (exp 1)] [:: Fin 6%:R; Fin 3%:R]) //.
  cbn [b_log]; rewrite /combine /= mul1r addr0.
  have pp : (0 : RR) < exp 1 * 3%:R by rewrite mulr_gt0 // ltr0n.
  have -> : ((6%:R : RR) + exp 1 * 3%:R == 0) = false.
    by apply: gt_eqF; rewrite addr_gt0 // ltr0n.
  rewrite /=; have -> : (6%:R : RR) < exp 1 * 3%:R.
    have -> : (6%:R : RR) = 2%:R * 3%:R by rewrite -natrM.
    by rewrite ltr_pmul2r // ltr0n.
  by [].
Qed.

(** C47, C88, C89: the remaining hypotheses. *)
Example C47_hypotheses_met :
  let s := (set_likelihood repdf relogpdf e1 rlik12 false).1 in
  [/\ b_pr s = Some [seq Fin x | x <- [:: 1; 1]], b_ll s = Some [seq Fin x | x <- [:: 1; 2%:R]],
      b_log s = false & dim (bX s) 0 = 2%N].
Proof. by split; rewrite //= !mulr1. Qed.
Example C47_log_hypotheses_met :
  let s := (set_likelihood repdf relogpdf (set_prior repdf reunif re0 (Some ([:: [:: 0]; [:: 0]], false))).1
            rlik12 true).1 in
  [/\ b_ps s = None, b_pr s = Some (nseq 2 (Fin 0)),
      b_ll s = Some [seq Fin x | x <- [:: rln 1; rln 2%:R]] & b_log s = true].
Proof. by split; rewrite //= ?mulr1 ?addr0. Qed.
Example C88_hypotheses_met :
  let s := (set_likelihood repdf relogpdf e1 rlik12 false).1 in
  b_ps s = None /\ b_pr s = Some (nseq 2 (Fin 1)).
Proof. by split; rewrite //= !mulr1. Qed.
(** Outputs given as a flat list: one row. *)
Example C89_hypotheses_met :
  let s0 := BP (eX RR) (Nd [:: 1; 2]%N [:: 0; 1 : RR]) (edom RR) None None None false None None in
  bayes_init rdtab id (eX RR) (nd1 [:: 0; 1]) false (Some (edom RR)) = Ok s0 /\
  let s := (set_likelihood repdf relogpdf (set_prior repdf reunif s0 (Some rlik12)).1
     ([:: [:: 1; 2%:R]], false) false).1 in
  b_pr s = Some [seq Fin x | x <- [:: 1; 2%:R]] /\ b_ll s = Some [:: Fin 2%:R].
Proof. by split=> //; split; rewrite /= ?mulr1 ?mul1r. Qed.
