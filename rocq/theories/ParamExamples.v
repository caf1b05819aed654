(** Concrete cases for C150. *)
Set Warnings "-notation-overridden,-ambiguous-paths".
From Coq Require Import String ZArith.
From mathcomp Require Import all_ssreflect all_algebra.
From mathcomp.algebra_tactics Require Import ring.
From Verif Require Import Py Nd Xnum XnumProofs UtilModel DensityModel NdProofs UtilModel2 PlotModel PlotProps
  StModel DrawModel PoisModel StExModel PoisExModel PoisExProps PoisExProps3 SimpleModel CompModel CompProps CompExamples ParamProps.
Set Implicit Arguments. Unset Strict Implicit. Unset Printing Implicit Defensive.
Import Order.Theory GRing.Theory Num.Theory.
Local Open Scope ring_scope.

Section Ex.
Variable R : rcfType.
Notation pd := (pd R).
Notation xnum := (xnum R).
(** Kernel density estimates whose value is the sum of their weights. *)
Definition wsum (w : seq xnum) : R := \sum_(x <- w) (if x is Fin v then v else 0).
Definition wkde (_ : nd R) (_ : unit) (w : seq xnum) : res pd := Ok (fun _ => wsum w, false).
Definition upd (_ : pd) (_ : unit) (a : nd R) : res (pdfval xnum) := Ok (P2 [seq [:: Fin 1] | _ <- rows a]).
Definition ukp (_ : pd) (a : nd R) : res (seq xnum) := Ok [seq Fin 1 | _ <- rows a].
Definition unif (_ _ : seq R) : pd := (fun _ => 1, true).
Notation plot := (param_plot upd tt tt unif (unif [::] [::]) wkde ukp id
  (fun src d dom idx => dist_curve (@pgpdf R) (@pgeval R) src (Some d) dom idx 5)).

(** Two samples of two parameters, weights 1 and 2, an initial distribution. *)
Definition x2 : nd R := Nd [:: 2%N; 2%N] [:: 1; 2%:R; 3%:R; 5%:R].
Definition dm : nd R := Nd [:: 2%N; 2%N] [:: 0; 1; 0; 2%:R].
Definition ini : pd := (fun p => nth 0 p 0, true).
Definition before : dprob R pd := DP x2 x2 dm false [:: Fin 1; Fin 2%:R] None None None None None (Some ini) None None.
(** ... and after a fit with update ratios 3 and 4. *)
Definition after : dprob R pd :=
  DP x2 x2 dm false [:: Fin 1; Fin 2%:R] (Some [:: Fin 3%:R; Fin 4%:R]) (Some [:: Fin 3%:R; Fin 8%:R]) None None None (Some ini) None None.

Lemma wdens n (d : pd) : d.2 = false -> density (@pgpdf R) (@pgeval R) n "kde" d d.1.
Proof. exact: kdens. Qed.
Lemma idens : density (@pgpdf R) (@pgeval R) 2 "pdf" ini ini.1.
Proof. exact: pdens. Qed.

(** Everything asked for, after a fit, second parameter (index -1), default range. *)
Definition all_on : ppargs R := PP (Some [:: 7%:R; 9%:R]) None (10%:R^-1) true true true true true.
Lemma est B : estimate upd tt tt unif (unif [::] [::]) wkde ukp (put_dom after B) = (put_dom after B, Ok [:: 3%:R; 5%:R]).
Proof.
rewrite /estimate /mud_point /ensure_up /after /put_dom; cbn [d_up sbind lift].
by rewrite /= ltr_nat.
Qed.
Lemma two_dm : two_columns dm. Proof. by []. Qed.
Example C150_all : exists c1 c2 c3 B,
  [/\ size c1.1 = 4%N, size c2.1 = 4%N, size c3.1 = 4%N, rows B = [:: [:: 0 - 10%:R^-1 * (1 - 0); 1 + 10%:R^-1 * (1 - 0)]; [:: 0 - 10%:R^-1 * (2%:R - 0); 2%:R + 10%:R^-1 * (2%:R - 0)]] &
  plot after (Negz 0) all_on = (put_dom after B, Ok [:: line_of "in" c1; line_of "up" c2; line_of "win" c3; VLine "mud" 5%:R; VLine "true" 9%:R])].
Proof.
have [|||s1 [xr [pr E]]] := @C150_draws R pd unit unit upd tt tt unif (unif [::] [::]) wkde ukp id (@pgpdf R) (@pgeval R)
  after (Negz 0) all_on 1 5 ini ini.1 [:: xmul (Fin 3%:R) (Fin 1); xmul (Fin 4%:R) (Fin 2%:R)]
  (fun _ => wsum [:: xmul (Fin 3%:R) (Fin 1); xmul (Fin 4%:R) (Fin 2%:R)], false)
  (fun _ => wsum [:: xmul (Fin 3%:R) (Fin 1); xmul (Fin 4%:R) (Fin 2%:R)])
  (fun _ => wsum [:: Fin 1; Fin 2%:R], false) (fun _ => wsum [:: Fin 1; Fin 2%:R]) [:: 3%:R; 5%:R]
  (put_dom after (Nd [:: 2%N; 2%N] [:: 0 - 10%:R^-1 * (1 - 0); 1 + 10%:R^-1 * (1 - 0); 0 - 10%:R^-1 * (2%:R - 0); 2%:R + 10%:R^-1 * (2%:R - 0)])) (fun _ => conj two_dm erefl) erefl isT erefl.
- by move=> _; exact: idens.
- by move=> _; split; [split=> //; case=> [|[]] | reflexivity | exact: wdens].
- by move=> _; split; [reflexivity | exact: wdens].
move: pr => [B [wB e1 _]].
have eB : B = Nd [:: 2%N; 2%N] [:: 0 - 10%:R^-1 * (1 - 0); 1 + 10%:R^-1 * (1 - 0); 0 - 10%:R^-1 * (2%:R - 0); 2%:R + 10%:R^-1 * (2%:R - 0)].
  move: wB => [wfB sB rB]; have := rB 0%N isT; have := rB 1%N isT; move: sB wfB; clear; rewrite /nd_wf; case: B => sh dt /= ->.
  by case: dt => [|a [|b [|c [|d []]]]] //= _ [-> ->] [-> ->].
eexists _, _, _, B; split; last first.
- rewrite E; last by []. 
    by rewrite eB.
  by rewrite e1 eB => _; split; [exact: est|].
- by rewrite eB.
- by rewrite size_map.
- by rewrite size_map.
by rewrite size_map.
Qed.

(** Before a fit: the weights 1 and 2 do not count. *)
Definition curves_only : ppargs R := PP None (Some [:: (0, 1); (0, 2%:R)]) 0 true true false false false.
Example C150_before_met w : exists c1 c2, [/\ size c1.1 = 4%N, size c2.1 = 4%N &
  (plot (reweighted before w) 0 curves_only).2 = Ok [:: line_of "in" c1; line_of "up" c2]].
Proof.
rewrite (@C150_before_fit R pd unit unit upd tt tt unif (unif [::] [::]) wkde ukp id _ before 0 curves_only w erefl erefl erefl).
have [|||s1 [xr [pr E]]] := @C150_draws R pd unit unit upd tt tt unif (unif [::] [::]) wkde ukp id (@pgpdf R) (@pgeval R)
  before 0 curves_only 0 5 ini ini.1 [:: Fin 1; Fin 1]
  (fun _ => wsum [:: Fin 1; Fin 1], false) (fun _ => wsum [:: Fin 1; Fin 1])
  ini ini.1 [::] before (fun h => ltac:(discriminate h)) erefl isT erefl.
- by move=> _; exact: idens.
- by move=> _; split; [| reflexivity | exact: wdens].
- by [].
have := E _ I; rewrite [pp_mud _]/= => /(_ (fun h => ltac:(discriminate h))) ->.
by eexists _, _; split; last reflexivity; rewrite size_map.
Qed.

Definition without : dprob R pd := DP x2 x2 dm false [:: Fin 1; Fin 2%:R] None None None None None None None None.
Example C150_no_initial_met : exists B, plot without 0 all_on = (put_dom without B, Err AssertionError) /\ B <> dm.
Proof.
have [//|s1 [xr [[B [wB e1 _]] E]]] := @C150_no_initial R pd unit unit upd tt tt unif (unif [::] [::]) wkde ukp id
  (fun src d dom idx => dist_curve (@pgpdf R) (@pgeval R) src (Some d) dom idx 5) without 0 all_on _ erefl.
exists B; rewrite E e1; split=> // eB; move: wB => [_ _ /(_ 0%N isT)]; rewrite eB /= => -[h _].
have : 10%:R^-1 = 0 :> R by move: h; rewrite subr0 mulr1 sub0r => /eqP; rewrite eq_sym oppr_eq0 => /eqP.
by move/eqP; rewrite invr_eq0 pnatr_eq0.
Qed.
Example C150_bad_index_met : (plot after (Posz 2) all_on).2 = Err IndexError.
Proof.
by have [h _] := @C150_bad_index R pd unit unit upd tt tt unif (unif [::] [::]) wkde ukp id (@pgpdf R) (@pgeval R)
  after (Posz 2) all_on 5 ini (fun _ => conj two_dm erefl) (fun h => ltac:(discriminate h)) erefl erefl; apply: h.
Qed.
End Ex.
