(** Concrete cases for C139, C140 and C141. *)
Set Warnings "-notation-overridden,-ambiguous-paths".
From Coq Require Import String ZArith Reals Lra.
From mathcomp Require Import all_ssreflect all_algebra.
From mathcomp.algebra_tactics Require Import ring.
From Verif Require Import Py Nd Xnum XnumProofs UtilModel DensityModel NdProofs RealsStruct PlotModel PlotProps
  BayesModel BayesProps BayesProps2 StModel PoisModel StExModel PoisExModel SimpleModel SimpleProps SimpleExamples CompModel CompProps CompProps2 CompProps3.
Set Implicit Arguments. Unset Strict Implicit. Unset Printing Implicit Defensive.
Import Order.Theory GRing.Theory Num.Theory.
Local Open Scope ring_scope.

Section Plain.
Variable R : rcfType.
(** A distribution: its density, and whether it is one of scipy's frozen distributions. *)
Definition pd : Type := ((seq R -> R) * bool)%type.
Definition pgpdf (d : pd) (pts : seq (seq R)) : res (seq (seq R)) := Ok [seq [:: d.1 p] | p <- pts].
Definition pgeval (d : pd) (pts : seq (seq R)) : res (seq R) := if d.2 then Err TypeError else Ok (map d.1 pts).
(** A kernel density estimate: the sum of the data plus the first coordinate. *)
Definition pkde (y : nd R) (_ : unit) (w : seq (xnum R)) : res pd :=
  Ok (fun p => \sum_(v <- data y) v + nth 0 p 0, false).
Lemma pdens n (d : pd) : density pgpdf pgeval n "pdf" d d.1.
Proof.
by move=> pts _ _ /=; exists [seq [:: d.1 p] | p <- pts]; split=> //; rewrite -map_comp; apply/eq_map => p /=; rewrite big_seq1.
Qed.
Lemma kdens n (d : pd) : d.2 = false -> density pgpdf pgeval n "kde" d d.1.
Proof. by move=> h pts _ _ /=; rewrite /pgeval h. Qed.

Definition y2 : nd R := Nd [:: 2%N; 2%N] [:: 1; 2%:R; 3%:R; 5%:R].
Definition obs_d : pd := (fun p => nth 0 p 0 + 2%:R * nth 0 p 1, true).
Definition pre_d : pd := (fun p => nth 0 p 0 * nth 0 p 1, false).
Definition s0 : dprob R pd :=
  DP y2 y2 (Nd [:: 2%N; 2%N] [:: 0; 1; 0; 1]) false [:: Fin 1; Fin 2%:R] (Some [:: Fin 3%:R; Fin 4%:R]) None None None None
     None (Some pre_d) (Some obs_d).
Definition yr2 : seq (R * R) := [:: (0, 2%:R); (2%:R, 4%:R)].

(** C139: two observables, the second asked for; all three curves. *)
Example C139_two : exists w e fe,
  [/\ push_weights s0 w, pkde (dy s0) tt w = Ok e, density pgpdf pgeval 2 "kde" e fe &
  obs_plot tt pgpdf pgeval (fun d => d.2) pkde s0 (Posz 1) (Some yr2) (Posz 4) (OSet (Some "o"%string)) (OSet (Some "p"%string)) (OSet (Some "f"%string)) =
  Ok [:: line_of "o" (scaled_curve yr2 4 obs_d.1 1 0); line_of "p" (scaled_curve yr2 4 pre_d.1 1 1); line_of "f" (scaled_curve yr2 4 fe 1 1)]].
Proof.
have hw : push_weights s0 [:: xmul (Fin 1) (Fin 3%:R); xmul (Fin 2%:R) (Fin 4%:R)] by split=> //; case=> [|[]].
pose e : pd := (fun p => \sum_(v <- data (dy s0)) v + nth 0 p 0, false).
exists [:: xmul (Fin 1) (Fin 3%:R); xmul (Fin 2%:R) (Fin 4%:R)], e, e.1; split; [exact: hw | reflexivity | exact: kdens |].
rewrite (@C139_two_observables R pd unit tt pgpdf pgeval (fun d => d.2) pkde s0 1 yr2 4 "o" "p" "f"
  obs_d obs_d.1 pre_d pre_d.1 _ _ _ erefl erefl isT isT erefl (@pdens 2 obs_d) erefl (@kdens 2 pre_d erefl) hw erefl (@kdens 2 e erefl)).
by [].
Qed.
(** ... and the two curves of the two observables are not the same: the pdf of [obs_d] sums, over
    its slices of the first coordinate, to other values than over those of the second. *)
Example C139_two_differ : slice_sum yr2 3 obs_d.1 0 0 <> slice_sum yr2 3 obs_d.1 1 0.
Proof.
rewrite /slice_sum /= !(big_cons, big_nil) /= /tick /= => h.
have /eqP : 10%:R = 9%:R :> R by transitivity (0 + 0%:R * ((2%:R - 0) / 2%:R) + 2%:R * (2%:R + 0%:R * ((4%:R - 2%:R) / 2%:R)) +
 (0 + 0%:R * ((2%:R - 0) / 2%:R) + 2%:R * (2%:R + 1%:R * ((4%:R - 2%:R) / 2%:R)) + 0) : R); [field | rewrite h; field].
by rewrite eqr_nat.
Qed.
Example C139_errors_met : d_pr_dist s0 <> None /\ size yr2 = dim (dy s0) 1.
Proof. by []. Qed.
Example C139_default_range_met : ndim (dy s0) = 2%N /\ (0 < dim (dy s0) 0)%N.
Proof. by []. Qed.

(** C140: a problem with prior and likelihood values; its estimate is its second sample. *)
Definition pspdf (d : pd) (a : nd R) : res (pdfval (xnum R)) := Ok (P2 [seq [:: Fin (d.1 r)] | r <- rows a]).
Definition punif (_ _ : seq R) : pd := (fun _ => 1, true).
Definition x1 : nd R := Nd [:: 2%N; 1%N] [:: 1; 2%:R].
Definition b0 : bprob R pd :=
  BP x1 x1 (Nd [:: 1%N; 2%N] [:: 0; 3%:R]) None (Some [:: Fin 1; Fin 1]) (Some [:: Fin 1; Fin 2%:R]) false (Some obs_d) (Some (punif [::] [::])).
Definition b1 : bprob R pd :=
  BP x1 x1 (Nd [:: 1%N; 2%N] [:: 0; 3%:R]) (Some [:: Fin 1; Fin 2%:R]) (Some [:: Fin 1; Fin 1]) (Some [:: Fin 1; Fin 2%:R]) false (Some obs_d) (Some (punif [::] [::])).
Lemma b0_map : map_point pspdf punif id b0 = (b1, Ok [:: 2%:R]).
Proof.
have ef : bfit pspdf punif id b0 = (b1, Ok tt).
  rewrite /bfit; cbn [b0 b_pr sbind b_ll b_log odflt oapp]; rewrite /combine /=.
  rewrite !mul1r addr0 (_ : (1 + 2%:R == 0 :> R) = false) //.
  by rewrite gt_eqF // addr_gt0 ?ltr01 ?ltr0n.
rewrite /map_point; cbn [b0 b_ps]; rewrite -/b0 ef; cbn [sbind b1 b_ps odflt oapp].
by rewrite /= ltr1n.
Qed.
(** C140: all four things drawn, the true value given. *)
Example C140_param_met : exists cp cs,
  [/\ size cp.1 = 9%N, size cs.1 = 9%N &
  bparam_plot tt pgpdf pgeval pkde pspdf punif id b0 (Posz 0) None (Posz 10) (OSet None) OEmpty (OSet (Some "m"%string)) (OSet None) (Some [:: 1]) =
  (b1, Ok [:: line_of "Prior" cp; line_of "Posterior" cs; VLine "m" 2%:R; VLine "$\lambda^{\dagger}$" 1])].
Proof.
pose e : pd := (fun p => \sum_(v <- data (bX b0)) v + nth 0 p 0, false).
exists (scaled_curve [:: (0, 3%:R)] 10 (punif [::] [::]).1 0 0), (scaled_curve [:: (0, 3%:R)] 10 e.1 0 0); split; rewrite ?size_map //.
by rewrite (@C140_param_curves R pd unit tt pgpdf pgeval pkde pspdf punif id b0 b1 (Posz 0) 0 10 (OSet None) OEmpty (OSet (Some "m"%string)) (OSet None) (Some [:: 1]) None [:: 2%:R]
  (punif [::] [::]) (punif [::] [::]).1 [:: Fin 1; Fin 2%:R] e e.1 erefl isT erefl (@pdens _ _) b0_map erefl erefl erefl erefl (@kdens _ e erefl)).
Qed.
Example C140_prior_first_met : let b := BP x1 x1 (Nd [:: 1%N; 2%N] [:: 0; 3%:R]) None None None false None (None : option pd) in
  bparam_plot tt pgpdf pgeval pkde pspdf punif id b (Negz 0) None (Posz 10) OEmpty ONone ONone ONone None = (b, Err AttributeError).
Proof. by move=> b; apply: (@C140_prior_first R pd unit tt pgpdf pgeval pkde pspdf punif id b _ 0). Qed.

(** C140: plot_obs_space with a likelihood whose pdf acts entry by entry; two observables. *)
Definition qpdf (g : R -> R) (rs : seq (seq R)) : res (seq (seq R)) := Ok (map (map g) rs).
Definition qeval (g : R -> R) (pts : seq (seq R)) : res (seq R) := Ok [seq g (nth 0 p 0) * nth 0 p 1 | p <- pts].
Definition qkde (y : nd R) (_ : unit) (w : seq (xnum R)) : res (R -> R) := Ok (fun x => \sum_(v <- data y) v + x).
Definition q0 : bprob R (R -> R) :=
  BP y2 y2 (Nd [:: 2%N; 2%N] [:: 0; 1; 0; 1]) None None (Some [:: Fin 1; Fin 2%:R]) false (Some (fun x => x + 1)) None.
Example C140_obs_met : exists fe,
  bobs_plot tt qpdf qeval qkde q0 (Negz 0) None (Posz 4) OEmpty (OSet None) =
  Ok [:: line_of "Data-Likelihood" (raw_curve [:: (-1, 1); (-1, 1)] 4 (fun p => \prod_(x <- p) (x + 1)) 1 0);
         line_of "PF of Posterior" (raw_curve [:: (-1, 1); (-1, 1)] 4 fe 1 0)].
Proof.
pose g x := \sum_(v <- data y2) v + x : R.
exists (fun p => g (nth 0 p 0) * nth 0 p 1).
by rewrite (@C140_obs_curves R (R -> R) unit tt qpdf qeval qkde q0 (Negz 0) 1 4 None OEmpty (OSet None)
  [:: Fin 1; Fin 2%:R] (fun x => x + 1) (fun x => x + 1) g (fun p => g (nth 0 p 0) * nth 0 p 1)).
Qed.
End Plain.

(** ** C141, and C140 for several data, over the real numbers *)
(** A kernel density estimate is determined by the last number of its data: x^2 + last. *)
Definition ckde (y : nd RR) (bw : unit) (w : seq (xnum RR)) : res RR := Ok (last 0 (data y)).
Definition ckde_pdf (k : RR) (y : nd RR) : res (seq (xnum RR)) := Ok (nseq (dim y 0) (Fin 1)).
Definition ckde_at (k : RR) (pts : seq (seq RR)) : res (seq RR) := Ok [seq nth 0 p 0 ^+ 2 + k | p <- pts].
Lemma c_estimates (k : RR) : estimates ckde_at k (fun x => x ^+ 2 + k).
Proof. by []. Qed.
Notation cpass := (@comparison_pass RR rexp rcpi RR ckde ckde_pdf id Rpower.ln).
Notation cfigs := (@figure_pass RR rexp rcpi RR ckde ckde_pdf ckde_at id Rpower.ln).
Notation crun := (@run_comparison_example RR rexp rcpi RR ckde ckde_pdf ckde_at id Rpower.ln).
Lemma pass4 : exists D B, cpass 5 5 (1 / 4%:R) (1 / 10%:R) [:: -1; 1] true 4 eu ez = Ok (D, B).
Proof.
have := @C120_returns RR rexp rcpi RR ckde ckde_pdf id Rpower.ln rcpi_pos rexp_pos rexp_incr rexp_add
  5 5 (1 / 4%:R) (1 / 10%:R) (-1) 1 true 4 eu ez.
have h : has (fun x : RR => -1 <= x <= 1) (mkseq eu `|5%:Z|%N).
  apply/hasP; exists (eu 0); first by apply/mapP; exists 0%N.
  have /andP [h1 h2] := eu01 0; rewrite (ltW h2) andbT; apply: le_trans h1; by rewrite oppr_le0 ler01.
rewrite h; case: (cpass _ _ _ _ _ _ _ _ _) => [[D B]|]; first by exists D, B.
move=> e k; exfalso; suff: false = true by []; apply: k => //.
- by rewrite (lt_trans (_ : -1 < 0)) ?ltr01 ?oppr_lt0 ?ltr01.
- by rewrite div1r invr_gt0 ltr0n.
- by move=> xs _; eexists; exists (nseq (size xs) (Fin 1)); rewrite size_nseq.
Qed.

Definition names (m : seq (mark RR)) : seq string := [seq if m is DensityCurve l _ _ then l else "-"%string | m <- m].
(** C141: the two figures of a pass with N = 4. *)
Example C141_figures_met sp cl : exists f1 f2 r,
  [/\ cfigs 5 5 (1 / 4%:R) (1 / 10%:R) [:: -1; 1] true 4 eu ez sp cl = ([:: f1; f2], Ok r),
      names (cf_marks f1) = [:: "Initial/Prior"; "Updated"; "Posterior"; "-"]%string,
      names (cf_marks f2) = [:: "$N(0.25,0.1^2)$"; "PF of Initial"; "PF of Updated"; "PF of Posterior"; "-"]%string,
      sp = Some "out"%string -> cf_file f1 = Some "out/bip-vs-sip-4.png"%string &
      sp = Some "out"%string -> cf_file f2 = Some "out/bip-vs-sip-pf-4.png"%string].
Proof.
have [D [B P]] := pass4.
have hsz (k : RR) n (v : seq RR) pr : ckde_pdf k (Nd [:: n; 1%N] v) = Ok pr -> size pr = n by case=> <-; rewrite size_nseq.
have ab : (-1 : RR) < 1 by rewrite (lt_trans (_ : -1 < 0)) ?ltr01 ?oppr_lt0 ?ltr01.
have s0 : (0 : RR) < 1 / 10%:R by rewrite div1r invr_gt0 ltr0n.
have [xs [data_ [rs [k0 [_ _ h0 h]]]]] := C141_figures ckde_at sp cl hsz P ab s0 isT.
pose ws := mkseq (fun i => Fin ((if -1 <= nth 0 xs i <= 1 then 1 / (1 - -1) else 0) *
   \prod_(d <- data_) nval rexp rcpi d (1 / 10%:R) (nth 0 xs i ^+ 5)) : xnum RR) (size xs).
have hw : forall i, (i < size xs)%N -> nth NaN ws i = Fin ((if -1 <= nth 0 xs i <= 1 then 1 / (1 - -1) else 0) *
   \prod_(d <- data_) nval rexp rcpi d (1 / 10%:R) (nth 0 xs i ^+ 5)) by move=> i hi; rewrite nth_mkseq.
have := h ws _ _ _ _ _ _ _ _ _ (size_mkseq _ _) hw erefl erefl erefl erefl (@c_estimates _) (@c_estimates _) (@c_estimates _) (@c_estimates _) (@c_estimates _).
move=> ->; eexists; eexists; eexists; split; [reflexivity| | | |] => //; by move=> ->.
Qed.
(** ... and a run over two sizes. *)
Example C141_run_met : exists fs rs,
  crun 5 5 (1 / 4%:R) (1 / 10%:R) [:: -1; 1] true [:: Posz 4; Posz 4] (fun _ => (eu, ez)) None false = (fs, Ok rs) /\ size fs = 4%N.
Proof.
have [f1 [f2 [r [h _ _ _ _]]]] := C141_figures_met None false.
exists [:: f1; f2; f1; f2], [:: r; r]; rewrite /run_comparison_example; cbn [fst snd]; by rewrite h.
Qed.
(** A run whose second pass stops (no data: N = 0). *)
Example C141_stops_met : exists fs e,
  crun 5 5 (1 / 4%:R) (1 / 10%:R) [:: -1; 1] true [:: Posz 4; Negz 0; Posz 4] (fun _ => (eu, ez)) None false = (fs, Err e) /\ size fs = 2%N.
Proof.
have [f1 [f2 [r [h _ _ _ _]]]] := C141_figures_met None false.
by exists [:: f1; f2], ValueError; rewrite /run_comparison_example; cbn [fst snd]; rewrite h.
Qed.

(** C140: two data cannot be drawn. *)
Example C140_several_data_met :
  let b := BP (x1 RR) (x1 RR) (Nd [:: 1%N; 2%N] [:: 0; 3%:R]) None None (Some [:: Fin 1; Fin 2%:R]) false
     (Some (Nor [:: Fin 1; Fin 2%:R] 1 : sdist RR RR)) None in
  bobs_plot tt (@grid_pdf RR rexp rcpi RR ckde_pdf) (@grid_eval RR RR ckde_at) (@skde RR RR ckde) b (Posz 0) None (Posz 1000) OEmpty ONone = Err ValueError.
Proof.
by move=> b; apply: (@C140_several_data RR rexp rcpi RR ckde ckde_pdf ckde_at b (Posz 0) 0 1000 None ONone OEmpty _ [:: Fin 1; Fin 2%:R] 1).
Qed.
