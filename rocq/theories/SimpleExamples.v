(** Concrete cases for C116-C120, over the real numbers of the standard library with its
    exponential function. *)
Set Warnings "-notation-overridden,-ambiguous-paths".
From Coq Require Import Reals Lra.
From mathcomp Require Import all_ssreflect all_algebra.
From Verif Require Import Py Nd Xnum XnumProofs UtilModel DensityModel NdProofs RealsStruct
  BayesModel BayesProps BayesProps2 SimpleModel SimpleProps.
Set Implicit Arguments. Unset Strict Implicit. Unset Printing Implicit Defensive.
Import Order.Theory GRing.Theory Num.Theory.
Local Open Scope ring_scope.

Notation RR := R_rcfType.
Notation rexp := (Rtrigo_def.exp : RR -> RR).
(** 1 / sqrt(2 pi) *)
Definition rcpi : RR := Rdiv (IZR 1) (R_sqrt.sqrt (Rmult (IZR 2) Rtrigo1.PI)).

Lemma rcpi_pos : 0 < rcpi.
Proof.
have h : Rlt (IZR 0) rcpi.
  apply: Rdiv_lt_0_compat; first exact: Rlt_0_1.
  apply: R_sqrt.sqrt_lt_R0; apply: Rmult_lt_0_compat; [lra | exact: Rtrigo1.PI_RGT_0].
by apply/RltP.
Qed.
Lemma rexp_pos (x : RR) : 0 < rexp x.
Proof. by apply/RltP; apply: Exp_prop.exp_pos. Qed.
Lemma rexp_incr (x y : RR) : x < y -> rexp x < rexp y.
Proof. by move=> /RltP h; apply/RltP; apply: Rpower.exp_increasing. Qed.
Lemma rexp_add (x y : RR) : rexp (x + y) = rexp x * rexp y.
Proof. exact: Exp_prop.exp_plus. Qed.

(** A kernel density estimate: its value is 1 at every point. *)
Definition ekde (y : nd RR) (bw : unit) (w : seq (xnum RR)) : res unit := Ok tt.
Definition ekde_pdf (k : unit) (y : nd RR) : res (seq (xnum RR)) := Ok (nseq (dim y 0) (Fin 1)).
(** Draws: 0, 1/2, 2/3, ... from [0, 1); standard normal draws 0, 1, 2, ... *)
Definition eu (j : nat) : RR := 1 - j.+1%:R^-1.
Definition ez (j : nat) : RR := j%:R.
Notation dprob_ := (@identity_1D_density_prob RR rexp rcpi unit ekde ekde_pdf id).
Notation bprob_ := (@identity_1D_bayes_prob RR rexp rcpi unit ekde_pdf id).
Notation pass_ := (@comparison_pass RR rexp rcpi unit ekde ekde_pdf id Rpower.ln).

Lemma eu01 j : 0 <= eu j < 1.
Proof.
rewrite /eu subr_ge0 invr_le1 ?unitfE ?pnatr_eq0 ?ltr0n // ler1n /=.
by rewrite ltr_subl_addr ltr_addl invr_gt0 ltr0n.
Qed.

Example C116_hypotheses_met : exists lam q d,
  polynomial_1D_data 3 5 2 eu (1 / 4%:R) (1 / 10%:R) 4 ez = Ok (lam, q, d).
Proof. by eexists; eexists; eexists. Qed.

(** C117, C118, C119: the two problems from the same draws. *)
Example C119_hypotheses_met : exists D B,
  [/\ dprob_ 5 4 (1 / 4%:R) (1 / 10%:R) None None false [:: 0; 1] false true eu ez = Ok D,
      bprob_ 5 4 (1 / 4%:R) (1 / 10%:R) None eu ez = Ok B,
      forall j, 0 <= eu j < 1, (0 : RR) < 1 / 10%:R & (0 : int) < 4].
Proof.
have := @C117_returns RR rexp rcpi unit ekde ekde_pdf id 5 4 (1 / 4%:R) (1 / 10%:R) None false [:: 0; 1] false true eu ez.
case: (dprob_ _ _ _ _ _ _ _ _ _ _ _ _) => [D _|e]; last by rewrite /= ler01.
have := @C118_returns RR rexp rcpi unit ekde_pdf id 5 4 (1 / 4%:R) (1 / 10%:R) None eu ez.
case: (bprob_ _ _ _ _ _ _ _) => [B _|e]; last by [].
exists D, B; split=> //; first exact: eu01.
by rewrite div1r invr_gt0 ltr0n.
Qed.
(** ... and what C119 says of them. *)
Corollary C119_real ns no (mu sigma : RR) nrm dint draws z D B :
  dprob_ ns no mu sigma None None nrm [:: 0; 1] dint true draws z = Ok D ->
  bprob_ ns no mu sigma None draws z = Ok B ->
  (forall j, 0 <= draws j < 1) -> 0 < sigma -> 0 < no ->
  (sd_mud rexp rcpi ekde ekde_pdf D).2 = (sb_map rexp rcpi ekde_pdf Rpower.ln B).2.
Proof.
by move=> h1 h2 h3 h4 h5; have [] := @C119_default RR rexp rcpi unit ekde ekde_pdf id Rpower.ln rcpi_pos rexp_pos rexp_incr rexp_add
  _ _ _ _ _ _ _ _ _ _ h1 h2 h3 h4 h5.
Qed.

(** C120: a pass that returns, and one that raises ValueError (no sample in the domain). *)
Example C120_hypotheses_met : exists D B, pass_ 5 5 (1 / 4%:R) (1 / 10%:R) [:: -1; 1] true 4 eu ez = Ok (D, B).
Proof.
have := @C120_returns RR rexp rcpi unit ekde ekde_pdf id Rpower.ln rcpi_pos rexp_pos rexp_incr rexp_add
  5 5 (1 / 4%:R) (1 / 10%:R) (-1) 1 true 4 eu ez.
have h : has (fun x : RR => -1 <= x <= 1) (mkseq eu `|5%:Z|%N).
  apply/hasP; exists (eu 0); first by apply/mapP; exists 0%N.
  have /andP [h1 h2] := eu01 0; rewrite (ltW h2) andbT; apply: le_trans h1; by rewrite oppr_le0 ler01.
rewrite h; case: (pass_ _ _ _ _ _ _ _ _ _) => [[D B]|]; first by exists D, B.
move=> e k; exfalso; suff: false = true by []; apply: k => //.
- by rewrite (lt_trans (_ : -1 < 0)) ?ltr01 ?oppr_lt0 ?ltr01.
- by rewrite div1r invr_gt0 ltr0n.
- by move=> xs _; exists tt, (nseq (size xs) (Fin 1)); rewrite size_nseq.
Qed.
Example C120_raises_met : pass_ 5 5 (1 / 4%:R) (1 / 10%:R) [:: 2%:R; 3%:R] false 4 eu ez = Err ValueError.
Proof.
have := @C120_returns RR rexp rcpi unit ekde ekde_pdf id Rpower.ln rcpi_pos rexp_pos rexp_incr rexp_add
  5 5 (1 / 4%:R) (1 / 10%:R) 2%:R 3%:R false 4 eu ez.
have -> : has (fun x : RR => 2%:R <= x <= 3%:R) (mkseq eu `|5%:Z|%N) = false.
  apply/negbTE/hasPn => x /mapP [j _ ->]; have /andP [_ h] := eu01 j.
  by rewrite negb_and -ltNge (lt_trans h) ?ltr1n.
move=> k; apply: k => //.
- by rewrite ltr_nat.
- by rewrite div1r invr_gt0 ltr0n.
- by move=> xs _; exists tt, (nseq (size xs) (Fin 1)); rewrite size_nseq.
Qed.
