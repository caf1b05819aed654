(** Concrete cases for C121 and C122: over the real numbers of the standard library with its
    exponential function and rounding for C121, over any real closed field for C122. *)
Set Warnings "-notation-overridden,-ambiguous-paths".
From Coq Require Import String Reals Lra ZArith.
From mathcomp Require Import all_ssreflect all_algebra.
From Verif Require Import Py Nd Xnum UtilModel DensityModel UtilModel2 RealsStruct StModel StProps StProps5
  SimpleModel StExModel StExProps SimpleExamples.
Set Implicit Arguments. Unset Strict Implicit. Unset Printing Implicit Defensive.
Import Order.Theory GRing.Theory Num.Theory.
Local Open Scope ring_scope.

(** Rounding up. *)
Definition int_of (z : Z) : int :=
  match z with Z0 => 0 | Zpos p => Posz (Pos.to_nat p) | Zneg p => - Posz (Pos.to_nat p) end.
Definition rceil (x : RR) : int := int_of (Z.sub 1 (up (Ropp x))).

Lemma INR_natr n : INR n = n%:R :> RR.
Proof. by elim: n => [//|n ih]; rewrite S_INR ih -addn1 natrD. Qed.
Lemma int_ofE z : (int_of z)%:~R = IZR z :> RR.
Proof.
case: z => [//|p|p] /=; first by rewrite -[LHS]/((Pos.to_nat p)%:R) -INR_natr INR_IPR.
by rewrite mulrNz -[X in - X]/((Pos.to_nat p)%:R) -INR_natr INR_IPR.
Qed.
Lemma rceilP (x : RR) : (rceil x)%:~R - 1 < x <= (rceil x)%:~R.
Proof.
rewrite /rceil int_ofE minus_IZR; have [h1 h2] := archimed (Ropp x).
apply/andP; split; [apply/RltP | apply/RleP].
  by change (Rlt (Rplus (Rminus (IZR 1) (IZR (up (Ropp x)))) (Ropp (IZR 1))) x); lra.
lra.
Qed.
Lemma rexp_inj (x y : RR) : rexp x = rexp y -> x = y.
Proof. exact: exp_inv. Qed.

Notation exp1_ := (exp_decay_1D rexp rceil).
(** C121: the default arguments with 4 samples, time_range = [0, 3], lambda_true = 1/2 (the second
    sample), t_start = 0, freq = 2. *)
Lemma ex_exp1 : exists s, exp1_ (3%:R / 4%:R) (0, 3%:R) [:: 0; 1] 4 (1 / 2%:R) 0 2%:R (1 / 10%:R) eu = Ok s.
Proof.
have := C121_errors rexp rceilP (3%:R / 4%:R) (0, 3%:R) [:: 0; 1] 4 (1 / 2%:R) 0 2%:R (1 / 10%:R) eu.
cbv zeta; cbn [size nth]; rewrite !ltnn /= pnatr_eq0 /= ler01 /=.
by case: (exp1_ _ _ _ _ _ _ _ _ _) => // s _; exists s.
Qed.

Example C121_hypotheses_met : exists s,
  exp1_ (3%:R / 4%:R) (0, 3%:R) [:: 0; 1] 4 (1 / 2%:R) 0 2%:R (1 / 10%:R) eu = Ok s /\
  n_ts s = Ok 6%N /\ get_closest_to_true_vals s = Ok [:: 1 / 2%:R].
Proof.
have [s es] := ex_exp1; exists s; split=> //.
have a01 : (0 : RR) <= 1 by exact: ler01.
have f0 : (2%:R : RR) != 0 by rewrite pnatr_eq0.
have [xs [ts [tv [d [e [_ _ ht _ _]]]]]] := C121_exp_decay rexp rceilP (3%:R / 4%:R) (0, 3%:R) 4 (1 / 2%:R) 0 (1 / 10%:R) eu a01 f0.
have nts : n_ts s = Ok 6%N.
  move: es; rewrite e => -[<-]; rewrite /n_ts /= /shape0 /= /dim /=; congr Ok.
  have lt j : (j < size ts)%N = (j < 6)%N.
    by rewrite ht ltr0n /= add0r ltr_pdivr_mulr ?ltr0n // -natrM ltr_nat.
  apply/eqP; rewrite eqn_leq; apply/andP; split; first by rewrite leqNgt lt.
  by have := lt 5%N => /esym <-.
split=> //; apply: (C121_recovers rceilP rexp_inj (i0 := 1) (j0 := 1) es) => //.
- by rewrite mulf_neq0 // ?invr_eq0 pnatr_eq0.
- by rewrite /eu subr0 add0r mul1r; rewrite div1r; apply/eqP; rewrite subr_eq -mulr2n -[_ *+ 2]mulr_natr mulVf // pnatr_eq0.
- by move=> nt; rewrite nts => -[<-].
- by rewrite add0r div1r invr_eq0 pnatr_eq0.
Qed.

(** C122: what load_poisson_prob makes of the data set run_fenics returns for three samples, two
    sensors and two parameters. *)
Section Ex122.
Variable R : rcfType.
Definition greseed (q : int) : res nat := if q is Posz n then Ok n else Err ValueError.
Definition gdraw (n : nat) (g : nat) : seq R * nat := (mkseq (fun i => (g + i).+1%:R^-1) n, (g + n)%N).
Definition gsolve (l : seq R) (x y : R) := nth 0 l 0 * x + nth 0 l 1 * y.
Definition gsolve_gamma (gamma x y : R) := gamma * (x + y).
Notation fenics_ := (run_fenics greseed gdraw gsolve gsolve_gamma).
Lemma size_gdraw n g : size (gdraw n g).1 = n. Proof. by rewrite size_mkseq. Qed.

Example C122_hypotheses_met : exists g1 ds,
  fenics_ 3 2 [:: -4%:R; -4%:R] [:: 0; 0] (0, 0) (1, 1) (-3%:R) (Some 21%:Z) (VNone R) 0%N = (g1, Ok ds) /\
  exists g2 s, load_poisson_prob greseed gdraw (Ok ds) 7%:R (Some 5%:Z) 0%N = (g2, Ok (ds, s)) /\
    s_sd s = Some (5%:R / 100%:R) /\ n_ts s = Ok 1%N /\ n_sensors s = Ok 2%N.
Proof.
case E : (fenics_ _ _ _ _ _ _ _ _ _ _) => [g1 [ds|e]]; last by [].
exists g1, ds; split=> //.
have k0 : (0 : int) < 2 by [].
have [n [k [se [lams [en ek [h1 h2] h3 /= h]]]]] := C122_pipeline (seed' := Some 5%:Z) (g' := 0%N) (g1' := 5%N) size_gdraw 7%:R E k0 erefl.
rewrite h; eexists; eexists; split; first reflexivity.
case: ek h1 h2 => <- h1 _; split; [done|split; first done].
by rewrite /n_sensors /= /shape0 /= /dim /= h1.
Qed.
(** ... and a data set with lam_ref, times, which load_adcirc_prob reads. *)
Definition ads : dset R :=
  [:: ("domain", VArr (Nd [:: 1; 2]%N [:: 0; 1])); ("times", VArr (nd1 [:: 0; 1; 2%:R]));
      ("lam_ref", VArr (nd1 [:: 1])); ("true_vals", VArr (nd1 [:: 4%:R; 5%:R; 6%:R]));
      ("lam", VArr (Nd [:: 2; 1]%N [:: 0; 1])); ("data", VArr (Nd [:: 2; 3]%N [:: 1; 2%:R; 3%:R; 4%:R; 5%:R; 6%:R]))]%string.
Example C122_adcirc_met : exists g1 s,
  load_adcirc_prob greseed gdraw (Ok ads) 7%:R None (nd1 [:: 0]) 0%N = (g1, Ok (ads, s)) /\
  is_ok (load_poisson_prob greseed gdraw (Ok ads) 7%:R None 0%N).2 = false.
Proof.
eexists; eexists; split; last exact: C122_poisson_refuses.
apply: (@C122_adcirc_loads R _ greseed gdraw size_gdraw ads 7%:R None 0%N 0%N 2 1 1 3) => //.
by case=> // _; rewrite /ent /= ler01 lexx.
Qed.
End Ex122.
