(** Concrete cases for the wrappers of funs.py (C64, C65, C96, C98), over any real closed
    field, and witnesses that the tempting stronger claims are false of the code. *)
Set Warnings "-notation-overridden,-ambiguous-paths".
From mathcomp Require Import all_ssreflect all_algebra.
From Coq Require Import String.
From Verif Require Import Py Nd Spec LinAlg Dmx LgpModel WmeModel LinProps WmeProps WmeProps2.
From Verif Require Import Xnum XnumProofs UtilModel DensityModel NdProofs BayesModel UtilModel2 UtilProps
  StModel StProps StProps2 StProps3 StProps4 StProps5 StExamples FunsModel FunsProps FunsProps2.
Set Implicit Arguments. Unset Strict Implicit. Unset Printing Implicit Defensive.
Import Order.Theory GRing.Theory Num.Theory.
Local Open Scope ring_scope.

Section FunsExamples.
Variable R : rcfType.
Notation nd := (nd R).
Variable D : Type.
Variable trunc : R -> R.
Notation mud_problem := (mud_problem D trunc (@rnd R)).

Let exlam : nd := Nd [:: 2; 1]%N [:: 0; 1].
Let exqoi : nd := Nd [:: 2; 2]%N [:: 1; 0; 2%:R; 1].
Let exdom : nd := Nd [:: 1; 2]%N [:: 0; 1].

Example C65_generator_met n g : size (rnd R n g).1 = n.
Proof. by rewrite size_map size_iota. Qed.
Example C65_hypotheses_met : [/\ arr_ok 2 exlam, arr_ok 2 exqoi, Nd.shape (col2 exqoi) = [:: 2; 2]%N,
  uses 2 (Some 1) 1 & uses 2 None 2].
Proof. by split=> //; [right|left]. Qed.
Example C65_rejected_met : ((0 : int) < 1) || (Posz (dim (col2 exqoi) 1) < 0) /\
  ((3 : int) < 1) || (Posz (dim (col2 exqoi) 1) < 3).
Proof. by []. Qed.
(** A number of observations that is accepted: sample 0 has the value (1 - (2 + 0)) / 1. *)
Example C65_value : err (@rnd R) exqoi [:: 2%:R; 0] 1 0%N 1 (iota 0 1) 0 = (1 - (2%:R + 0 * 1)) / (1 * Num.sqrt 1).
Proof. by rewrite /err big_cons big_nil /= addr0 /noisy /ent /=. Qed.
Example C65_built_met : exists P, (mud_problem exlam exqoi [:: 2%:R; 0] false (Some exdom) false 1 (Some 1) None None 0%N).2 = Ok P.
Proof.
rewrite (@C65_mud_problem R D trunc nat (@rnd R) C65_generator_met exlam exqoi _ _ _ _ _ _ 1 _ _ 2 2) //; last by right.
by eexists.
Qed.
Example C96_built_met : exists P, (mud_problem exlam exqoi [:: 2%:R; 0] false (Some exdom) false 1 None
  (Some [seq nats c | c <- [:: [:: 0]; [:: 1; 0]]%N]) None 0%N).2 = Ok P.
Proof.
rewrite (@C96_split R D trunc nat (@rnd R) C65_generator_met exlam exqoi _ _ _ _ _ _ 2 _ _ _ 2 2) //; last by left.
by eexists.
Qed.

(** "Only the first num_obs columns matter" is false for split entries below zero: -1 passes
    the test < num_obs and reads the last column of qoi, but the last of the num_obs noise
    terms. *)
Let q_ (v : R) : nd := Nd [:: 1; 2]%N [:: 0; v].
Let lam1 : nd := Nd [:: 1; 1]%N [:: 0].
Let val (q : nat * res (dprob R D)) : R := if q.2 is Ok P then nth 0 (data (dy P)) 0 else 0.
Lemma negative_split v :
  val (mud_problem lam1 (q_ v) [:: 0; 0] false (Some exdom) false 1 (Some 1) (Some [:: [:: -1]]) None 0%N) = v.
Proof.
have E : qoi_split (col2 (q_ v)) [:: 0; 0] [seq x * 1 | x <- (rnd R 1 0).1] 1 1 [:: [:: -1]] = Ok (Nd [:: 1; 1]%N [:: v]).
  have W : wme (nd2 1 [:: [:: v]]) (nd1 [:: 0 + 0%:R * 1]) (Some 1) = Ok [:: v].
    rewrite -[X in nd2 X _]/(size [:: 0 + 0%:R * 1 : R]) wme_rows //; congr (Ok [:: _]).
    by rewrite big_ord1 /= !mulr1 add0r subr0 sqrtr1 mulr1 divr1.
  rewrite /qoi_split; cbn [rmapM rbind].
  have -> : filter (fun i : int => i < Posz 1) [:: -1] = [:: -1] by [].
  have -> : cols_at (col2 (q_ v)) [:: -1] = Ok (nd2 1 [:: [:: v]]) by [].
  have -> : at_ints [:: 0; 0] [:: -1] = Ok [:: (0 : R)] by [].
  have -> : at_ints [seq x * 1 | x <- (rnd R 1 0).1] [:: -1] = Ok [:: (0%:R : R) * 1] by [].
  cbn [rbind]; have -> : vadd [:: (0 : R)] [:: 0%:R * 1] = Ok [:: 0 + 0%:R * 1] by [].
  by cbn [rbind]; rewrite W.
rewrite /FunsModel.mud_problem headE // [obs_count _ _]/=; cbn [rbind].
case e: (rnd R 1 0) => [z g']; have -> : z = (rnd R 1 0).1 by rewrite e.
by rewrite E.
Qed.
Theorem C65_negative_split_refuted : exists sp qa qb, agree_cols 1 qa qb /\
  mud_problem lam1 qa [:: 0; 0] false (Some exdom) false 1 (Some 1) (Some sp) None 0%N <>
  mud_problem lam1 qb [:: 0; 0] false (Some exdom) false 1 (Some 1) (Some sp) None 0%N.
Proof.
exists [:: [:: -1]], (q_ 0), (q_ 1); split; first by split=> // -[|//] [|//] _ _.
by move=> /(f_equal val); rewrite !negative_split => /eqP; rewrite eq_sym oner_eq0.
Qed.

(** ** C98 and C64 *)
Example C98_hypotheses_met : arr_ok 2 exlam /\ uses (dim (col2 exqoi) 1) (Some 2) 2 /\ size [:: 2%:R; 0 : R] = 2%N.
Proof. by split=> //; split=> //; right. Qed.

Example C64_hypotheses_met (BW KW : Type) pdf (nokw : KW) (nobw : BW) uniform (n01 : D) kde kde_pdf pca_c svd_v (init : D) :
  let dp := data_prob pdf nokw nobw uniform n01 kde kde_pdf trunc pca_c svd_v in
  exists P0, [/\ rows (dX P0) = rows (StExamples.exlam R), ddom P0 = StExamples.exdom R, d_w P0 = nseq 2 (Fin 1),
    dy P0 = Nd [:: 2; 1]%N [seq (\sum_(j < 2 * 1) (nth 0 (data (exme R)) j - ent (exdat R) i j) / 1) / Num.sqrt 2%:R
                           | i <- iota 0 2] &
    forall P, dp (StExamples.exlam R) (exdat R) (Some (extv R)) (Some (exme R)) (Some 1) "u"%string
       (Some (StExamples.exdom R)) (Some (exref R)) (Some (exti R)) (Some (exse R)) "wme"%string init = Ok P <->
      exists P1 P2 v, [/\ set_initial pdf nokw uniform P0 (Some init) = (P1, Ok tt),
        set_observed pdf nokw n01 P1 (Some n01) = (P2, Ok tt) &
        estimate pdf nokw nobw uniform n01 kde kde_pdf P2 = (P, Ok v)]].
Proof.
move=> dp; rewrite /dp; apply: C64_data_prob => //; first by left.
- by left.
- by case=> [|[|//]] _; rewrite /ent /= ler01 (ler_nat R 1 2).
- by apply/eqP; exact: oner_neq0.
Qed.
Example C64_default_met : "uniform"%string <> "u"%string /\ "uniform"%string <> "n"%string.
Proof. by []. Qed.
End FunsExamples.
