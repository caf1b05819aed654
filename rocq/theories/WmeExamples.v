(** Concrete cases meeting the hypotheses of the theorems of WmeProps and WmeProps2. *)
Set Warnings "-notation-overridden,-ambiguous-paths".
From mathcomp Require Import all_ssreflect all_algebra.
From Verif Require Import Py Nd Spec LinAlg Dmx DmxProofs LgpModel FunctionalProofs LinProps WmeModel WmeProps WmeProps2.
Set Implicit Arguments. Unset Strict Implicit. Unset Printing Implicit Defensive.
Import Order.Theory GRing.Theory Num.Theory.
Local Open Scope ring_scope.

Section WmeExamples.
Variable R : rcfType.

Definition ex_op (k : nat) : dmx R := dbuild k 2 (fun i j => (i + j).+1%:R).

Lemma one_ok : (10%:R ^+ 14)^-1 < 1 :> R.
Proof. by rewrite invf_lt1 ?exprn_gt0 ?ltr0n // exprn_egt1 // ltr1n. Qed.

Lemma one_big : 2%:R^-1 < `|1| * 10%:R ^+ 14 :> R.
Proof. exact: (big_enough one_ok). Qed.

(** Two observations, with a number and with a list of deviations. *)
Example ex_tlm : is_ok (transform_linear_map (ex_op 2) [:: 1; 2%:R] (SNum 1)).
Proof. by rewrite C27_accepts_iff /= one_big. Qed.

Example ex_tlm_list : is_ok (transform_linear_map (ex_op 2) [:: 1; 2%:R] (SSeq [:: 1; 1])).
Proof. by rewrite C27_accepts_iff /= one_big. Qed.

(** Repeated observations (hypotheses of C26). *)
Example ex_tlm_repeated : is_ok (transform_linear_map (ex_op 1) [:: 1; 2%:R; 3%:R] (SNum 1)).
Proof. by rewrite C27_accepts_iff /= one_ok. Qed.

(** Two quantities of interest of different kinds; the third data list is ignored. *)
Example ex_setup :
  is_ok (transform_linear_setup [:: ex_op 2; ex_op 1]
           [:: [:: 1; 2%:R]; [:: 1; 2%:R; 3%:R]; [:: 5%:R]] (LNum 1)).
Proof.
rewrite C28_succeeds_iff // /nqoi /=.
by rewrite ex_tlm ex_tlm_repeated.
Qed.

Example ex_lwme : exists p, lwme_init [:: ex_op 2; ex_op 1]
  [:: [:: 1; 2%:R]; [:: 1; 2%:R; 3%:R]] (LNum 1) None None None None None = Ok p.
Proof.
have := @C28_lwme_default_y R [:: ex_op 2; ex_op 1]
   [:: [:: 1; 2%:R]; [:: 1; 2%:R; 3%:R]] (LNum 1) None None None None erefl.
have : is_ok (transform_linear_setup [:: ex_op 2; ex_op 1]
           [:: [:: 1; 2%:R]; [:: 1; 2%:R; 3%:R]] (LNum 1)).
  rewrite C28_succeeds_iff // /nqoi /=.
  by rewrite ex_tlm ex_tlm_repeated.
case: (transform_linear_setup _ _ _) => // -[A b] _.
by case: (lwme_init _ _ _ _ _ _ _ _) => // p _; exists p.
Qed.

(** Mis-sized data and a zero deviation are rejected. *)
Example ex_rejected : is_ok (transform_linear_map (ex_op 2) [:: 1; 2%:R; 1] (SNum 1)) = false.
Proof. by rewrite C27_accepts_iff. Qed.

(** C30: three samples of two observations as a column are rejected. *)
Example ex_column : wme (Nd [:: 3; 2]%N (nseq 6 (1 : R))) (Nd [:: 2; 1]%N [:: 1; 1]) (Some 1)
  = Err ValueError.
Proof.
apply: (@C30_column_rejected R 3 2 (const_mx 1) (const_mx 1)) => //.
- by split=> // i j; rewrite mxE; case: i j => [[|[|[|k]]] hi] [[|[|l]] hj].
- by split=> // i; rewrite mxE; case: i => [[|[|k]] hi].
Qed.
End WmeExamples.
