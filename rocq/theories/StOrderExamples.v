(** A concrete case for C158. *)
Set Warnings "-notation-overridden,-ambiguous-paths".
From mathcomp Require Import all_ssreflect all_algebra.
From Coq Require Import String.
From Verif Require Import Py Nd Xnum UtilModel DensityModel StModel StProps StProps3 StProps4 StExamples OrderProps StOrderProps.
Set Implicit Arguments. Unset Strict Implicit. Unset Printing Implicit Defensive.
Import Order.Theory GRing.Theory Num.Theory.
Local Open Scope ring_scope.

Section StOrderExamples.
Variable R : rcfType.
Variables (D : Type) (trunc : R -> R) (pca_components : nd R -> int -> res (nd R)) (svd_v : nd R -> res (nd R)).
Notation mud_problem := (st_mud_problem D trunc pca_components svd_v).
Definition two : option mask := Some (MInts [:: -1; 0]).

(** Both sensors, listed forwards and backwards. *)
Lemma C158_example_sensors : (exists P, mud_problem (exst R) "wme" None None 1 None None two = Ok P) /\
  mud_problem (exst R) "wme" None None 1 None None two = mud_problem (exst R) "wme" None None 1 None None None.
Proof.
have su := C59_hypotheses_met R; split.
  have [ms sd s0 ed hd] := C62_hypotheses_met R.
  by have [P [-> _ _ _]] := @C62_wme_map R D trunc pca_components svd_v _ _ _ _ _ _ _ _ _ None None two (iota 0 2) (iota 0 1) [:: 1; 0]%N 1 _ 1
     su (fun _ => erefl) erefl erefl erefl isT ms sd s0 ed hd; exists P.
by apply: (@C158_sensors_and_times R D trunc pca_components svd_v (exst R) 2 2 2 1 (exdat R) (exlam R) (exse R) (exti R) 1 su _ erefl
   None None None None two (iota 0 2) (iota 0 1) (iota 0 1) (iota 0 2) [:: 1; 0]%N).
Qed.

(** Both samples, listed backwards, with weights. *)
Lemma C158_example_samples w : weights_for 2 w ->
  mud_problem (exst R) "wme" None (omap (pcols [:: 1; 0]%N) w) 1 two None None =
  rmap (reorder [:: 1; 0]%N) (mud_problem (exst R) "wme" None w 1 None None None).
Proof.
have su := C59_hypotheses_met R => hw.
by apply: (@C158_samples R D trunc pca_components svd_v (exst R) 2 2 2 1 (exdat R) (exlam R) (exse R) (exti R) 1 su _ erefl
   None two None None (iota 0 2) [:: 1; 0]%N (iota 0 1) (iota 0 2)).
Qed.
End StOrderExamples.
