(** Model of the boundary data of fenics_poisson_solve (examples/fenics.py). *)
Set Warnings "-notation-overridden,-ambiguous-paths".
From mathcomp Require Import all_ssreflect all_algebra.
From Verif Require Import Py Nd PoisModel.
Set Implicit Arguments. Unset Strict Implicit. Unset Printing Implicit Defensive.
Import Order.Theory GRing.Theory Num.Theory.
Local Open Scope ring_scope.

Section Fen.
Variable R : rcfType.
(** fenics.py:97-98: the value of the expression for the true boundary data at a point. *)
Definition true_boundary (gamma : R) (p : seq R) : R :=
  let cons := gamma * (823%:R * 1000%:R + 543%:R) / (125%:R * 100%:R) in (* 823543, 12500 *)
  nth 0 p 1 ^+ 2 * (1 - nth 0 p 1) ^+ 5 * cons.
(** fenics.py:96-100: the Neumann data g_L on the left side. *)
Definition g_L (gamma : R) (lam : option (seq R)) (p : seq R) : R :=
  if lam is Some u then piecewise_eval_from_vector u 1 p else true_boundary gamma p.
End Fen.
