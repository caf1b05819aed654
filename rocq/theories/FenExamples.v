(** Concrete cases for C128 and C129. *)
Set Warnings "-notation-overridden,-ambiguous-paths".
From mathcomp Require Import all_ssreflect all_algebra.
From Coq Require Import String.
From Verif Require Import Py Nd NdProofs UtilModel UtilModel2 DensityModel StModel StProps StExModel PoisModel PoisProps FenModel FenProps.
Set Implicit Arguments. Unset Strict Implicit. Unset Printing Implicit Defensive.
Import Order.Theory GRing.Theory Num.Theory.
Local Open Scope ring_scope.

Section FenExamples.
Variable R : rcfType.
(** A generator that returns the draws 1/(g+1), 1/(g+2), ...; a seed must be nonnegative. *)
Definition xrand (n g : nat) : seq R * nat := (mkseq (fun i => (g + i).+2%:R^-1) n, (g + n)%N).
Definition xseed (k : int) : res nat := if k is Posz n then Ok n else Err ValueError.
Definition xsolve (l : seq R) (x y : R) : R := nth 0 l 0 * x + nth 0 l 1 * y.

Example C128_met : exists dat, run_fenics xseed xrand xsolve (fun g x _ => g * x) 2 1 [:: -4%:R; -4%:R] [:: 0; 0]
    (0, 0) (1, 1) (- 3%:R) (Some (Posz 0)) (VNone R) 7%N = (6%N, Ok dat) /\
  lookup dat "true_vals" = Some (VArr (Nd [:: 1; 1]%N [:: - 3%:R * (0 + (1 - 0) * 2%:R^-1)])).
Proof. by eexists. Qed.
Example C128_box_met n g m : 0 <= nth 0 (xrand n g).1 m < 1.
Proof.
rewrite /xrand /=; case: (ltnP m n) => h; last by rewrite nth_default ?size_mkseq // lexx ltr01.
by rewrite nth_mkseq // invr_ge0 ler0n /= invf_lt1 ?ltr0n // ltr1n.
Qed.
Example C129_met : true_boundary (- 3%:R) [:: 0; 2%:R / 7%:R] = - 3%:R :> R.
Proof.
have gn : - 3%:R < 0 :> R by rewrite oppr_lt0 ltr0n.
have hx : 0 <= nth 0 [:: 0; 2%:R / 7%:R : R] 1 <= 1.
  by rewrite /= divr_ge0 ?ler0n //= ler_pdivr_mulr ?ltr0n // mul1r ler_nat.
by have [_ [_ h] _] := C129_range gn hx; exact: h.
Qed.
End FenExamples.
