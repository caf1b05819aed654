(** Specification vocabulary for the linear-Gaussian properties.  Nothing here
    mentions the model of the code. *)
Set Warnings "-notation-overridden,-ambiguous-paths".
From mathcomp Require Import all_ssreflect all_algebra.
Set Implicit Arguments. Unset Strict Implicit. Unset Printing Implicit Defensive.
Import Order.Theory GRing.Theory Num.Theory.
Local Open Scope ring_scope.

Section Spec.
Variable R : realFieldType.

(** [u^T M u], a scalar. *)
Definition quad n (M : 'M[R]_n) (u : 'cV[R]_n) : R := (u^T *m M *m u) 0 0.

(** Euclidean inner product and squared norm. *)
Definition dotv n (u v : 'cV[R]_n) : R := \sum_i u i 0 * v i 0.
Definition sqnorm n (u : 'cV[R]_n) : R := dotv u u.

(** Symmetric positive (semi)definite. *)
Definition posdef n (M : 'M[R]_n) : Prop :=
  M^T = M /\ forall u : 'cV[R]_n, u != 0 -> 0 < quad M u.
Definition psd n (M : 'M[R]_n) : Prop :=
  M^T = M /\ forall u : 'cV[R]_n, 0 <= quad M u.

(** The four Penrose equations: [X] is the Moore-Penrose inverse of [A]. *)
Definition is_pinv m n (A : 'M[R]_(m, n)) (X : 'M[R]_(n, m)) : Prop :=
  [/\ A *m X *m A = A, X *m A *m X = X,
      (A *m X)^T = A *m X & (X *m A)^T = X *m A].

(** Squared data misfit of a parameter vector for the affine map A x + b. *)
Definition misfit m n (A : 'M[R]_(m, n)) (b y : 'cV[R]_m) (x : 'cV[R]_n) : R :=
  sqnorm (A *m x + b - y).

(** [x] fits the data at least as well as every other vector. *)
Definition best_fit m n (A : 'M[R]_(m, n)) (b y : 'cV[R]_m) (x : 'cV[R]_n) :=
  forall x', misfit A b y x <= misfit A b y x'.

(** Squared Mahalanobis distance [(x-mu)^T C^-1 (x-mu)]. *)
Definition mahal n (C : 'M[R]_n) (mu x : 'cV[R]_n) : R :=
  quad (invmx C) (x - mu).

(** The Bayesian (Tikhonov) objective: data misfit in the [S]-norm plus prior
    misfit in the [C]-norm. *)
Definition bayes_objective m n (A : 'M[R]_(m, n)) (b y : 'cV[R]_m)
    (mu : 'cV[R]_n) (C : 'M[R]_n) (S : 'M[R]_m) (x : 'cV[R]_n) : R :=
  quad (invmx S) (A *m x + b - y) + quad (invmx C) (x - mu).

(** The data-consistent objective: the Bayesian one with the prior misfit
    removed in the directions the data informs. *)
Definition dc_objective m n (A : 'M[R]_(m, n)) (b y : 'cV[R]_m)
    (mu : 'cV[R]_n) (C : 'M[R]_n) (S : 'M[R]_m) (x : 'cV[R]_n) : R :=
  bayes_objective A b y mu C S x
  - quad (invmx (A *m C *m A^T)) (A *m (x - mu)).

End Spec.
