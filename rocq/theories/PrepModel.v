(** Model of preprocessing.py. *)
Set Warnings "-notation-overridden,-ambiguous-paths".
From mathcomp Require Import all_ssreflect all_algebra.
From Verif Require Import Py Nd.
Set Implicit Arguments. Unset Strict Implicit. Unset Printing Implicit Defensive.
Import Order.Theory GRing.Theory Num.Theory.
Local Open Scope ring_scope.

Section Prep.
Variable R : rcfType.
Notation nd := (nd R).

(** [a[i, j]] of a 2-D array *)
Definition entry (a : nd) (i j : nat) : R := nth 0 (data a) (i * dim a 1 + j).

(** sklearn's StandardScaler: mean and population variance of a column; the scale is the
    square root of the variance, 1 for a constant column. *)
Definition col_mean (a : nd) (j : nat) : R := (\sum_(i <- iota 0 (dim a 0)) entry a i j) / (dim a 0)%:R.
Definition col_var (a : nd) (j : nat) : R :=
  (\sum_(i <- iota 0 (dim a 0)) (entry a i j - col_mean a j) ^+ 2) / (dim a 0)%:R.
Definition col_scale (a : nd) (j : nat) : R :=
  if col_var a j == 0 then 1 else Num.sqrt (col_var a j).

(** [StandardScaler().fit_transform(a)] for a 2-D array (at least one row and one column,
    otherwise ValueError), as called at preprocessing.py:102 and :169. *)
Definition standardise (a : nd) : res nd :=
  let n := dim a 0 in let p := dim a 1 in
  if (n == 0%N) || (p == 0%N) then Err ValueError else
  Ok (Nd [:: n; p] [seq (nth 0 (data a) q - col_mean a (q %% p)) / col_scale a (q %% p)
                   | q <- iota 0 (n * p)]).

(** Oracles: sklearn's [PCA(n_components).fit_transform], numpy's [svd], with whatever they
    return. *)
Variables (P S : Type).
Variable pca_fit : nd -> int -> res P.
Variable svd_fit : nd -> res S.

(** preprocessing.py:95-104 pca *)
Definition pca (a : nd) (k : int) : res P :=
  if ndim a != 2%N then Err ValueError else X <- standardise a ;; pca_fit X k.
(** preprocessing.py:163-172 svd *)
Definition svd (a : nd) : res S :=
  if ndim a != 2%N then Err ValueError else X <- standardise a ;; svd_fit X.
End Prep.
