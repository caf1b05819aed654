(** Model of util.fit_domain and util.set_shape. *)
Set Warnings "-notation-overridden,-ambiguous-paths".
From mathcomp Require Import all_ssreflect all_algebra.
From Verif Require Import Py Nd.
Set Implicit Arguments. Unset Strict Implicit. Unset Printing Implicit Defensive.
Import Order.Theory GRing.Theory Num.Theory.
Local Open Scope ring_scope.

Section Util.
Variable R : realFieldType.
Notation nd := (nd R).

(** util.py:287-289 set_shape; also the local function base.py:752-753. *)
Definition set_shape (sh : seq (option nat)) (a : nd) : res nd :=
  if (ndim a < 2)%N then np_reshape sh a else Ok a.

(** Column [j] of a 2-D array. *)
Definition column (a : nd) (j : nat) : seq R := [seq nth 0 r j | r <- rows a].

(** [np.min], [np.max] of a non-empty 1-D array. *)
Definition np_min (s : seq R) : R := foldr Num.min (head 0 s) s.
Definition np_max (s : seq R) : R := foldr Num.max (head 0 s) s.

(** util.py:281-283 on one row of the array.  [cast] is the conversion numpy applies when
    it stores a float into the array: the identity for a float array, truncation towards
    zero for an integer array. *)
Definition pad_row (cast : R -> R) (ratio : R) (row : seq R) : seq R :=
  match row with
  | lo :: hi :: rest =>
      let pad := ratio * (hi - lo) in
      [:: cast (lo - pad), cast (hi + pad) & rest]
  | _ => row
  end.

(** util.py:243-284 fit_domain with [min_max_bounds] given as a 2-D array: the array itself
    is overwritten and returned, so the result is also the caller's array afterwards
    (nothing is written when indexing fails). *)
Definition fit_domain_bounds (cast : R -> R) (ratio : R) (B : nd) : res nd :=
  if (ndim B < 2)%N || (dim B 1 < 2)%N then Err IndexError
  else Ok (Nd (shape B) (flatten [seq pad_row cast ratio r | r <- rows B])).

(** util.py:279-280: bounds of a 2-D array [x] per column (ValueError: columns but no rows). *)
Definition bounds_of (x : nd) : res nd :=
  if (dim x 0 == 0%N) && (dim x 1 != 0%N) then Err ValueError
  else Ok (nd2 2 [seq [:: np_min (column x j); np_max (column x j)] | j <- iota 0 (dim x 1)]).

(** util.py:243-284 fit_domain(x, min_max_bounds, pad_ratio). *)
Definition fit_domain (cast : R -> R) (x bounds : option nd) (ratio : R) : res nd :=
  match bounds with
  | Some B => fit_domain_bounds cast ratio B
  | None =>
      match x with
      | None => Err ValueError
      | Some x => B <- bounds_of x ;; fit_domain_bounds cast ratio B
      end
  end.
End Util.
