(** n-dimensional arrays as numpy stores them: a shape and the entries in
    row-major (C) order. *)
Set Warnings "-notation-overridden,-ambiguous-paths".
From mathcomp Require Import all_ssreflect all_algebra.
From Verif Require Import Py.
Set Implicit Arguments. Unset Strict Implicit. Unset Printing Implicit Defensive.

Record nd (V : Type) := Nd { shape : seq nat; data : seq V }.

Definition prodn (s : seq nat) : nat := foldr muln 1 s.

Section Nd.
Variable V : Type.
Implicit Types a : nd V.

(** Every numpy array satisfies this. *)
Definition nd_wf a : bool := size (data a) == prodn (shape a).

Definition ndim a : nat := size (shape a).
(** [a.shape[k]] for [k < ndim]. *)
Definition dim a (k : nat) : nat := nth 0 (shape a) k.

(** Shape arguments of [reshape]: [None] is the wildcard -1. *)
Definition known (sh : seq (option nat)) : nat :=
  prodn (pmap id sh).
Definition wild (sh : seq (option nat)) : nat := count (fun o => ~~ isSome o) sh.
Definition fill (sh : seq (option nat)) (k : nat) : seq nat :=
  [seq odflt k o | o <- sh].

(** numpy [reshape]: at most one wildcard, sizes must match. *)
Definition np_reshape (sh : seq (option nat)) a : res (nd V) :=
  let n := size (data a) in
  match wild sh with
  | 0 => if known sh == n then Ok (Nd (fill sh 0) (data a)) else Err ValueError
  | 1 => if (0 < known sh) && (known sh %| n)
         then Ok (Nd (fill sh (n %/ known sh)) (data a)) else Err ValueError
  | _ => Err ValueError
  end.

(** [np.array(list)] of scalars, and a 0-d array. *)
Definition nd1 (s : seq V) : nd V := Nd [:: size s] s.
Definition nd0 (x : V) : nd V := Nd [::] [:: x].
(** A 2-D array from its rows (all of length [c]). *)
Definition nd2 (c : nat) (rows : seq (seq V)) : nd V :=
  Nd [:: size rows; c] (flatten rows).

(** The rows of a 2-D array. *)
Definition rows a : seq (seq V) := reshape (nseq (dim a 0) (dim a 1)) (data a).

End Nd.
