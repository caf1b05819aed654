(** Python-level vocabulary: exceptions, results, slices.
    Models the exceptions raised by /repo/src/mud (and by the numpy calls it
    makes), not any particular function. *)
Set Warnings "-notation-overridden,-ambiguous-paths".
From mathcomp Require Import all_ssreflect all_algebra.
Set Implicit Arguments. Unset Strict Implicit. Unset Printing Implicit Defensive.

(** Exceptions that the modelled code can raise.  [OracleError] stands for any
    exception raised inside an oracle (scipy, sklearn, matplotlib). *)
Inductive exn :=
  | ValueError | AssertionError | AttributeError | TypeError | IndexError
  | KeyError | NameError | UnboundLocalError | LinAlgError
  | FileNotFoundError | ZeroDivisionError | OracleError.

(** Result of a Python call: a value or an exception. *)
Inductive res (A : Type) := Ok of A | Err of exn.
Arguments Err {A} _.

Definition rbind A B (r : res A) (f : A -> res B) : res B :=
  match r with Ok a => f a | Err e => Err e end.
Definition rmap A B (f : A -> B) (r : res A) : res B :=
  match r with Ok a => Ok (f a) | Err e => Err e end.

Declare Scope res_scope.
Delimit Scope res_scope with res.
Notation "x <- e1 ;; e2" := (rbind e1 (fun x => e2))
  (at level 61, e1 at next level, right associativity) : res_scope.
Open Scope res_scope.

Definition is_ok A (r : res A) : bool := if r is Ok _ then true else false.

(** [assert c] / [if not c: raise e]. *)
Definition guard (c : bool) (e : exn) : res unit := if c then Ok tt else Err e.

(** A loop collecting results, stopping at the first exception:
    [[f(x) for x in s]]. *)
Fixpoint rmapM A B (f : A -> res B) (s : seq A) : res (seq B) :=
  match s with
  | [::] => Ok [::]
  | x :: s' => y <- f x ;; ys <- rmapM f s' ;; Ok (y :: ys)
  end.

(** Length of the Python slice [a[:k]] of a sequence of length [n]; [None]
    is [a[:]]; negative [k] counts from the end. *)
Definition slice_len (n : nat) (k : option int) : nat :=
  match k with
  | None => n
  | Some (Posz k) => minn k n
  | Some (Negz k) => n - k.+1
  end.

(** Python/numpy integer indexing: negative indices wrap once, otherwise
    IndexError.  *)
Definition py_index (n : nat) (i : int) : res nat :=
  match i with
  | Posz k => if k < n then Ok k else Err IndexError
  | Negz k => if k < n then Ok (n - k.+1) else Err IndexError
  end.
