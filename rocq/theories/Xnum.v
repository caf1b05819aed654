(** Numbers as float64 has them, with exact arithmetic: finite values, the two
    infinities and NaN; numpy's [argmax], [argmin], [sum], [prod] on 1-D arrays.
    Simplification: no rounding, overflow or signed zeros (a zero divisor acts as +0.0). *)
Set Warnings "-notation-overridden,-ambiguous-paths".
From mathcomp Require Import all_ssreflect all_algebra.
From Verif Require Import Py.
Set Implicit Arguments. Unset Strict Implicit. Unset Printing Implicit Defensive.
Import Order.Theory GRing.Theory Num.Theory.
Local Open Scope ring_scope.

Inductive xnum (R : Type) := Fin of R | PInf | NInf | NaN.
Arguments PInf {R}.
Arguments NInf {R}.
Arguments NaN {R}.

Section Xnum.
Variable R : realFieldType.
Notation xnum := (xnum R).
Implicit Types x y : xnum.

Definition isnan x : bool := if x is NaN then true else false.
Definition isfin x : bool := if x is Fin _ then true else false.

Definition xneg x : xnum :=
  match x with Fin a => Fin (- a) | PInf => NInf | NInf => PInf | NaN => NaN end.

Definition xadd x y : xnum :=
  match x, y with
  | NaN, _ | _, NaN => NaN
  | Fin a, Fin b => Fin (a + b)
  | PInf, NInf | NInf, PInf => NaN
  | PInf, _ | _, PInf => PInf
  | NInf, _ | _, NInf => NInf
  end.

(** infinity times a number of the given sign. *)
Definition xinf (a : R) : xnum := if 0 < a then PInf else if a < 0 then NInf else NaN.

Definition xmul x y : xnum :=
  match x, y with
  | NaN, _ | _, NaN => NaN
  | Fin a, Fin b => Fin (a * b)
  | Fin a, PInf | PInf, Fin a => xinf a
  | Fin a, NInf | NInf, Fin a => xinf (- a)
  | PInf, PInf | NInf, NInf => PInf
  | PInf, NInf | NInf, PInf => NInf
  end.

Definition xdiv x y : xnum :=
  match x, y with
  | NaN, _ | _, NaN => NaN
  | Fin a, Fin b => if b == 0 then xinf a else Fin (a / b)
  | Fin _, _ => Fin 0
  | PInf, Fin b => if b < 0 then NInf else PInf
  | NInf, Fin b => if b < 0 then PInf else NInf
  | _, _ => NaN
  end.

(** IEEE comparison: false as soon as a NaN is involved. *)
Definition xlt x y : bool :=
  match x, y with
  | Fin a, Fin b => a < b
  | Fin _, PInf | NInf, Fin _ | NInf, PInf => true
  | _, _ => false
  end.
Definition xle x y : bool :=
  match x, y with
  | NaN, _ | _, NaN => false
  | Fin a, Fin b => a <= b
  | NInf, _ | _, PInf => true
  | _, _ => false
  end.

Definition xsum (s : seq xnum) : xnum := foldr xadd (Fin 0) s.
Definition xprod (s : seq xnum) : xnum := foldr xmul (Fin 1) s.

(** numpy's argmax loop: replace the best value when the next one is not <= it; a NaN is
    taken and ends the search. *)
Fixpoint am_loop (i best : nat) (b : xnum) (s : seq xnum) : nat :=
  match s with
  | [::] => best
  | x :: s' => if isnan x then i
               else if xlt b x then am_loop i.+1 i x s'
               else am_loop i.+1 best b s'
  end.
(** [np.argmax] of a 1-D array; ValueError when empty. *)
Definition argmax (s : seq xnum) : res nat :=
  match s with
  | [::] => Err ValueError
  | x :: s' => Ok (if isnan x then 0%N else am_loop 1 0 x s')
  end.

(** [np.argmin], the same with the order reversed. *)
Definition argmin (s : seq xnum) : res nat := argmax [seq xneg x | x <- s].

End Xnum.
